From Coq Require Import SpecFloat.
From Coq Require Import ZifyN ZifyNat ZifyBool.
From Verif Require Import Base Maps ConvModel ConvSpec.
Local Open Scope Z_scope.

(** ** Induction over nested arrays *)
Section CvalueInd.
  Variable P : cvalue -> Prop.
  Hypothesis HNum : forall x, P (CNum x).
  Hypothesis HInt : forall i, P (CInt i).
  Hypothesis HSerial : forall x, P (CSerial x).
  Hypothesis HBool : forall b, P (CBool b).
  Hypothesis HText : forall t, P (CText t).
  Hypothesis HErr : forall k, P (CErr k).
  Hypothesis HEmpty : P CEmpty.
  Hypothesis HPending : P CPending.
  Hypothesis HArray : forall rows, Forall (Forall P) rows -> P (CArray rows).
  Fixpoint cvalue_ind' (v : cvalue) : P v :=
    match v with
    | CNum x => HNum x | CInt i => HInt i | CSerial x => HSerial x | CBool b => HBool b
    | CText t => HText t | CErr k => HErr k | CEmpty => HEmpty | CPending => HPending
    | CArray rows => HArray rows
        ((fix go (l : list (list cvalue)) : Forall (Forall P) l :=
            match l with
            | [] => Forall_nil _
            | r :: l' => Forall_cons r
                ((fix goc (r : list cvalue) : Forall P r :=
                    match r with [] => Forall_nil _ | c :: r' => Forall_cons c (cvalue_ind' c) (goc r') end) r)
                (go l')
            end) rows)
    end.
End CvalueInd.

(** ** The loops as separate functions *)
Section Loops.
Variable tol : spec_float.
Fixpoint cells (ra rb : list cvalue) (out : outcome) : outcome + outcome :=
  match ra, rb with
  | ea :: ra', eb :: rb' =>
    let e := values_converged tol ea eb in
    if converged e then cells ra' rb' (out_merge out e) else inr out_no
  | _, _ => inl out
  end.
Fixpoint rows (a b : list (list cvalue)) (out : outcome) : outcome :=
  match a, b with
  | ra :: a', rb :: b' =>
    match cells ra rb out with inl out' => rows a' b' out' | inr o => o end
  | _, _ => out
  end.
End Loops.

Lemma converged_array : forall tol a b,
  values_converged tol (CArray a) (CArray b) = if same_shape a b then rows tol a b out_yes else out_no.
Proof. reflexivity. Qed.

(** ** IEEE facts *)
Lemma round_abs : forall s m e, SFabs (binary_round 53 1024 s m e) = SFabs (binary_round 53 1024 false m e).
Proof.
  intros s m e. unfold binary_round. destruct (shl_align _ _ _) as [mz ez]. unfold binary_round_aux.
  destruct (shr_fexp _ _ _ _ _) as [mrs e']. destruct (shr_fexp _ _ _ _ _) as [mrs' e''].
  destruct (shr_m mrs'); try reflexivity. destruct (_ <=? _)%Z; reflexivity.
Qed.

Lemma normalize_abs : forall m e, SFabs (binary_normalize 53 1024 (- m) e false) = SFabs (binary_normalize 53 1024 m e false).
Proof. intros [|m|m] e; cbn [Z.opp binary_normalize]; auto; [|symmetry]; apply (round_abs true). Qed.

Lemma fdelta_sym : forall a b, fdelta a b = fdelta b a.
Proof.
  intros a b. unfold fdelta. destruct a as [sa|sa| |sa ma ea], b as [sb|sb| |sb mb eb]; try reflexivity;
    try (destruct sa, sb; reflexivity).
  cbn [SFsub]. rewrite (Z.min_comm ea eb).
  set (x := cond_Zopp sa _). set (y := cond_Zopp sb _). replace (x - y) with (- (y - x)) by lia.
  symmetry. apply normalize_abs.
Qed.

Lemma fdelta_self_finite : forall s m e, fdelta (S754_finite s m e) (S754_finite s m e) = S754_zero false.
Proof. intros s m e. unfold fdelta. cbn [SFsub]. rewrite Z.sub_diag. reflexivity. Qed.
Lemma fdelta_self_zero : forall s, fdelta (S754_zero s) (S754_zero s) = S754_zero false.
Proof. intros []; reflexivity. Qed.

(** An i64 always converts to a finite float. *)
Lemma shr_1_bound : forall r, 0 <= shr_m r -> 0 <= shr_m (shr_1 r) <= shr_m r.
Proof.
  intros [m r s] H. cbn in H. destruct m as [|[p|p|]|[p|p|]]; cbn [shr_1 shr_m]; lia.
Qed.
Lemma iter_shr_bound : forall p r, 0 <= shr_m r -> 0 <= shr_m (SpecFloat.iter_pos shr_1 p r) <= shr_m r.
Proof.
  induction p as [p IH|p IH|]; intros r H; cbn [SpecFloat.iter_pos].
  - pose proof (shr_1_bound r H). destruct (IH (shr_1 r)); [lia|]. destruct (IH (SpecFloat.iter_pos shr_1 p (shr_1 r))); lia.
  - destruct (IH r H). destruct (IH (SpecFloat.iter_pos shr_1 p r)); lia.
  - now apply shr_1_bound.
Qed.
Lemma record_of_loc_m : forall m l, shr_m (shr_record_of_loc m l) = m.
Proof. intros m [|[]]; reflexivity. Qed.
Lemma shr_fexp_bound : forall m e l mrs e', 0 <= m -> shr_fexp 53 1024 m e l = (mrs, e') ->
  0 <= shr_m mrs <= m /\ e' = Z.max e (fexp 53 1024 (Zdigits2 m + e)).
Proof.
  intros m e l mrs e' Hm H. unfold shr_fexp, shr in H. pose proof (record_of_loc_m m l) as R.
  destruct (fexp 53 1024 (Zdigits2 m + e) - e) as [|p|p] eqn:E; inversion H; subst.
  - rewrite R. lia.
  - pose proof (iter_shr_bound p (shr_record_of_loc m l)). rewrite R in *. lia.
  - rewrite R. lia.
Qed.

Lemma digits2_pos_bound : forall p k, 0 <= k -> Zpos p < 2 ^ k -> Zpos (digits2_pos p) <= k.
Proof.
  induction p as [p IH|p IH|]; intros k Hk H; cbn [digits2_pos].
  - assert (0 < k) by (destruct (Z.eq_dec k 0); [subst; cbn in H; lia|lia]).
    assert (E : 2 ^ k = 2 * 2 ^ (k - 1)) by (rewrite <- Z.pow_succ_r by lia; f_equal; lia).
    specialize (IH (k - 1)). lia.
  - assert (0 < k) by (destruct (Z.eq_dec k 0); [subst; cbn in H; lia|lia]).
    assert (E : 2 ^ k = 2 * 2 ^ (k - 1)) by (rewrite <- Z.pow_succ_r by lia; f_equal; lia).
    specialize (IH (k - 1)). lia.
  - destruct (Z.eq_dec k 0); [subst; cbn in H; lia|lia].
Qed.
Lemma digits2_pos_lt : forall p, Zpos p < 2 ^ Zpos (digits2_pos p).
Proof.
  induction p as [p IH|p IH|]; cbn [digits2_pos]; [| |reflexivity];
    rewrite Pos2Z.inj_succ, Z.pow_succ_r by lia; lia.
Qed.
Lemma shift_pos_mul : forall d p, Zpos (shift_pos d p) = Zpos p * 2 ^ Zpos d.
Proof. intros d p. rewrite shift_pos_correct, Z.pow_pos_fold. lia. Qed.
Lemma Zdigits2_bound : forall m k, 0 <= k -> 0 <= m < 2 ^ k -> Zdigits2 m <= k.
Proof. intros [|p|p] k Hk H; cbn [Zdigits2]; [lia| |lia]. apply digits2_pos_bound; lia. Qed.

Lemma fexp_bound : forall d, fexp 53 1024 d = Z.max (d - 53) (-1074).
Proof. reflexivity. Qed.

Lemma round_aux_finite : forall s m e, 0 <= m < 2 ^ 65 -> e <= 0 ->
  match binary_round_aux 53 1024 s m e loc_Exact with
  | S754_zero _ | S754_finite _ _ _ => True | _ => False end.
Proof.
  intros s m e Hm He. unfold binary_round_aux.
  destruct (shr_fexp 53 1024 m e loc_Exact) as [mrs e'] eqn:E1.
  destruct (shr_fexp_bound _ _ _ _ _ (proj1 Hm) E1) as [B1 F1].
  set (m1 := round_nearest_even (shr_m mrs) (loc_of_shr_record mrs)).
  assert (B2 : 0 <= m1 < 2 ^ 66).
  { unfold m1, round_nearest_even. destruct (loc_of_shr_record mrs) as [|[]]; [| | |]; try lia. destruct (Z.even _); lia. }
  destruct (shr_fexp 53 1024 m1 e' loc_Exact) as [mrs' e''] eqn:E2.
  destruct (shr_fexp_bound _ _ _ _ _ (proj1 B2) E2) as [B3 F2].
  pose proof (Zdigits2_bound m 65 ltac:(lia) Hm). pose proof (Zdigits2_bound m1 66 ltac:(lia) B2).
  rewrite fexp_bound in *.
  destruct (shr_m mrs') eqn:Em; auto; [|lia]. destruct (Z.leb_spec e'' (1024 - 53)); auto. lia.
Qed.

Lemma int_finite : forall i, Z.abs i <= 2 ^ 63 ->
  match int_to_f64 i with S754_zero _ | S754_finite _ _ _ => True | _ => False end.
Proof.
  assert (P : forall s p, Zpos p <= 2 ^ 63 ->
    match binary_round 53 1024 s p 0 with S754_zero _ | S754_finite _ _ _ => True | _ => False end).
  { intros s p H. unfold binary_round. assert (D : Zpos (digits2_pos p) <= 64) by (apply digits2_pos_bound; lia).
    rewrite fexp_bound. unfold shl_align. set (f := Z.max _ _). 
    destruct (f - 0) as [|d|d] eqn:E.
    - apply round_aux_finite; lia.
    - apply round_aux_finite; lia.
    - apply round_aux_finite; [|lia]. split; [lia|].
      rewrite shift_pos_mul. pose proof (digits2_pos_lt p) as L.
      assert (DD : Zpos (digits2_pos p) + Zpos d <= 1074 + 64) by (unfold f in E; lia).
      assert (DE : Zpos d = 53 - Zpos (digits2_pos p)) by (unfold f in E; lia).
      apply Z.lt_le_trans with (2 ^ Zpos (digits2_pos p) * 2 ^ Zpos d).
      + apply Z.mul_lt_mono_pos_r; [|exact L]. apply Z.pow_pos_nonneg; lia.
      + rewrite <- Z.pow_add_r by lia. apply Z.pow_le_mono_r; lia. }
  intros [|p|p] H; unfold int_to_f64, binary_normalize; auto; apply P; lia.
Qed.

(** ** The test decides [settled] *)
Lemma number_serial : forall v x, number_is v x <-> numeric_serial v = Some x.
Proof.
  intros v x; split.
  - intros []; reflexivity.
  - destruct v; cbn; intros H; inversion H; constructor.
Qed.

Lemma same_shape_spec : forall A (a b : list (list A)),
  same_shape a b = true <-> Forall2 (fun x y => length x = length y) a b.
Proof.
  induction a as [|x a IH]; intros [|y b]; cbn [same_shape]; split; intros H; try discriminate; auto; try now inversion H.
  - apply andb_true_iff in H as [H1 H2]. constructor; [now apply Nat.eqb_eq|now apply IH].
  - inversion H; subst. apply andb_true_iff. split; [now apply Nat.eqb_eq|now apply IH].
Qed.

Lemma out_merge_converged : forall o e, converged (out_merge o e) = converged o.
Proof. reflexivity. Qed.

Lemma cells_spec : forall tol ra rb out, length ra = length rb ->
  match cells tol ra rb out with
  | inl o => converged o = converged out /\ Forall2 (fun x y => converged (values_converged tol x y) = true) ra rb
  | inr o => o = out_no /\ ~ Forall2 (fun x y => converged (values_converged tol x y) = true) ra rb
  end.
Proof.
  induction ra as [|x ra IH]; intros [|y rb] out L; cbn [cells]; try discriminate; auto.
  destruct (converged (values_converged tol x y)) eqn:E.
  - specialize (IH rb (out_merge out (values_converged tol x y)) ltac:(cbn in L; lia)).
    destruct (cells tol ra rb _); rewrite ?out_merge_converged in IH; destruct IH as [I1 I2].
    + split; auto.
    + split; auto. intros F. inversion F; auto.
  - split; auto. intros F. inversion F; congruence.
Qed.
Lemma rows_spec : forall tol a b out, same_shape a b = true ->
  (converged (rows tol a b out) = true <->
   converged out = true /\ Forall2 (Forall2 (fun x y => converged (values_converged tol x y) = true)) a b).
Proof.
  induction a as [|x a IH]; intros [|y b] out L; cbn [rows]; try discriminate.
  - split; [intros H; split; auto|tauto].
  - cbn [same_shape] in L. apply andb_true_iff in L as [L1 L2]. apply Nat.eqb_eq in L1.
    pose proof (cells_spec tol x y out L1) as C. destruct (cells tol x y out) as [o|o].
    + rewrite (IH b o L2). destruct C as [C1 C2]. rewrite C1. split; intros [H1 H2]; split; auto. now inversion H2.
    + destruct C as [-> C]. split; [discriminate|]. intros [_ F]. inversion F; contradiction.
Qed.

Lemma Forall2_shape : forall A B (R : A -> B -> Prop) a b, Forall2 (Forall2 R) a b ->
  Forall2 (fun x y => length x = length y) a b.
Proof. intros A B R a b H. induction H; constructor; auto. clear - H. induction H; cbn; auto. Qed.

Lemma array_spec : forall tol a b,
  converged (values_converged tol (CArray a) (CArray b)) = true <->
  Forall2 (Forall2 (fun x y => converged (values_converged tol x y) = true)) a b.
Proof.
  intros tol a b. rewrite converged_array. destruct (same_shape a b) eqn:S0.
  - rewrite (rows_spec tol a b out_yes S0). cbn. tauto.
  - split; [discriminate|]. intros F. exfalso. apply Forall2_shape in F.
    induction F; [discriminate|]. cbn in S0. rewrite H, Nat.eqb_refl in S0. auto.
Qed.

Lemma settled_array : forall tol a b, settled tol (CArray a) (CArray b) -> Forall2 (Forall2 (settled tol)) a b.
Proof.
  intros tol a b H. remember (CArray a) as x. remember (CArray b) as y.
  destruct H as [? ? ? ? N _ _|? ? ? N _| | | | |a' b' F]; try discriminate.
  - subst. inversion N.
  - subst. inversion N.
  - congruence.
Qed.

Lemma numbers_settled : forall tol u v a b, number_is u a -> number_is v b ->
  (converged (numbers_converged a b tol) = true <-> settled tol u v).
Proof.
  intros tol u v a b Hu Hv. split.
  - intros H; destruct a as [ax|an], b as [bx|bn]; cbn [numbers_converged] in H; try discriminate.
    + eapply st_num; eauto.
    + destruct (N.eqb_spec an bn); [subst; eapply st_nan; eauto|discriminate].
  - intros H. destruct H as [u v x y A1 A2 A3|u v n A1 A2| | | | |]; try now inversion Hu.
    + apply number_serial in A1, A2, Hu, Hv. rewrite A1 in Hu. rewrite A2 in Hv. inversion Hu; inversion Hv; subst. exact A3.
    + apply number_serial in A1, A2, Hu, Hv. rewrite A1 in Hu. rewrite A2 in Hv. inversion Hu; inversion Hv; subst. cbn. now rewrite N.eqb_refl.
Qed.

Lemma converged_settled : forall tol a b,
  converged (values_converged tol a b) = true <-> settled tol a b.
Proof.
  intros tol a. induction a as [x|i|x|x|t|k| | |rs IH] using cvalue_ind'; intros b.
  9: {
    destruct b as [x|i|x|x|t|k| | |rs']; try (split; [discriminate|intros H; inversion H; subst; try discriminate;
      match goal with H : number_is (CArray _) _ |- _ => inversion H end]).
    rewrite array_spec. split; intros H.
    - constructor. revert rs' H. induction IH as [|r rs Hr _ IHr]; intros rs' H; inversion H; subst; constructor; auto.
      clear - Hr H2. revert y H2. induction Hr; intros y H2; inversion H2; subst; constructor; auto. now apply H.
    - apply settled_array in H.
      revert rs' H. induction IH as [|r rs Hr _ IHr]; intros rs' H; inversion H; subst; constructor; auto.
      clear - Hr H2. revert y H2. induction Hr; intros y H2; inversion H2; subst; constructor; auto. now apply H. }
  1-3: (destruct (numeric_serial b) as [y|] eqn:Eb;
    [cbn [values_converged]; rewrite Eb; apply number_serial in Eb; cbn [numeric_serial]; apply numbers_settled; [constructor|exact Eb] |
     destruct b; try discriminate; (split; [discriminate|intros H; inversion H; subst; match goal with H : number_is _ _ |- _ => now inversion H end])]).
  - destruct b; cbn; try (split; [discriminate|intros H; inversion H; subst; try discriminate; match goal with H : number_is _ _ |- _ => now inversion H end]).
    destruct (Bool.eqb_spec x b); subst; split; try discriminate; intros H; try constructor.
    inversion H; subst; try congruence; match goal with H : number_is _ _ |- _ => now inversion H end.
  - destruct b; cbn; try (split; [discriminate|intros H; inversion H; subst; try discriminate; match goal with H : number_is _ _ |- _ => now inversion H end]).
    destruct (text_eqb t t0) eqn:E.
    + apply text_eqb_spec in E. subst. split; intros; [constructor|reflexivity].
    + split; [discriminate|]. intros H; inversion H; subst; try (match goal with H : number_is _ _ |- _ => now inversion H end).
      rewrite (proj2 (text_eqb_spec t0 t0) eq_refl) in E. discriminate.
  - destruct b; cbn; try (split; [discriminate|intros H; inversion H; subst; try discriminate; match goal with H : number_is _ _ |- _ => now inversion H end]).
    destruct (N.eqb_spec k kind); subst; split; try discriminate; intros H; try constructor.
    inversion H; subst; try congruence; match goal with H : number_is _ _ |- _ => now inversion H end.
  - destruct b; cbn; split; try discriminate; intros H; try constructor; inversion H; subst; match goal with H : number_is _ _ |- _ => now inversion H end.
  - destruct b; cbn; split; try discriminate; intros H; inversion H; subst; match goal with H : number_is _ _ |- _ => now inversion H end.
Qed.

(** ** Symmetry of the whole outcome *)
Lemma same_shape_sym : forall A (a b : list (list A)), same_shape a b = same_shape b a.
Proof. induction a as [|x a IH]; intros [|y b]; cbn; auto. now rewrite IH, Nat.eqb_sym. Qed.

Lemma numbers_sym : forall a b tol, numbers_converged a b tol = numbers_converged b a tol.
Proof. intros [x|n] [y|m] tol; cbn [numbers_converged]; auto; [now rewrite fdelta_sym|]. rewrite N.eqb_sym. destruct (m =? n)%N; reflexivity. Qed.

Lemma values_sym : forall tol a b, values_converged tol a b = values_converged tol b a.
Proof.
  intros tol a. induction a as [x|i|x|x|t|k| | |rs IH] using cvalue_ind'; intros b; destruct b as [y|j|y|y|u|l| | |rs']; try reflexivity;
    try (cbn [values_converged numeric_serial]; apply numbers_sym).
  - cbn. destruct x, y; reflexivity.
  - cbn. destruct (text_eqb t u) eqn:E; destruct (text_eqb u t) eqn:E'; auto.
    + apply text_eqb_spec in E. subst. now rewrite (proj2 (text_eqb_spec u u) eq_refl) in E'.
    + apply text_eqb_spec in E'. subst. now rewrite (proj2 (text_eqb_spec t t) eq_refl) in E.
  - cbn. rewrite N.eqb_sym. reflexivity.
  - rewrite !converged_array, (same_shape_sym _ rs rs').
    assert (R : forall out, rows tol rs rs' out = rows tol rs' rs out).
    { revert rs'. induction IH as [|r rs Hr _ IHr]; intros [|r' rs'] out; cbn [rows]; auto.
      assert (C : forall o, cells tol r r' o = cells tol r' r o).
      { clear - Hr. revert r'. induction Hr; intros [|c r'] o; cbn [cells]; auto. rewrite H. destruct (converged _); auto. }
      rewrite C. destruct (cells tol r' r out); auto. }
    now rewrite R.
Qed.

Lemma regular_settled : forall tol v, SFltb (S754_zero false) tol = true -> regular v -> settled tol v v.
Proof.
  intros tol v T. induction v as [x|i|x|x|t|k| | |rs IH] using cvalue_ind'; intros R; try constructor.
  - inversion R; subst; try (eapply st_nan; constructor); (eapply st_num; [constructor|constructor|]).
    + fold (fdelta (S754_zero s) (S754_zero s)). now rewrite fdelta_self_zero.
    + fold (fdelta (S754_finite s m e) (S754_finite s m e)). now rewrite fdelta_self_finite.
  - eapply st_num; [constructor|constructor|]. inversion R; subst. pose proof (int_finite i H0) as F. unfold int_to_f64 in F.
    fold (fdelta (binary_normalize 53 1024 i 0 false) (binary_normalize 53 1024 i 0 false)).
    destruct (binary_normalize 53 1024 i 0 false); try contradiction; [now rewrite fdelta_self_zero|now rewrite fdelta_self_finite].
  - inversion R; subst; (eapply st_num; [constructor|constructor|]).
    + fold (fdelta (S754_zero s) (S754_zero s)). now rewrite fdelta_self_zero.
    + fold (fdelta (S754_finite s m e) (S754_finite s m e)). now rewrite fdelta_self_finite.
  - inversion R.
  - inversion R; subst. clear R. induction IH as [|r rs Hr _ IHr]; constructor.
    + inversion H0; subst. clear - Hr H2. induction Hr; constructor; inversion H2; subst; auto.
    + inversion H0; subst; auto.
Qed.
