(** Cells under an edit, the cases of a region, and the two axes of a rule. *)
From Verif Require Import Base Maps IntervalModel FpModel FpSpec SsModel SsSpec.
From Coq Require Import ZifyN ZifyNat ZifyBool.

Open Scope N_scope.

Definition oth (op : sop) (y : cell) : N := if o_rows op then ccol y else crow y.

Lemma cell_eq : forall op y z, csh y = csh z -> opx op y = opx op z -> oth op y = oth op z -> y = z.
Proof.
  intros op [a b c] [a' b' c']. unfold opx, oth. cbn [csh crow ccol]. intros A B C.
  destruct (o_rows op); subst; reflexivity.
Qed.

Lemma goes_iff : forall op y y',
  goes op y = Some y' <->
  csh y' = csh y /\ oth op y' = oth op y /\
  (if csh y =? o_sh op then goes1 op (opx op y) = Some (opx op y') else opx op y' = opx op y).
Proof.
  intros op [a r c] [a' r' c']. unfold goes, oth, opx. cbn [csh crow ccol].
  destruct (a =? o_sh op); destruct (o_rows op); cbn [csh crow ccol];
    split; intro H.
  - destruct (goes1 op r); [ | discriminate]. cbn [option_map] in H. injection H. intros. subst. auto.
  - destruct H as [A [B C]]. rewrite C. cbn [option_map]. subst. reflexivity.
  - destruct (goes1 op c); [ | discriminate]. cbn [option_map] in H. injection H. intros. subst. auto.
  - destruct H as [A [B C]]. rewrite C. cbn [option_map]. subst. reflexivity.
  - injection H. intros. subst. auto.
  - destruct H as [A [B C]]. subst. reflexivity.
  - injection H. intros. subst. auto.
  - destruct H as [A [B C]]. subst. reflexivity.
Qed.

(** The lowest coordinate that moves. *)
Definition thr (op : sop) : N := if o_del op then o_at op + o_n op else o_at op.
Definition dz (op : sop) : Z := if o_del op then (- Z.of_N (o_n op))%Z else Z.of_N (o_n op).

Lemma goes1_iff : forall op i j,
  goes1 op i = Some j <-> (i < o_at op /\ j = i) \/ (thr op <= i /\ Z.of_N j = (Z.of_N i + dz op)%Z).
Proof.
  intros op i j. unfold goes1, thr, dz.
  destruct (i <? o_at op) eqn:A.
  - split; intro H; [injection H; intros; subst; left; split; lia | ].
    destruct H as [[_ ->] | [H1 H2]]; [reflexivity | ]. destruct (o_del op); lia.
  - destruct (o_del op).
    + destruct (i <? o_at op + o_n op) eqn:B.
      * split; intro H; [discriminate | ]. exfalso. destruct H as [H | H]; lia.
      * split; intro H; [injection H; intros; subst; right; split; lia | ].
        f_equal. destruct H as [H | H]; lia.
    + split; intro H; [injection H; intros; subst; right; split; lia | ].
      f_equal. destruct H as [H | H]; lia.
Qed.

Lemma goes1_lt : forall op i j i' j', goes1 op i = Some i' -> goes1 op j = Some j' -> (i <= j <-> i' <= j').
Proof.
  intros op i j i' j' A B. apply goes1_iff in A. apply goes1_iff in B. unfold thr, dz in *.
  destruct (o_del op); split; intro; lia.
Qed.

(** Cases of an axis. *)
Lemma on_bounds : forall a x, x <= umax -> on a x -> fst (ax_bounds a) <= x <= snd (ax_bounds a).
Proof. intros a x U H. destruct a; cbn in *; lia. Qed.

Lemma class_below : forall op r i, classify op r = Below -> i <= umax -> on (op_axis op r) i -> i < o_at op.
Proof.
  intros op r i C U O. pose proof (on_bounds _ _ U O) as B.
  unfold classify in C. destruct (negb (sh r =? o_sh op)); [discriminate | ].
  unfold classify_axis in C.
  destruct (o_del op); destruct (snd (ax_bounds (op_axis op r)) <? o_at op) eqn:A; try lia.
  - destruct (sat32 (o_at op) (o_n op) <=? fst (ax_bounds (op_axis op r))); [discriminate | ].
    destruct ((o_at op <=? fst (ax_bounds (op_axis op r))) && (snd (ax_bounds (op_axis op r)) <? sat32 (o_at op) (o_n op))); discriminate.
  - destruct (o_at op <=? fst (ax_bounds (op_axis op r))); discriminate.
Qed.

Lemma sat32_ok : forall op, op_ok op -> sat32 (o_at op) (o_n op) = o_at op + o_n op.
Proof. intros op [_ H]. unfold sat32. lia. Qed.

Lemma class_above : forall op r d i, op_ok op -> classify op r = Above d -> i <= umax -> on (op_axis op r) i ->
  thr op <= i /\ d = dz op.
Proof.
  intros op r d i K C U O. pose proof (on_bounds _ _ U O) as B.
  unfold classify in C. destruct (negb (sh r =? o_sh op)); [discriminate | ].
  unfold classify_axis in C. rewrite (sat32_ok _ K) in C. unfold thr, dz.
  destruct (o_del op); destruct (snd (ax_bounds (op_axis op r)) <? o_at op) eqn:A; try discriminate.
  - destruct (o_at op + o_n op <=? fst (ax_bounds (op_axis op r))) eqn:E.
    + injection C. intros. subst. split; [lia | reflexivity].
    + destruct ((o_at op <=? fst (ax_bounds (op_axis op r))) && (snd (ax_bounds (op_axis op r)) <? o_at op + o_n op)); discriminate.
  - destruct (o_at op <=? fst (ax_bounds (op_axis op r))) eqn:E; [ | discriminate].
    injection C. intros. subst. split; [lia | reflexivity].
Qed.

Lemma class_contained : forall op r i, op_ok op -> classify op r = Contained -> i <= umax -> on (op_axis op r) i ->
  goes1 op i = None.
Proof.
  intros op r i K C U O. pose proof (on_bounds _ _ U O) as B.
  unfold classify in C. destruct (negb (sh r =? o_sh op)); [discriminate | ].
  unfold classify_axis in C. rewrite (sat32_ok _ K) in C. unfold goes1.
  destruct (o_del op); destruct (snd (ax_bounds (op_axis op r)) <? o_at op) eqn:A; try discriminate.
  - destruct (o_at op + o_n op <=? fst (ax_bounds (op_axis op r))) eqn:E; [discriminate | ].
    destruct ((o_at op <=? fst (ax_bounds (op_axis op r))) && (snd (ax_bounds (op_axis op r)) <? o_at op + o_n op)) eqn:F; [ | discriminate].
    destruct (i <? o_at op) eqn:G; [lia | ]. destruct (i <? o_at op + o_n op) eqn:H; [reflexivity | lia].
  - destruct (o_at op <=? fst (ax_bounds (op_axis op r))); discriminate.
Qed.

Lemma class_other : forall op r, classify op r = OtherSheet <-> sh r <> o_sh op.
Proof.
  intros op r. unfold classify. destruct (sh r =? o_sh op) eqn:E; cbn [negb].
  - split; [ | lia]. intro H. exfalso. unfold classify_axis in H.
    destruct (o_del op);
      repeat match type of H with (if ?b then _ else _) = _ => destruct b end; discriminate.
  - split; [lia | reflexivity].
Qed.

Lemma bound_on : forall a, ax_ok a -> on a (fst (ax_bounds a)) /\ on a (snd (ax_bounds a))
  /\ fst (ax_bounds a) <= umax /\ snd (ax_bounds a) <= umax.
Proof. intros a H. destruct a; cbn in *; unfold umax in *; lia. Qed.

Lemma class_straddles : forall op r, op_ok op -> rg_ok r -> classify op r = Straddles ->
  (exists i, on (op_axis op r) i /\ i <= umax /\ goes1 op i <> Some i)
  /\ (exists i j, on (op_axis op r) i /\ i <= umax /\ goes1 op i = Some j
        /\ exists k, on (op_axis op r) k /\ k <= umax /\ forall k', goes1 op k = Some k' -> (Z.of_N k' - Z.of_N k <> Z.of_N j - Z.of_N i)%Z).
Proof.
  intros op r K G C.
  assert (A : ax_ok (op_axis op r)) by (unfold op_axis, rg_ok in *; destruct (o_rows op); tauto).
  destruct (bound_on _ A) as [B1 [B2 [B3 B4]]].
  assert (Q : fst (ax_bounds (op_axis op r)) <= snd (ax_bounds (op_axis op r))) by (destruct (op_axis op r); cbn in *; lia).
  assert (M : forall x, fst (ax_bounds (op_axis op r)) <= x <= snd (ax_bounds (op_axis op r)) -> on (op_axis op r) x)
    by (intros x; destruct (op_axis op r); cbn in *; lia).
  unfold classify in C. destruct (negb (sh r =? o_sh op)); [discriminate | ].
  unfold classify_axis in C. rewrite (sat32_ok _ K) in C. destruct K as [K1 K2].
  remember (op_axis op r) as a. clear Heqa.
  remember (fst (ax_bounds a)) as lo. remember (snd (ax_bounds a)) as hi.
  assert (T : forall i j, goes1 op i = Some j -> (i < o_at op /\ j = i) \/ (thr op <= i /\ Z.of_N j = (Z.of_N i + dz op)%Z)) by (intros; apply goes1_iff; assumption).
  assert (T2 : forall i j, (i < o_at op /\ j = i) \/ (thr op <= i /\ Z.of_N j = (Z.of_N i + dz op)%Z) -> goes1 op i = Some j) by (intros; apply goes1_iff; assumption).
  unfold thr, dz in T, T2.
  destruct (o_del op).
  - destruct (hi <? o_at op) eqn:A1; [discriminate | ].
    destruct (o_at op + o_n op <=? lo) eqn:A2; [discriminate | ].
    destruct ((o_at op <=? lo) && (hi <? o_at op + o_n op)) eqn:A3; [discriminate | ].
    split.
    + destruct (lo <? o_at op) eqn:L.
      * exists (o_at op). split; [apply M; lia | ]. split; [lia | ]. intro X. apply T in X. lia.
      * exists lo. split; [assumption | ]. split; [lia | ]. intro X. apply T in X. lia.
    + destruct (lo <? o_at op) eqn:L.
      * exists lo, lo. split; [assumption | ]. split; [lia | ]. split; [apply T2; lia | ].
        exists (o_at op). split; [apply M; lia | ]. split; [lia | ]. intros k' X. apply T in X. lia.
      * exists hi, (hi - o_n op). split; [assumption | ]. split; [lia | ]. split; [apply T2; lia | ].
        exists lo. split; [assumption | ]. split; [lia | ]. intros k' X. apply T in X. lia.
  - destruct (hi <? o_at op) eqn:A1; [discriminate | ].
    destruct (o_at op <=? lo) eqn:A2; [discriminate | ].
    split.
    + exists hi. split; [assumption | ]. split; [lia | ]. intro X. apply T in X. lia.
    + exists lo, lo. split; [assumption | ]. split; [lia | ]. split; [apply T2; lia | ].
      exists hi. split; [assumption | ]. split; [lia | ]. intros k' X. apply T in X. lia.
Qed.

(** * The two axes of a rule *)

Definition rpair (rw : bool) (ru : rule) : option (proj * proj) :=
  match ru, rw with
  | ACell r _, true => Some (r, r)
  | ACell _ c, false => Some (c, c)
  | ARange r0 r1 _ _, true => Some (r0, r1)
  | ARange _ _ c0 c1, false => Some (c0, c1)
  | WCols c0 c1, false => Some (c0, c1)
  | _, _ => None
  end.
Definition axr (o : option (proj * proj)) (x y : N) : Prop :=
  match o with Some (a, b) => between (at_axis a x) (at_axis b x) y | None => True end.
Definition not_result (ru : rule) : Prop := ru <> WResult.

Lemma reads_axes : forall op ru p y, not_result ru ->
  (reads ru p y <-> axr (rpair (o_rows op) ru) (opx op p) (opx op y) /\ axr (rpair (negb (o_rows op)) ru) (oth op p) (oth op y)).
Proof.
  intros op ru p y NR. unfold opx, oth.
  destruct ru; try (exfalso; apply NR; reflexivity); destruct (o_rows op); cbn [reads rpair axr negb]; unfold between; intuition lia.
Qed.

Lemma axes_pair : forall ru rw, not_result ru ->
  (rpair rw ru = None <-> exists a b, ru = WCols a b /\ rw = true).
Proof.
  intros ru rw NR. destruct ru, rw; cbn; split; intro H; try discriminate; try congruence;
    try (destruct H as [x [y [A B]]]; discriminate); eauto.
Qed.

Lemma kinds_pair : forall ru rw a b, rpair rw ru = Some (a, b) ->
  bound_kinds ru rw = (negb (is_abs a) || negb (is_abs b), is_abs a || is_abs b).
Proof.
  intros ru rw a b H. destruct ru, rw; cbn [rpair] in H; try discriminate; injection H; intros; subst;
    cbn [bound_kinds]; unfold bkinds; cbn [existsb]; rewrite ?orb_false_r; try reflexivity;
    destruct (is_abs _); reflexivity.
Qed.

Lemma kinds_some : forall ru rw, fst (bound_kinds ru rw) = false -> snd (bound_kinds ru rw) = false -> False.
Proof.
  intros ru rw A B. destruct ru, rw; cbn [bound_kinds bkinds existsb fst snd] in *; unfold bkinds in *; cbn in *;
    repeat match goal with p : proj |- _ => destruct p end; cbn in *; discriminate.
Qed.

(** * What the partition of the reads tells *)

Lemma part_spec : forall op deps s s', partition_reads op deps s = Some s' ->
  (shifting_rel s' = false -> shifting_rel s = false) /\ (still_rel s' = false -> still_rel s = false)
  /\ (displaced_abs s' = false -> displaced_abs s = false)
  /\ Forall (fun dp =>
       classify op (fst dp) <> Straddles /\ classify op (fst dp) <> Contained
       /\ (above (classify op (fst dp)) = true ->
             (shifting_rel s' = false -> fst (bound_kinds (snd dp) (o_rows op)) = false)
             /\ (displaced_abs s' = false -> snd (bound_kinds (snd dp) (o_rows op)) = false))
       /\ (above (classify op (fst dp)) = false -> still_rel s' = false -> fst (bound_kinds (snd dp) (o_rows op)) = false)) deps.
Proof.
  intros op deps. induction deps as [ | [r ru] l IH]; intros s s' H; cbn [partition_reads fst snd] in H.
  - injection H. intros. subst. repeat split; auto.
  - destruct (classify op r) eqn:C; try discriminate;
      destruct (IH _ _ H) as [A [B [D F]]]; cbn [shifting_rel still_rel displaced_abs] in *;
      (split; [ intro Z; specialize (A Z); try apply orb_false_iff in A; tauto | ]);
      (split; [ intro Z; specialize (B Z); try apply orb_false_iff in B; tauto | ]);
      (split; [ intro Z; specialize (D Z); try apply orb_false_iff in D; tauto | ]);
      constructor; try assumption; cbn [fst snd]; rewrite C; cbn [above];
      (split; [discriminate | ]); (split; [discriminate | ]); (split; [ | ]); try discriminate;
      intros _; try (intro Z; specialize (B Z); apply orb_false_iff in B; tauto).
    split; intro Z; [specialize (A Z); apply orb_false_iff in A | specialize (D Z); apply orb_false_iff in D]; tauto.
Qed.
