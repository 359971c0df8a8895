(** Names, and what fails. *)
From Verif Require Import Base Maps RefModel RefSpec RefProofs RefProofs2 RefProofs3 RefProofs4.
From Coq Require Import ZifyN ZifyNat ZifyBool.
Ltac Zify.zify_post_hook ::= Z.div_mod_to_equations.
Open Scope N_scope.

(** * Names *)
Definition endpoints (d : named) : list cref :=
  match d with NCell c => [c] | NRange a b => [a; b] | _ => [] end.

(** No endpoint of the name is deleted. *)
Definition ends_survive (op : shift_op) (d : named) : Prop :=
  forall c, In c (endpoints d) -> goes op (k_sheet c, k_row c, k_col c) <> None.

Definition binds_cells (d : named) : Prop := endpoints d <> [].

Lemma pushed_delete_mono : forall op i j i' j', o_kind op = Delete ->
  pushed op i = Some i' -> pushed op j = Some j' -> (i <= j <-> i' <= j').
Proof.
  intros op i j i' j' K A B. unfold pushed in *. rewrite K in *.
  destruct (N.ltb_spec i (o_at op)), (N.ltb_spec j (o_at op)),
    (N.ltb_spec i (o_at op + o_count op)), (N.ltb_spec j (o_at op + o_count op)); try discriminate;
    inversion A; inversion B; subst; lia.
Qed.

Lemma adj_cref_delete : forall op c, o_kind op = Delete -> o_at op + o_count op + 1 < U32 ->
  k_row c <= ROW_MAX -> k_col c <= COL_MAX ->
  adj_cref op c = Ok (match goes op (k_sheet c, k_row c, k_col c) with
                      | Some (s, r, k) => Some (mkRef s r k (k_rabs c) (k_cabs c))
                      | None => None
                      end).
Proof.
  intros op c K C R1 R2. unfold adj_cref, goes. destruct (N.eqb_spec (k_sheet c) (o_sheet op)) as [E|E].
  - unfold adj_cell. rewrite K, !(adj_delete_cell op K C). destruct (o_axis op).
    + destruct (pushed op (k_row c)) as [x|] eqn:P; [|reflexivity].
      pose proof (pushed_le op K C _ _ P).
      assert (F : coord_fits x (k_col c) = true) by (unfold coord_fits; apply andb_true_iff; split; apply N.leb_le; lia).
      rewrite F. reflexivity.
    + destruct (pushed op (k_col c)) as [x|] eqn:P; [|reflexivity].
      pose proof (pushed_le op K C _ _ P).
      assert (F : coord_fits (k_row c) x = true) by (unfold coord_fits; apply andb_true_iff; split; apply N.leb_le; lia).
      rewrite F. reflexivity.
  - destruct c. reflexivity.
Qed.

Theorem name_delete : forall get_id op f d,
  o_kind op = Delete -> o_at op + o_count op + 1 < U32 ->
  binds_cells d -> name_ok d -> ends_survive op d ->
  exists d', adjust_named get_id op f d = Ok d' /\ name_kept op d d'.
Proof.
  intros get_id op f d K C B W S. destruct d as [c|a b|t|x]; try (exfalso; apply B; reflexivity).
  - cbn [adjust_named]. destruct W as [W1 W2]. rewrite adj_cref_delete by auto.
    specialize (S c (or_introl eq_refl)).
    destruct (goes op (k_sheet c, k_row c, k_col c)) as [[[s r] k]|] eqn:G; [|congruence]. cbn [rbind].
    eexists. split; [reflexivity|]. right. split; [do 2 eexists; split; [|exact G]; cbn; auto|].
    intros [[s1 r1] c1] [[s2 r2] c2] H. cbn. unfold goes in *.
    destruct (N.eqb_spec (k_sheet c) (o_sheet op)), (N.eqb_spec s1 (o_sheet op)).
    + destruct (o_axis op).
      * destruct (pushed op (k_row c)) eqn:P1; inversion G; subst.
        destruct (pushed op r1) eqn:P2; inversion H; subst. split; intros (X & Y & Z); subst.
        -- pose proof (pushed_inj op K C _ _ _ P1 P2). subst. repeat split; auto; congruence.
        -- rewrite P1 in P2. inversion P2. repeat split; auto.
      * destruct (pushed op (k_col c)) eqn:P1; inversion G; subst.
        destruct (pushed op c1) eqn:P2; inversion H; subst. split; intros (X & Y & Z); subst.
        -- pose proof (pushed_inj op K C _ _ _ P1 P2). subst. repeat split; auto; congruence.
        -- rewrite P1 in P2. inversion P2. repeat split; auto.
    + inversion H; subst. destruct (o_axis op); [destruct (pushed op (k_row c))|destruct (pushed op (k_col c))];
      inversion G; subst; split; intros (X & _); congruence.
    + inversion G; subst. destruct (o_axis op); [destruct (pushed op r1)|destruct (pushed op c1)];
      inversion H; subst; split; intros (X & _); congruence.
    + inversion G; inversion H; subst. tauto.
  - cbn [adjust_named]. destruct W as (W0 & W1 & W2).
    rewrite adj_cref_delete by (auto; lia). cbn [rbind]. rewrite adj_cref_delete by (auto; lia). cbn [rbind].
    pose proof (S a (or_introl eq_refl)) as S1. pose proof (S b (or_intror (or_introl eq_refl))) as S2.
    destruct (goes op (k_sheet a, k_row a, k_col a)) as [[[s r] k]|] eqn:G1; [|congruence].
    destruct (goes op (k_sheet b, k_row b, k_col b)) as [[[s' r'] k']|] eqn:G2; [|congruence].
    eexists. split; [reflexivity|]. right.
    split; [do 2 eexists; split; [|exact G1]; cbn; split; auto; lia|].
    rewrite W0 in G2.
    intros [[s1 r1] c1] [[s2 r2] c2] H. cbn. unfold goes in *.
    destruct (N.eqb_spec (k_sheet a) (o_sheet op)), (N.eqb_spec s1 (o_sheet op)).
    + destruct (o_axis op).
      * destruct (pushed op (k_row a)) eqn:P1; inversion G1; subst.
        destruct (pushed op (k_row b)) eqn:P3; inversion G2; subst.
        destruct (pushed op r1) eqn:P2; inversion H; subst.
        pose proof (pushed_delete_mono op _ _ _ _ K P1 P2). pose proof (pushed_delete_mono op _ _ _ _ K P2 P3).
        split; intros (X & Y & Z); repeat split; auto; try lia; congruence.
      * destruct (pushed op (k_col a)) eqn:P1; inversion G1; subst.
        destruct (pushed op (k_col b)) eqn:P3; inversion G2; subst.
        destruct (pushed op c1) eqn:P2; inversion H; subst.
        pose proof (pushed_delete_mono op _ _ _ _ K P1 P2). pose proof (pushed_delete_mono op _ _ _ _ K P2 P3).
        split; intros (X & Y & Z); repeat split; auto; try lia; congruence.
    + inversion H; subst. destruct (o_axis op);
      [destruct (pushed op (k_row a)); inversion G1|destruct (pushed op (k_col a)); inversion G1];
      subst; split; intros (X & _); congruence.
    + inversion G1; subst. destruct (o_axis op); [destruct (pushed op r1)|destruct (pushed op c1)];
      inversion H; subst; split; intros (X & _); congruence.
    + inversion G1; inversion G2; inversion H; subst. tauto.
Qed.


(** * Moving a formula all of whose references are absolute *)
Lemma inside_dec : forall get_id m f r, on_sheet r -> absolute r ->
  inside get_id m f r \/ ~ inside get_id m f r.
Proof.
  intros get_id m f r O A. destruct r as [c|g|t].
  - cbn in O. destruct (sheet_of get_id f (c_sheet c)) as [s|] eqn:E.
    2: { right. intros (([[s i] j] & X & _) & _). congruence. }
    assert (HERE : refers get_id f (RCell c) (s, c_row c - 1, c_col c - 1)) by (cbn; rewrite E; split; [auto|lia]).
    destruct (N.eqb_spec s (v_from m)); [|right; intros (_ & I); destruct (I _ HERE); auto].
    destruct (N.leb_spec (v_r0 m) (c_row c - 1)); [|right; intros (_ & I); destruct (I _ HERE); lia].
    destruct (N.leb_spec (c_row c - 1) (v_r1 m)); [|right; intros (_ & I); destruct (I _ HERE); lia].
    destruct (N.leb_spec (v_c0 m) (c_col c - 1)); [|right; intros (_ & I); destruct (I _ HERE); lia].
    destruct (N.leb_spec (c_col c - 1) (v_c1 m)); [|right; intros (_ & I); destruct (I _ HERE); lia].
    left. split; [eauto|]. intros [[s' i] j] (X & Y & Z). rewrite E in X. inversion X. subst. cbn. lia.
  - destruct O as (B1 & B2 & B3 & B4 & B5 & B6). destruct A as (_ & _ & _ & _ & N1 & N2 & N3 & N4).
    destruct (r_sr g) as [a|] eqn:E1; [|congruence]. destruct (r_er g) as [b|] eqn:E2; [|congruence].
    destruct (r_sc g) as [c|] eqn:E3; [|congruence]. destruct (r_ec g) as [d|] eqn:E4; [|congruence].
    cbn in B1, B2, B3, B4, B5, B6.
    destruct (sheet_of get_id f (r_sheet g)) as [s|] eqn:E.
    2: { right. intros (([[s i] j] & X & _) & _). congruence. }
    assert (REF : forall i j, refers get_id f (RRange g) (s, i, j) <-> a <= i + 1 <= b /\ c <= j + 1 <= d).
    { intros i j. cbn. rewrite E, E1, E2, E3, E4. unfold in_axis. intuition. }
    assert (L : refers get_id f (RRange g) (s, a - 1, c - 1)) by (apply REF; lia).
    assert (H : refers get_id f (RRange g) (s, b - 1, d - 1)) by (apply REF; lia).
    destruct (N.eqb_spec s (v_from m)); [|right; intros (_ & I); destruct (I _ L); auto].
    destruct (N.leb_spec (v_r0 m) (a - 1)); [|right; intros (_ & I); destruct (I _ L); lia].
    destruct (N.leb_spec (b - 1) (v_r1 m)); [|right; intros (_ & I); destruct (I _ H); lia].
    destruct (N.leb_spec (v_c0 m) (c - 1)); [|right; intros (_ & I); destruct (I _ L); lia].
    destruct (N.leb_spec (d - 1) (v_c1 m)); [|right; intros (_ & I); destruct (I _ H); lia].
    left. split; [eauto|]. intros [[s' i] j] X. assert (s' = s) by (destruct X as (X & _); congruence).
    subst. apply REF in X. cbn. lia.
  - right. intros (([[s i] j] & []) & _).
Qed.

Lemma forall2_weaken : forall {A B : Type} (E : A -> Prop) (P R : A -> B -> Prop) (l : list A),
  Forall (fun a => forall b, E a -> P a b -> R a b) l ->
  forall l', Forall E l -> Forall2 P l l' -> Forall2 R l l'.
Proof.
  intros A B E P R. induction l as [|x l IH]; intros H l' HE F; inversion F; subst; constructor.
  - inversion H as [|? ? Ha Hb]. inversion HE as [|? ? Ea Eb]. auto.
  - inversion H as [|? ? Ha Hb]. inversion HE as [|? ? Ea Eb]. auto.
Qed.

Lemma lift_weaken : forall (Q : refty -> Prop) (P R : refty -> ast -> Prop),
  (forall r b, Q r -> P r b -> R r b) -> forall a a', every Q a -> lift P a a' -> lift R a a'.
Proof.
  intros Q P R W. induction a using ast_ind'; intros a' E L; inversion E; inversion L; subst; constructor; auto.
  - eapply forall2_weaken with (E := every Q) (P := lift P); eauto.
  - eapply forall2_weaken with (E := every Q) (P := lift P); eauto.
  - eapply forall2_weaken with (E := Forall (every Q)) (P := Forall2 (lift P)); eauto.
    rewrite Forall_forall. intros x X q A B. rewrite Forall_forall in H. specialize (H x X).
    eapply forall2_weaken with (E := every Q) (P := lift P); eauto.
Qed.

Theorem absolute_move_along : forall get_id m a, good_move get_id m -> callfree a ->
  every (fun r => on_sheet r /\ absolute r /\ spelled get_id m r) a -> v_to m = v_from m ->
  exists a', cell_after_move m a = Ok a' /\ lift (carried_along get_id m) a a'.
Proof.
  intros get_id m a G C E T. destruct (absolute_move get_id m a G C E) as (a' & X & L).
  exists a'. split; auto. eapply lift_weaken; [|exact E|exact L]. cbv beta.
  intros r b (O & A & _) (D1 & D2). unfold carried_along. rewrite T in *.
  destruct (inside_dec get_id m (v_from m) r O A) as [I|I].
  - destruct (D1 I) as (r' & -> & S). exists r'. split; auto. intros k'. rewrite S. split.
    + intros (k & K1 & K2). exists k. split; auto. left. split; [apply I; auto|]. auto.
    + intros (k & K1 & [(_ & _ & K2)|(K2 & _)]); [eauto|contradiction].
  - exists r. split; auto. intros k'. split.
    + intros K. exists k'. auto.
    + intros (k & K1 & [(_ & K2 & _)|(_ & ->)]); [contradiction|auto].
Qed.

(** * What fails *)
Definition rel_cell (row col : N) : refty := RCell (mkCell None row col false false).
Definition no_sheets (_ : text) : option N := None.

(** =A:A5 after deleting rows 4 to 6 of the sheet reads row 4, which was row 7. *)
Theorem tail_cut_wrong : exists op f r a,
  o_kind op = Delete /\ on_sheet r /\ adjust_ast no_sheets op f (ARef r) = Ok a
  /\ ~ kept_by_delete no_sheets op f r a.
Proof.
  exists (mkOp Rows Delete 0 3 3), 0,
    (RRange (mkRange None None (Some 1) (Some 5) (Some 1) false false false false)).
  eexists. split; [reflexivity|]. split; [cbn; unfold ROW_MAX, COL_MAX; lia|].
  split; [vm_compute; reflexivity|].
  intros [(_ & X)|(_ & r' & E & _ & S & _)]; [discriminate|]. inversion E; subst.
  specialize (S (0, 6, 0) (0, 3, 0) eq_refl). cbn in S. unfold in_axis in S. destruct S as [S _].
  assert (X : Some 0 = Some 0 /\ (True /\ 3 + 1 <= 4) /\ 1 <= 0 + 1 /\ 0 + 1 <= 1) by (repeat split; auto; lia).
  specialize (S X). lia.
Qed.

Lemma lift_refl_no : forall P r, ~ P r (ARef r) -> ~ lift P (ARef r) (ARef r).
Proof. intros P r H L. inversion L; subst. auto. Qed.

(** A reference inside the call of a lambda, or inside an array literal, is not shifted. *)
Theorem copy_call_wrong : exists ro co a, every (fun r => on_sheet r /\ stays ro co r) a
  /\ rel_formula ro co a = Ok a /\ ~ lift (copied ro co) a a.
Proof.
  exists 1%Z, 0%Z, (ACall (ALit (LVal 0)) [ARef (rel_cell 1 1)]). split; [|split].
  - repeat constructor; cbn; unfold ROW_MAX, COL_MAX; try lia; vm_compute; discriminate.
  - reflexivity.
  - intros L. inversion L as [| | | | | |? ? ? ? _ F|]; subst. inversion F as [|? ? ? ? X _]; subst.
    revert X. apply lift_refl_no. vm_compute. discriminate.
Qed.
Theorem copy_array_wrong : exists ro co a, every (fun r => on_sheet r /\ stays ro co r) a
  /\ rel_formula ro co a = Ok a /\ ~ lift (copied ro co) a a.
Proof.
  exists 1%Z, 0%Z, (AArray [[ARef (rel_cell 1 1)]]). split; [|split].
  - repeat constructor; cbn; unfold ROW_MAX, COL_MAX; try lia; vm_compute; discriminate.
  - reflexivity.
  - intros L. inversion L as [| | | | | | |? ? F]; subst. inversion F as [|? ? ? ? X _]; subst.
    inversion X as [|? ? ? ? Y _]; subst. revert Y. apply lift_refl_no. vm_compute. discriminate.
Qed.

(** Shifted above the first row a reference is clamped to it, not turned into #REF!. *)
Theorem copy_clamp_wrong : exists ro co r a, on_sheet r /\ rel_formula ro co (ARef r) = Ok a
  /\ ~ lift (copied ro co) (ARef r) a /\ (exists k, refers no_sheets 0 r k)
  /\ a = ARef (rel_cell 1 1).
Proof.
  exists (-3)%Z, 0%Z, (rel_cell 2 1). eexists. split; [cbn; unfold ROW_MAX, COL_MAX; lia|].
  split; [vm_compute; reflexivity|]. split; [|split; [exists (0, 1, 0); cbn; auto|reflexivity]].
  intros L. inversion L as [| |? ? X| | | | |]; subst. vm_compute in X. discriminate.
Qed.
(** Shifted below the last row it is left off the sheet. *)
Theorem copy_overflow_wrong : exists ro co r r', on_sheet r /\ rel_formula ro co (ARef r) = Ok (ARef r')
  /\ ~ on_sheet r'.
Proof.
  exists 1%Z, 0%Z, (rel_cell 1048576 1). eexists. split; [cbn; unfold ROW_MAX, COL_MAX; lia|].
  split; [vm_compute; reflexivity|]. cbn. unfold ROW_MAX. lia.
Qed.

(** Sheet "A" (65) is sheet 0, whatever the case of the name used. *)
Definition fold_a (t : text) : option N :=
  if text_eqb (map to_ascii_lower t) [97] then Some 0 else None.
Definition block_move : move := mkMove 0 [65] 0 0 4 4 0 [65] 10 0.

Lemma block_good : good_move fold_a block_move.
Proof. unfold good_move. cbn. repeat split; try lia; reflexivity. Qed.

Theorem move_call_wrong : exists get_id m f a, good_move get_id m
  /\ every (fun r => on_sheet r /\ headed r /\ spelled get_id m r) a
  /\ move_formula m f a = Ok a /\ ~ lift (redirected get_id m f) a a.
Proof.
  exists fold_a, block_move, 0, (ACall (ALit (LVal 0)) [ARef (rel_cell 1 1)]).
  split; [apply block_good|]. split; [|split].
  - repeat constructor; cbn; unfold ROW_MAX, COL_MAX; try lia; discriminate.
  - reflexivity.
  - intros L. inversion L as [| | | | | |? ? ? ? _ F|]; subst. inversion F as [|? ? ? ? X _]; subst.
    revert X. apply lift_refl_no. intros (I & _). destruct I as (r' & E & S).
    + split; [exists (0, 0, 0); cbn; auto|]. intros [[s i] j]. cbn. intros (A & B & C). inversion A. lia.
    + inversion E; subst. specialize (S (0, 0, 0)). destruct S as [S _].
      assert (X : refers fold_a 0 (rel_cell 1 1) (0, 0, 0)) by (cbn; auto).
      destruct (S X) as ([[s i] j] & A & B). cbn in A, B. inversion B. lia.
Qed.

(** The reference A!A1 written a!A1 does not follow its block. *)
Theorem move_case_wrong : exists get_id m f r, good_move get_id m /\ on_sheet r /\ headed r
  /\ inside get_id m f r
  /\ move_formula m f (ARef r) = Ok (ARef r) /\ ~ redirected get_id m f r (ARef r).
Proof.
  exists fold_a, block_move, 0, (RCell (mkCell (Some [97]) 1 1 false false)).
  assert (IN : inside fold_a block_move 0 (RCell (mkCell (Some [97]) 1 1 false false))).
  { split; [exists (0, 0, 0); cbn; auto|]. intros [[s i] j]. cbn. intros (A & B & C). inversion A. lia. }
  split; [apply block_good|]. split; [cbn; unfold ROW_MAX, COL_MAX; lia|]. split; [cbn; auto|].
  split; [exact IN|]. split; [reflexivity|].
  intros (I & _). destruct (I IN) as (r' & E & S). inversion E; subst.
  specialize (S (0, 0, 0)). destruct S as [S _].
  assert (X : refers fold_a 0 (RCell (mkCell (Some [97]) 1 1 false false)) (0, 0, 0)) by (cbn; auto).
  destruct (S X) as ([[s i] j] & A & B). cbn in A, B. inversion B. lia.
Qed.

(** Moving =G1 from the block A1:E5 to row 11 makes it =G11. *)
Theorem moved_formula_wrong : exists get_id m r a, good_move get_id m /\ on_sheet r
  /\ spelled get_id m r /\ ~ inside get_id m (v_from m) r
  /\ cell_after_move m (ARef r) = Ok a /\ ~ lift (carried_along get_id m) (ARef r) a.
Proof.
  exists fold_a, block_move, (rel_cell 1 7). eexists.
  assert (NI : ~ inside fold_a block_move 0 (rel_cell 1 7)).
  { intros (_ & I). specialize (I (0, 0, 6)). cbn in I.
    assert (X : Some 0 = Some 0 /\ 1 = 0 + 1 /\ 7 = 6 + 1) by (repeat split; reflexivity). specialize (I X). lia. }
  split; [apply block_good|]. split; [cbn; unfold ROW_MAX, COL_MAX; lia|].
  split; [cbn; intros; discriminate|]. split; [exact NI|]. split; [vm_compute; reflexivity|].
  intros L. inversion L as [| |? ? X| | | | |]; subst. destruct X as (r' & E & S). inversion E; subst.
  specialize (S (0, 0, 6)). destruct S as [_ S].
  assert (Y : refers fold_a 0 (RCell (mkCell None 11 7 false false)) (0, 0, 6)).
  { apply S. exists (0, 0, 6). split; [cbn; auto|]. right. split; auto. }
  cbn in Y. lia.
Qed.

(** Deleting the first row of a named range of three kills the name. *)
Theorem name_wrong : exists op d d', o_kind op = Delete /\ name_ok d
  /\ adjust_named no_sheets op 0 d = Ok d' /\ (exists k k', name_refers d k /\ goes op k = Some k')
  /\ ~ name_kept op d d'.
Proof.
  exists (mkOp Rows Delete 0 0 1), (NRange (mkRef 0 0 0 true true) (mkRef 0 2 0 true true)). eexists.
  split; [reflexivity|]. split; [cbn; unfold ROW_MAX, COL_MAX; lia|]. split; [vm_compute; reflexivity|].
  assert (K : name_refers (NRange (mkRef 0 0 0 true true) (mkRef 0 2 0 true true)) (0, 1, 0)) by (cbn; lia).
  split; [exists (0, 1, 0), (0, 0, 0); split; auto|].
  intros [(A & _)|(_ & B)].
  - specialize (A (0, 1, 0) K). discriminate.
  - specialize (B (0, 1, 0) (0, 0, 0) eq_refl). apply B in K. exact K.
Qed.
(** The same range written in a formula keeps its two surviving rows. *)
Lemma same_range_in_formula :
  adjust_ast no_sheets (mkOp Rows Delete 0 0 1) 0
    (ARef (RRange (mkRange None (Some 1) (Some 1) (Some 3) (Some 1) true true true true)))
  = Ok (ARef (RRange (mkRange None (Some 1) (Some 1) (Some 2) (Some 1) true true true true))).
Proof. reflexivity. Qed.

(** =A1048576 crashes every row insertion, and A1:A1048576 is pushed off the sheet. *)
Theorem insert_panics : exists op f r, o_kind op = Insert /\ on_sheet r /\ o_count op = 1
  /\ adjust_ast no_sheets op f (ARef r) = Panic.
Proof.
  exists (mkOp Rows Insert 0 0 1), 0, (rel_cell 1048576 1).
  repeat split; try (cbn; unfold ROW_MAX, COL_MAX; lia).
Qed.
Theorem insert_off_sheet : exists op f r r', o_kind op = Insert /\ on_sheet r /\ o_count op = 1
  /\ adjust_ast no_sheets op f (ARef r) = Ok (ARef r') /\ ~ on_sheet r'.
Proof.
  exists (mkOp Rows Insert 0 0 1), 0, (RRange (mkRange None (Some 1) (Some 1) (Some 1048576) (Some 1) false false false false)).
  eexists. split; [reflexivity|]. split; [cbn; unfold ROW_MAX, COL_MAX; lia|]. split; [reflexivity|].
  split; [vm_compute; reflexivity|]. cbn. unfold ROW_MAX. lia.
Qed.

(** Deletions keep references on the sheet and never crash, whatever the formula. *)
Lemma delete_total : forall get_id op f a, o_kind op = Delete -> o_at op + o_count op + 1 < U32 ->
  every on_sheet a -> exists a', adjust_ast get_id op f a = Ok a'.
Proof.
  intros get_id op f a K C E. unfold adjust_ast, adjust_ast_if_changed.
  destruct (adj_inner_ok get_id false op (Some f) on_sheet (fun _ _ => True)) with (a := a) as (o & -> & _); auto.
  - intros r W. destruct r as [c|g|t]; cbn [adj_reference].
    + destruct (other_sheet _ _ _ _); [eauto|]. rewrite cell_coords_ok by auto. destruct W as [W1 W2].
      unfold adj_cell. rewrite K, !(adj_delete_cell op K C). destruct (o_axis op).
      * destruct (pushed op (c_row c - 1)) as [x|] eqn:P; [|cbn; eauto]. pose proof (pushed_le op K C _ _ P).
        assert (F : coord_fits x (c_col c - 1) = true) by (unfold coord_fits; apply andb_true_iff; split; apply N.leb_le; lia).
        rewrite F. cbn. eauto.
      * destruct (pushed op (c_col c - 1)) as [x|] eqn:P; [|cbn; eauto]. pose proof (pushed_le op K C _ _ P).
        assert (F : coord_fits (c_row c - 1) x = true) by (unfold coord_fits; apply andb_true_iff; split; apply N.leb_le; lia).
        rewrite F. cbn. eauto.
    + destruct (other_sheet _ _ _ _); eauto.
    + eauto.
  - cbn. eauto.
Qed.
