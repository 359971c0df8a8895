(** Copies, moves, names. *)
From Verif Require Import Base Maps RefModel RefSpec RefProofs RefProofs2 RefProofs3.
From Coq Require Import ZifyN ZifyNat ZifyBool.
Ltac Zify.zify_post_hook ::= Z.div_mod_to_equations.
Open Scope N_scope.

(** * Copying *)
Lemma rel_lift : forall (Q : refty -> Prop) (P : refty -> ast -> Prop) ro co,
  (forall r, Q r -> exists r', rel_reference ro co r = Ok r' /\ P r (ARef r')) ->
  forall a, plain a -> every Q a -> exists a', rel_formula ro co a = Ok a' /\ lift P a a'.
Proof.
  intros Q P ro co one. induction a using ast_ind'; intros PL E; inversion E; inversion PL; subst; cbn [rel_formula].
  - eexists. split; [reflexivity|]. constructor.
  - eexists. split; [reflexivity|]. constructor.
  - destruct (one r) as (r' & -> & X); auto. cbn. eexists. split; [reflexivity|]. now constructor.
  - destruct IHa as (x & -> & L); auto. cbn. eexists. split; [reflexivity|]. now constructor.
  - destruct IHa1 as (x & -> & L); auto. cbn [rbind]. destruct IHa2 as (y & -> & M); auto. cbn [rbind].
    eexists. split; [reflexivity|]. now constructor.
  - assert (X : exists l', rmap (rel_formula ro co) l = Ok l' /\ Forall2 (lift P) l l').
    { clear PL E. revert H H1 H4. induction l as [|x xs IH]; intros A B C; cbn.
      - eexists. split; [reflexivity|]. constructor.
      - inversion A as [|? ? A1 A2]; inversion B as [|? ? B1 B2]; inversion C as [|? ? C1 C2]; subst.
        destruct (A1 C1 B1) as (y & -> & Y). cbn.
        destruct (IH A2 B2 C2) as (ys & -> & Z). cbn. eexists. split; [reflexivity|]. now constructor. }
    destruct X as (l' & -> & X). cbn. eexists. split; [reflexivity|]. now constructor.
Qed.

Lemma shift_index_ok : forall mx a off i, 1 <= i <= mx + 1 -> mx + 2 < U32 ->
  shifted_index mx a off i <> None ->
  shifted_index mx a off i = Some (addw (shift0 a (i - 1) off) 1).
Proof.
  intros mx a off i H L N. unfold shifted_index, shift0 in *. destruct a.
  - f_equal. rewrite addw_small by lia. lia.
  - cbv zeta in *. destruct (Z.leb_spec 1 (Z.of_N i + off)); cbn [andb] in *; [|congruence].
    destruct (Z.leb_spec (Z.of_N i + off) (Z.of_N mx + 1)); [|congruence]. f_equal.
    rewrite addw_small by lia. lia.
Qed.

Lemma shift_bound_ok : forall mx a off b, bound_ok mx b -> mx + 2 < U32 ->
  shifted_bound mx a off b <> None ->
  shifted_bound mx a off b =
  Some (option_map (fun b => addw (shift0 (b_abs b) (b_idx b) off) 1) (bidx b a)).
Proof.
  intros mx a off [v|] H L N; cbn in *; auto.
  pose proof (shift_index_ok mx a off v H L) as X.
  destruct (shifted_index mx a off v) eqn:E; [|congruence].
  rewrite X by congruence. reflexivity.
Qed.

Lemma rel_ref_ok : forall ro co r, on_sheet r -> stays ro co r ->
  exists r', rel_reference ro co r = Ok r' /\ copied ro co r (ARef r').
Proof.
  intros ro co r W S. assert (U : ROW_MAX + 2 < U32 /\ COL_MAX + 2 < U32) by (unfold ROW_MAX, COL_MAX, U32; lia).
  destruct U as [U1 U2]. destruct r as [c|g|t]; cbn [rel_reference].
  - rewrite cell_coords_ok by auto. eexists. split; [reflexivity|]. destruct W as [W1 W2], S as [S1 S2].
    unfold copied. rewrite (shift_index_ok ROW_MAX), (shift_index_ok COL_MAX) by auto. reflexivity.
  - rewrite range_bounds_ok by auto. eexists. split; [reflexivity|].
    destruct W as (B1 & B2 & B3 & B4 & _), S as (S1 & S2 & S3 & S4). unfold copied.
    rewrite (shift_bound_ok ROW_MAX _ ro (r_sr g)), (shift_bound_ok COL_MAX _ co (r_sc g)),
      (shift_bound_ok ROW_MAX _ ro (r_er g)), (shift_bound_ok COL_MAX _ co (r_ec g)) by auto.
    eexists. split; [reflexivity|]. cbn [r_sheet r_sr r_sc r_er r_ec r_sra r_sca r_era r_eca].
    unfold bidx.
    repeat (split; [reflexivity|]).
    split; [destruct (r_sr g); cbn; congruence|]. split; [destruct (r_sc g); cbn; congruence|].
    split; [destruct (r_er g); cbn; congruence|]. destruct (r_ec g); cbn; congruence.
  - eexists. split; [reflexivity|]. cbn. auto.
Qed.

Theorem copy_formula : forall ro co a, plain a -> every (fun r => on_sheet r /\ stays ro co r) a ->
  exists a', rel_formula ro co a = Ok a' /\ lift (copied ro co) a a'.
Proof.
  intros ro co a P E. apply (rel_lift (fun r => on_sheet r /\ stays ro co r)); auto.
  intros r (A & B). now apply rel_ref_ok.
Qed.

(** * Moving *)
Lemma rmap_lift : forall m f (P : refty -> ast -> Prop) l,
  Forall (fun a => exists a' ch, move_inner m f a = Ok (a', ch) /\ lift P a a' /\ (ch = false -> a' = a)) l ->
  exists l', rmap (move_inner m f) l = Ok l' /\ Forall2 (lift P) l (map fst l')
             /\ (existsb snd l' = false -> map fst l' = l).
Proof.
  induction l as [|x xs IH]; intros H; cbn.
  - exists []. split; [auto|]. split; [constructor|auto].
  - inversion H as [|? ? (a' & ch & E & L & C) H2]; subst. rewrite E. cbn.
    destruct (IH H2) as (l' & -> & F & D). cbn. eexists. split; [reflexivity|]. cbn. split; [constructor; auto|].
    intros X. apply orb_false_elim in X. destruct X. now rewrite C, D by auto.
Qed.
Lemma rmap2_lift : forall m f (P : refty -> ast -> Prop) l,
  Forall (Forall (fun a => exists a' ch, move_inner m f a = Ok (a', ch) /\ lift P a a' /\ (ch = false -> a' = a))) l ->
  exists l', rmap (rmap (move_inner m f)) l = Ok l' /\ Forall2 (Forall2 (lift P)) l (map (map fst) l')
             /\ (existsb (existsb snd) l' = false -> map (map fst) l' = l).
Proof.
  induction l as [|x xs IH]; intros H; cbn.
  - exists []. split; [auto|]. split; [constructor|auto].
  - inversion H as [|? ? H1 H2]; subst. destruct (rmap_lift m f P x H1) as (x' & -> & F1 & D1). cbn.
    destruct (IH H2) as (l' & -> & F & D). cbn. eexists. split; [reflexivity|]. cbn. split; [constructor; auto|].
    intros X. apply orb_false_elim in X. destruct X. now rewrite D1, D by auto.
Qed.

Lemma move_lift : forall (Q : refty -> Prop) (P : refty -> ast -> Prop) m f,
  (forall r, Q r -> exists o, move_reference m f r = Ok o
                              /\ P r (ARef (match o with Some r' => r' | None => r end))) ->
  forall a, callfree a -> every Q a ->
  exists a' ch, move_inner m f a = Ok (a', ch) /\ lift P a a' /\ (ch = false -> a' = a).
Proof.
  intros Q P m f one. induction a using ast_ind'; intros PL E; inversion E; inversion PL; subst; cbn [move_inner].
  - do 2 eexists. split; [reflexivity|]. split; auto. constructor.
  - do 2 eexists. split; [reflexivity|]. split; auto. constructor.
  - destruct (one r) as (r' & -> & X); auto. cbn. destruct r' as [r'|].
    + do 2 eexists. split; [reflexivity|]. split; [now constructor|discriminate].
    + do 2 eexists. split; [reflexivity|]. split; [now constructor|auto].
  - destruct IHa as (x & c & -> & L & C); auto. cbn. destruct c.
    + do 2 eexists. split; [reflexivity|]. split; [now constructor|discriminate].
    + do 2 eexists. split; [reflexivity|]. split; [constructor; rewrite C in L; auto|auto].
  - destruct IHa1 as (x & c & -> & L & C); auto. cbn [rbind]. destruct IHa2 as (y & d & -> & M & D); auto. cbn [rbind].
    destruct (c || d) eqn:CD.
    + do 2 eexists. split; [reflexivity|]. split; [now constructor|discriminate].
    + apply orb_false_elim in CD. destruct CD. do 2 eexists. split; [reflexivity|].
      split; [constructor; [rewrite C in L|rewrite D in M]; auto|auto].
  - destruct (rmap_lift m f P l) as (l' & -> & F & D).
    { rewrite Forall_forall in *. auto. }
    cbn [rbind]. destruct (existsb snd l') eqn:X.
    + do 2 eexists. split; [reflexivity|]. split; [now constructor|discriminate].
    + do 2 eexists. split; [reflexivity|]. split; [constructor; rewrite D in F; auto|auto].
  - destruct (rmap2_lift m f P l) as (l' & -> & F & D).
    { rewrite Forall_forall in *. intros r R. specialize (H r R). specialize (H1 r R). specialize (H3 r R).
      rewrite Forall_forall in *. auto. }
    cbn [rbind]. destruct (existsb (existsb snd) l') eqn:X.
    + do 2 eexists. split; [reflexivity|]. split; [now constructor|discriminate].
    + do 2 eexists. split; [reflexivity|]. split; [constructor; rewrite D in F; auto|auto].
Qed.

Section MoveOne.
  Variable get_id : text -> option N.
  Variables (m : move) (f : N).
  Hypothesis G : good_move get_id m.

  Lemma source_spec : forall r, spelled get_id m r -> (forall t, r <> ROther t) ->
    (matches_source m f (ref_sheet r) = true <-> sheet_of get_id f (ref_sheet r) = Some (v_from m)).
  Proof.
    intros r S N. destruct G as (G1 & _). unfold matches_source, sheet_of.
    assert (X : forall n, ref_sheet r = Some n -> get_id n = Some (v_from m) -> n = v_from_name m).
    { destruct r; cbn in *; auto. exfalso. now apply (N tag). }
    destruct (ref_sheet r) as [n|].
    - split; intros H.
      + apply text_eqb_eq in H. now subst.
      + rewrite (X n) by auto. now apply text_eqb_spec.
    - rewrite N.eqb_eq. split; congruence.
  Qed.

  Lemma target_sheet : forall s, sheet_of get_id f s = Some (v_from m) ->
    sheet_of get_id f (new_sheet m s) = Some (v_to m).
  Proof.
    intros s H. destruct G as (_ & G2 & _). unfold new_sheet.
    destruct (N.eqb_spec (v_to m) (v_from m)); [congruence|cbn; auto].
  Qed.

  Lemma move_ref_ok : forall r, on_sheet r -> headed r -> spelled get_id m r ->
    exists o, move_reference m f r = Ok o
              /\ redirected get_id m f r (ARef (match o with Some r' => r' | None => r end)).
  Proof.
    intros r W HD SP. destruct r as [c|g|t].
    - cbn [move_reference]. pose proof (source_spec (RCell c) SP ltac:(congruence)) as SS. cbn [ref_sheet] in SS.
      destruct (matches_source m f (c_sheet c)) eqn:M.
      + assert (S : sheet_of get_id f (c_sheet c) = Some (v_from m)) by now apply SS.
        rewrite cell_coords_ok by auto. destruct W as [W1 W2].
        set (row := c_row c - 1). set (col := c_col c - 1).
        assert (ONLY : forall k, refers get_id f (RCell c) k <-> k = (v_from m, row, col)).
        { intros [[s i] j]. cbn. rewrite S. unfold row, col. split.
          - intros (A & B & C). inversion A; subst. f_equal; [f_equal|]; lia.
          - intros E. inversion E; subst. split; auto. lia. }
        destruct ((row <? v_r0 m) || (v_r1 m <? row) || (col <? v_c0 m) || (v_c1 m <? col)) eqn:OUT.
        * eexists. split; [reflexivity|]. split; [|auto].
          intros (_ & I). exfalso. specialize (I (v_from m, row, col) (proj2 (ONLY _) eq_refl)). cbn in I. lia.
        * assert (IB : in_block m (v_from m, row, col)) by (cbn; lia).
          assert (IN : inside get_id m f (RCell c)).
          { split; [exists (v_from m, row, col); now apply ONLY|]. intros k X. apply ONLY in X. now subst. }
          destruct G as (_ & _ & G3 & G4 & G5 & G6). cbn in IB.
          eexists. split; [reflexivity|]. split; [intros _|intros X; contradiction].
          eexists. split; [reflexivity|]. intros [[s i] j]. cbn [refers c_sheet c_row c_col].
          rewrite (target_sheet _ S).
          assert (R1 : addw (off0 row (v_ro m)) 1 = Z.to_N (Z.of_N row + v_ro m) + 1).
          { unfold off0. rewrite addw_small by (unfold ROW_MAX, U32 in *; lia). lia. }
          assert (R2 : addw (off0 col (v_co m)) 1 = Z.to_N (Z.of_N col + v_co m) + 1).
          { unfold off0. rewrite addw_small by (unfold COL_MAX, U32 in *; lia). lia. }
          rewrite R1, R2. split.
          -- intros (A & B & C). inversion A; subst. exists (v_from m, row, col). split; [now apply ONLY|].
             cbn. f_equal; [f_equal|]; lia.
          -- intros (k & A & B). apply ONLY in A. subst k. cbn in B. inversion B; subst. auto.
      + eexists. split; [reflexivity|]. split; [|auto].
        intros (([[s i] j] & X) & I). exfalso. specialize (I _ X). cbn in X, I. destruct I as (-> & _), X as (X & _).
        apply SS in X. congruence.
    - cbn [move_reference]. pose proof (source_spec (RRange g) SP ltac:(congruence)) as SS. cbn [ref_sheet] in SS.
      destruct (matches_source m f (r_sheet g)) eqn:M.
      + assert (S : sheet_of get_id f (r_sheet g) = Some (v_from m)) by now apply SS.
        rewrite range_bounds_ok by auto. destruct W as (B1 & B2 & B3 & B4 & B5 & B6).
        assert (I1 : exists i, in_axis (r_sr g) (r_er g) i).
        { apply axis_inhabited; auto; intros v X; [exact (bound_pos _ _ _ B1 X)|exact (bound_pos _ _ _ B2 X)]. }
        assert (I2 : exists i, in_axis (r_sc g) (r_ec g) i).
        { apply axis_inhabited; auto; intros v X; [exact (bound_pos _ _ _ B3 X)|exact (bound_pos _ _ _ B4 X)]. }
        destruct HD as [H1 H2].
        assert (HERE : forall i j, in_axis (r_sr g) (r_er g) i -> in_axis (r_sc g) (r_ec g) j ->
                       refers get_id f (RRange g) (v_from m, i, j)) by (intros; cbn; auto).
        (** an open range leaves the block *)
        assert (OPEN : r_er g = None \/ r_ec g = None -> ~ inside get_id m f (RRange g)).
        { intros O (_ & I). destruct I1 as (i & Hi), I2 as (j & Hj). destruct O as [O|O].
          - assert (X : in_axis (r_sr g) (r_er g) (i + v_r1 m + 1)).
            { rewrite O in *. unfold in_axis in *. destruct (r_sr g); split; auto; lia. }
            specialize (I _ (HERE _ _ X Hj)). cbn in I. lia.
          - assert (X : in_axis (r_sc g) (r_ec g) (j + v_c1 m + 1)).
            { rewrite O in *. unfold in_axis in *. destruct (r_sc g); split; auto; lia. }
            specialize (I _ (HERE _ _ Hi X)). cbn in I. lia. }
        assert (UN : r_er g = None \/ r_ec g = None ->
                     exists o, Ok (E:=unit) (@None refty) = Ok o /\
                       redirected get_id m f (RRange g) (ARef (match o with Some r' => r' | None => RRange g end))).
        { intros O. eexists. split; [reflexivity|]. split; auto. intros I. exfalso. now apply (OPEN O). }
        destruct (r_sr g) as [sr|] eqn:E1; [|cbn; apply UN; left; auto].
        destruct (r_sc g) as [sc|] eqn:E2; [|cbn; apply UN; right; auto].
        destruct (r_er g) as [er|] eqn:E3; [|cbn; apply UN; auto].
        destruct (r_ec g) as [ec|] eqn:E4; [|cbn; apply UN; auto].
        cbn [option_map b_idx b_abs]. cbn [bound_ok ord_ok] in B1, B2, B3, B4, B5, B6. clear UN OPEN H1 H2 I1 I2.
        destruct ((v_r0 m <=? sr - 1) && (er - 1 <=? v_r1 m) && (v_c0 m <=? sc - 1) && (ec - 1 <=? v_c1 m)) eqn:IN.
        * assert (INS : inside get_id m f (RRange g)).
          { split.
            - exists (v_from m, sr - 1, sc - 1). cbn. rewrite E1, E2, E3, E4. unfold in_axis. split; auto. lia.
            - intros [[s i] j] X. cbn in X. rewrite E1, E2, E3, E4, S in X. unfold in_axis in X.
              destruct X as (X & Y & Z). inversion X; subst. cbn. lia. }
          destruct G as (_ & _ & G3 & G4 & G5 & G6).
          eexists. split; [reflexivity|]. split; [intros _|intros X; contradiction].
          eexists. split; [reflexivity|]. intros [[s i] j].
          cbn [refers r_sheet r_sr r_sc r_er r_ec]. rewrite (target_sheet _ S). unfold in_axis.
          assert (A1 : forall x, x - 1 <= v_r1 m -> v_r0 m <= x - 1 ->
                       addw (off0 (x - 1) (v_ro m)) 1 = Z.to_N (Z.of_N (x - 1) + v_ro m) + 1).
          { intros. unfold off0. rewrite addw_small by (unfold ROW_MAX, U32 in *; lia). lia. }
          assert (A2 : forall x, x - 1 <= v_c1 m -> v_c0 m <= x - 1 ->
                       addw (off0 (x - 1) (v_co m)) 1 = Z.to_N (Z.of_N (x - 1) + v_co m) + 1).
          { intros. unfold off0. rewrite addw_small by (unfold COL_MAX, U32 in *; lia). lia. }
          rewrite !A1, !A2 by lia. split.
          -- intros (A & B & C). inversion A; subst s.
             exists (v_from m, Z.to_N (Z.of_N i - v_ro m), Z.to_N (Z.of_N j - v_co m)).
             cbn [refers carried]. rewrite E1, E2, E3, E4. unfold in_axis.
             split; [|f_equal; [f_equal|]; lia]. split; auto. lia.
          -- intros ([[s0 i0] j0] & A & B). cbn [refers] in A. rewrite E1, E2, E3, E4 in A. unfold in_axis in A.
             cbn [carried] in B. inversion B; subst. split; auto. lia.
        * eexists. split; [reflexivity|]. split; [|auto].
          intros (_ & I). exfalso.
          pose proof (I (v_from m, sr - 1, sc - 1)) as X. pose proof (I (v_from m, er - 1, ec - 1)) as Y.
          cbn in X, Y. rewrite E1, E2, E3, E4 in X, Y. unfold in_axis in X, Y. specialize (X ltac:(split; auto; lia)).
          specialize (Y ltac:(split; auto; lia)). lia.
      + eexists. split; [reflexivity|]. split; [|auto].
        intros (([[s i] j] & X) & I). exfalso. specialize (I _ X). cbn in X, I. destruct I as (-> & _), X as (X & _).
        apply SS in X. congruence.
    - eexists. split; [reflexivity|]. split; auto. intros (([[s i] j] & X) & _). cbn in X. contradiction.
  Qed.
End MoveOne.

Theorem move_formula_ok : forall get_id m f a, good_move get_id m -> callfree a ->
  every (fun r => on_sheet r /\ headed r /\ spelled get_id m r) a ->
  exists a', move_formula m f a = Ok a' /\ lift (redirected get_id m f) a a'.
Proof.
  intros get_id m f a G C E. unfold move_formula.
  destruct (move_lift (fun r => on_sheet r /\ headed r /\ spelled get_id m r) (redirected get_id m f) m f)
    with (a := a) as (a' & ch & -> & L & D); auto.
  - intros r (X & Y & Z). now apply move_ref_ok.
  - cbn. eexists. split; [reflexivity|]. destruct ch; auto. now rewrite D in L by auto.
Qed.

(** A formula whose references are all absolute is copied as it is. *)
Lemma absolute_ref : forall ro co r, on_sheet r -> absolute r -> rel_reference ro co r = Ok r.
Proof.
  intros ro co r W A. destruct r as [c|g|t]; cbn [rel_reference]; auto.
  - rewrite cell_coords_ok by auto. destruct W as [W1 W2]. destruct c as [sh r k ra ka]; cbn in *.
    destruct A as [-> ->]. unfold shift0.
    rewrite !addw_small by (unfold ROW_MAX, COL_MAX, U32 in *; lia).
    replace (r - 1 + 1) with r by lia. replace (k - 1 + 1) with k by lia. reflexivity.
  - rewrite range_bounds_ok by auto. destruct W as (B1 & B2 & B3 & B4 & _).
    destruct g as [sh sr sc er ec a1 a2 a3 a4]; cbn in *.
    destruct A as (-> & -> & -> & -> & N1 & N2 & N3 & N4).
    destruct sr as [sr|], sc as [sc|], er as [er|], ec as [ec|]; try congruence. cbn in *. unfold shift0.
    rewrite !addw_small by (unfold ROW_MAX, COL_MAX, U32 in *; lia).
    replace (sr - 1 + 1) with sr by lia. replace (sc - 1 + 1) with sc by lia.
    replace (er - 1 + 1) with er by lia. replace (ec - 1 + 1) with ec by lia. reflexivity.
Qed.

Lemma absolute_copy : forall ro co a, every (fun r => on_sheet r /\ absolute r) a -> rel_formula ro co a = Ok a.
Proof.
  intros ro co. induction a using ast_ind'; intros E; inversion E; subst; cbn [rel_formula]; auto.
  - destruct H0. rewrite absolute_ref by auto. reflexivity.
  - rewrite IHa by auto. reflexivity.
  - rewrite IHa1 by auto. cbn [rbind]. rewrite IHa2 by auto. reflexivity.
  - assert (X : rmap (rel_formula ro co) l = Ok l).
    { clear E. revert H H1. induction l as [|x xs IH]; intros A B; cbn; auto.
      inversion A as [|? ? A1 A2]; inversion B as [|? ? B1 B2]; subst.
      rewrite A1 by auto. cbn. rewrite IH by auto. reflexivity. }
    rewrite X. reflexivity.
Qed.

Theorem absolute_move : forall get_id m a, good_move get_id m -> callfree a ->
  every (fun r => on_sheet r /\ absolute r /\ spelled get_id m r) a ->
  exists a', cell_after_move m a = Ok a' /\ lift (redirected get_id m (v_to m)) a a'.
Proof.
  intros get_id m a G C E. unfold cell_after_move. rewrite absolute_copy.
  - cbn. apply move_formula_ok; auto. eapply every_mono; [|exact E]. cbv beta.
    intros r (A & B & D). split; [auto|]. split; auto. destruct r as [c|g|t]; cbn in *; auto.
    destruct B as (_ & _ & _ & _ & X1 & X2 & X3 & X4). split; intros; congruence.
  - eapply every_mono; [|exact E]. cbv beta. tauto.
Qed.
