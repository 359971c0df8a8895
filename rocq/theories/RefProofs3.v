(** Deletions, names, copies and moves. *)
From Verif Require Import Base Maps RefModel RefSpec RefProofs RefProofs2.
From Coq Require Import ZifyN ZifyNat ZifyBool.
Ltac Zify.zify_post_hook ::= Z.div_mod_to_equations.
Open Scope N_scope.

Definition cut (op : shift_op) (s e : option N) : Prop :=
  match s, e with None, Some e => o_at op <= e - 1 < o_at op + o_count op | _, _ => False end.

Lemma delete_axis_any : forall mx op s e sa ea, o_kind op = Delete ->
  bound_ok mx s -> bound_ok mx e -> ord_ok s e -> ~ cut op s e ->
  mx < U32 - 2 -> o_at op + o_count op + 1 < U32 ->
  match adj_bounds false Delete (o_at op) (o_count op) (bidx s sa) (bidx e ea) with
  | None => axis_gone op s e
  | Some (s', e') => axis_kept op s e (succ_o s') (succ_o e')
                     /\ exists i i', in_axis s e i /\ pushed op i = Some i'
  end.
Proof.
  intros mx op [s|] [e|] sa ea K B1 B2 O N L M.
  - apply (delete_axis mx); auto. lia.
  - destruct (delete_axis_up mx op s sa ea K B1 L M) as (s' & -> & A & B). cbn [succ_o option_map] in *. auto.
  - assert (M' : o_at op + o_count op < U32) by lia.
    assert (N' : e - 1 < o_at op \/ o_at op + o_count op <= e - 1) by (cbn in N; lia).
    destruct (delete_axis_down mx op e sa ea K B2 L M' N') as (e' & -> & A & B).
    cbn [succ_o option_map] in *. auto.
  - cbn. split; [unfold axis_kept, in_axis; tauto|].
    exists (o_at op + o_count op), (o_at op). unfold in_axis, pushed. rewrite K. split; auto.
    destruct (N.ltb_spec (o_at op + o_count op) (o_at op)).
    + lia.
    + destruct (N.ltb_spec (o_at op + o_count op) (o_at op + o_count op)); [lia|f_equal; lia].
Qed.

Section DeleteOne.
  Variable get_id : text -> option N.
  Variables (op : shift_op) (f : N).
  Hypothesis K : o_kind op = Delete.
  Hypothesis C : o_at op + o_count op + 1 < U32.

  Lemma pushed_delete : forall i, pushed op i =
    if i <? o_at op then Some i else if i <? o_at op + o_count op then None else Some (i - o_count op).
  Proof. intros i. unfold pushed. now rewrite K. Qed.

  Lemma adj_delete_cell : forall a i, adj_cell_index false a Delete (o_at op) (o_count op) i = pushed op i.
  Proof.
    intros a i. rewrite pushed_delete. cbn [adj_cell_index andb]. rewrite addw_small by lia.
    destruct (N.leb_spec (o_at op) i), (N.ltb_spec i (o_at op)), (N.ltb_spec i (o_at op + o_count op)),
      (N.leb_spec (o_at op + o_count op) i); cbn; auto; lia.
  Qed.

  Lemma pushed_inj : forall i j x, pushed op i = Some x -> pushed op j = Some x -> i = j.
  Proof.
    intros i j x A B. rewrite pushed_delete in A, B.
    destruct (N.ltb_spec i (o_at op)), (N.ltb_spec j (o_at op)),
      (N.ltb_spec i (o_at op + o_count op)), (N.ltb_spec j (o_at op + o_count op));
      try discriminate; inversion A; inversion B; lia.
  Qed.

  Lemma pushed_le : forall i x, pushed op i = Some x -> x <= i.
  Proof.
    intros i x A. rewrite pushed_delete in A.
    destruct (N.ltb_spec i (o_at op)); [inversion A; lia|].
    destruct (N.ltb_spec i (o_at op + o_count op)); [discriminate|inversion A; lia].
  Qed.

  Lemma goes_at : forall row col,
    goes op (o_sheet op, row, col) =
    match o_axis op with
    | Rows => match pushed op row with Some x => Some (o_sheet op, x, col) | None => None end
    | Cols => match pushed op col with Some x => Some (o_sheet op, row, x) | None => None end
    end.
  Proof. intros. unfold goes. now rewrite N.eqb_refl. Qed.

  Lemma off_not_gone : forall r, (sheet_of get_id f (ref_sheet r) <> Some (o_sheet op) \/ exists t, r = ROther t) ->
    ~ all_gone get_id op f r.
  Proof.
    intros r H (([[s row] col] & X) & G). specialize (G _ X). unfold goes in G.
    destruct H as [H|(t & ->)]; [|exact X].
    destruct (N.eqb_spec s (o_sheet op)); [|discriminate]. subst.
    destruct r as [c|g|t]; cbn in *; tauto.
  Qed.

  Lemma delete_ref : forall r, on_sheet r -> ~ tail_cut op r ->
    exists d, adj_reference get_id false op (Some f) r = Ok d /\ kept_by_delete get_id op f r (node_of d).
  Proof.
    intros r W T. destruct r as [c|g|t]; cbn [adj_reference].
    - destruct (other_sheet get_id op (Some f) (c_sheet c)) eqn:O.
      + exists (AdjRef (RCell c)). split; auto. apply other_sheet_spec in O. right.
        split; [now apply off_not_gone; left|].
        exists (RCell c). split; [auto|]. split; [cbn; auto|]. split; [now apply same_cells_off; left|auto].
      + apply other_sheet_false in O. rewrite cell_coords_ok by auto. destruct W as [W1 W2].
        assert (HERE : refers get_id f (RCell c) (o_sheet op, c_row c - 1, c_col c - 1)).
        { cbn. split; auto. lia. }
        assert (ONLY : forall k, refers get_id f (RCell c) k -> k = (o_sheet op, c_row c - 1, c_col c - 1)).
        { intros [[s row] col] (X & Y & Z). rewrite O in X. inversion X; subst. f_equal; [f_equal|]; lia. }
        unfold adj_cell. rewrite K, !adj_delete_cell.
        pose proof (goes_at (c_row c - 1) (c_col c - 1)) as GA.
        destruct (o_axis op) eqn:AX.
        * destruct (pushed op (c_row c - 1)) as [x|] eqn:PX.
          -- pose proof (pushed_le _ _ PX).
             assert (FI : coord_fits x (c_col c - 1) = true).
             { unfold coord_fits. apply andb_true_iff. split; apply N.leb_le; lia. }
             rewrite FI. cbn [rbind]. eexists. split; [reflexivity|]. cbn [node_of].
             rewrite !addw_small by (unfold ROW_MAX, COL_MAX, U32 in *; lia).
             replace (c_col c - 1 + 1) with (c_col c) by lia. right. split.
             { intros (_ & G). specialize (G _ HERE). congruence. }
             eexists. split; [reflexivity|]. split; [cbn; auto|]. split; [|cbn; intros; contradiction].
             intros [[s row] col] k' G. destruct (N.eq_dec s (o_sheet op)) as [Q|Q].
             ++ destruct (goes_cases _ _ _ _ _ G Q) as [(A & y & B & ->)|(A & y & B & ->)]; [|congruence].
                cbn. split; intros (R1 & R2 & R3); (split; [auto|]); split; auto.
                ** assert (y = x) by lia. subst y. pose proof (pushed_inj _ _ _ PX B). lia.
                ** assert (row = c_row c - 1) by lia. subst row. rewrite PX in B. inversion B. auto.
             ++ unfold goes in G. apply N.eqb_neq in Q. rewrite Q in G. inversion G; subst. cbn.
                apply N.eqb_neq in Q. rewrite O. split; intros (X & _); congruence.
          -- cbn [rbind]. eexists. split; [reflexivity|]. left. split; auto. split; [eauto|].
             intros k X. apply ONLY in X. subst. auto.
        * destruct (pushed op (c_col c - 1)) as [x|] eqn:PX.
          -- pose proof (pushed_le _ _ PX).
             assert (FI : coord_fits (c_row c - 1) x = true).
             { unfold coord_fits. apply andb_true_iff. split; apply N.leb_le; lia. }
             rewrite FI. cbn [rbind]. eexists. split; [reflexivity|]. cbn [node_of].
             rewrite !addw_small by (unfold ROW_MAX, COL_MAX, U32 in *; lia).
             replace (c_row c - 1 + 1) with (c_row c) by lia. right. split.
             { intros (_ & G). specialize (G _ HERE). congruence. }
             eexists. split; [reflexivity|]. split; [cbn; auto|]. split; [|cbn; intros; contradiction].
             intros [[s row] col] k' G. destruct (N.eq_dec s (o_sheet op)) as [Q|Q].
             ++ destruct (goes_cases _ _ _ _ _ G Q) as [(A & y & B & ->)|(A & y & B & ->)]; [congruence|].
                cbn. split; intros (R1 & R2 & R3); (split; [auto|]); split; auto.
                ** assert (y = x) by lia. subst y. pose proof (pushed_inj _ _ _ PX B). lia.
                ** assert (col = c_col c - 1) by lia. subst col. rewrite PX in B. inversion B. auto.
             ++ unfold goes in G. apply N.eqb_neq in Q. rewrite Q in G. inversion G; subst. cbn.
                apply N.eqb_neq in Q. rewrite O. split; intros (X & _); congruence.
          -- cbn [rbind]. eexists. split; [reflexivity|]. left. split; auto. split; [eauto|].
             intros k X. apply ONLY in X. subst. auto.
    - destruct (other_sheet get_id op (Some f) (r_sheet g)) eqn:O.
      + exists (AdjRef (RRange g)). split; auto. apply other_sheet_spec in O. right.
        split; [now apply off_not_gone; left|].
        exists (RRange g). split; [auto|]. split; [cbn; auto|]. split; [now apply same_cells_off; left|auto].
      + apply other_sheet_false in O. eexists. split; [reflexivity|].
        unfold adj_range. rewrite range_bounds_ok by auto. rewrite K.
        pose proof W as (B1 & B2 & B3 & B4 & B5 & B6).
        destruct UMAX as [U1 U2].
        assert (I1 : exists i, in_axis (r_sr g) (r_er g) i).
        { apply axis_inhabited; auto; intros v X; [exact (bound_pos _ _ _ B1 X)|exact (bound_pos _ _ _ B2 X)]. }
        assert (I2 : exists i, in_axis (r_sc g) (r_ec g) i).
        { apply axis_inhabited; auto; intros v X; [exact (bound_pos _ _ _ B3 X)|exact (bound_pos _ _ _ B4 X)]. }
        unfold tail_cut in T.
        destruct (o_axis op) eqn:AX.
        * pose proof (delete_axis_any ROW_MAX op (r_sr g) (r_er g) (r_sra g) (r_era g) K B1 B2 B5 T U1 C) as D.
          unfold bidx in D at 1 2.
          destruct (adj_bounds false Delete (o_at op) (o_count op) _ _) as [[s' e']|].
          -- change (option_map (fun v => mkB (v - 1) (r_sca g)) (r_sc g)) with (bidx (r_sc g) (r_sca g)).
             change (option_map (fun v => mkB (v - 1) (r_eca g)) (r_ec g)) with (bidx (r_ec g) (r_eca g)).
             rewrite (succ_idx COL_MAX (r_sc g)), (succ_idx COL_MAX (r_ec g)) by auto.
             destruct D as (D & i & i' & Hi & Hp). destruct I2 as (j & Hj). right. split.
             { intros (_ & G). specialize (G (o_sheet op, i, j)). rewrite goes_at, AX, Hp in G.
               assert (X : refers get_id f (RRange g) (o_sheet op, i, j)) by (cbn; auto).
               specialize (G X). discriminate. }
             eexists. split; [reflexivity|]. split; [cbn; auto|]. split; [|cbn; intros; contradiction].
             apply range_same_cells; auto. rewrite AX. cbn. auto.
          -- left. split; auto. destruct I1 as (i & Hi), I2 as (j & Hj). split.
             { exists (o_sheet op, i, j). cbn. auto. }
             intros [[s row] col] (X & Y & Z). rewrite O in X. inversion X; subst.
             rewrite goes_at, AX. now rewrite (D _ Y).
        * pose proof (delete_axis_any COL_MAX op (r_sc g) (r_ec g) (r_sca g) (r_eca g) K B3 B4 B6 T U2 C) as D.
          unfold bidx in D at 1 2.
          destruct (adj_bounds false Delete (o_at op) (o_count op) _ _) as [[s' e']|].
          -- change (option_map (fun v => mkB (v - 1) (r_sra g)) (r_sr g)) with (bidx (r_sr g) (r_sra g)).
             change (option_map (fun v => mkB (v - 1) (r_era g)) (r_er g)) with (bidx (r_er g) (r_era g)).
             rewrite (succ_idx ROW_MAX (r_sr g)), (succ_idx ROW_MAX (r_er g)) by auto.
             destruct D as (D & i & i' & Hi & Hp). destruct I1 as (j & Hj). right. split.
             { intros (_ & G). specialize (G (o_sheet op, j, i)). rewrite goes_at, AX, Hp in G.
               assert (X : refers get_id f (RRange g) (o_sheet op, j, i)) by (cbn; auto).
               specialize (G X). discriminate. }
             eexists. split; [reflexivity|]. split; [cbn; auto|]. split; [|cbn; intros; contradiction].
             apply range_same_cells; auto. rewrite AX. cbn. auto.
          -- left. split; auto. destruct I1 as (i & Hi), I2 as (j & Hj). split.
             { exists (o_sheet op, i, j). cbn. auto. }
             intros [[s row] col] (X & Y & Z). rewrite O in X. inversion X; subst.
             rewrite goes_at, AX. now rewrite (D _ Z).
    - exists (AdjRef (ROther t)). split; auto. right. split; [apply off_not_gone; right; eauto|].
      exists (ROther t). split; auto. split; [cbn; auto|]. split; [apply same_cells_off; right; eauto|auto].
  Qed.
End DeleteOne.

(** * Whole formulas *)
Lemma every_mono : forall (Q R : refty -> Prop) a, (forall r, Q r -> R r) -> every Q a -> every R a.
Proof.
  intros Q R a H. induction a using ast_ind'; intros E; inversion E; subst; constructor; auto.
  - rewrite Forall_forall in *. auto.
  - rewrite Forall_forall in *. auto.
  - rewrite Forall_forall in *. intros x X. specialize (H0 x X). specialize (H2 x X).
    rewrite Forall_forall in *. auto.
Qed.

Theorem insert_formula : forall get_id op f a,
  o_kind op = Insert -> ROW_MAX + o_count op + 2 < U32 ->
  every (fun r => on_sheet r /\ room op r) a ->
  exists a', adjust_ast get_id op f a = Ok a' /\ lift (kept_by_insert get_id op f) a a'.
Proof.
  intros get_id op f a K C E. unfold adjust_ast, adjust_ast_if_changed.
  destruct (adj_inner_ok get_id false op (Some f) (fun r => on_sheet r /\ room op r)
              (kept_by_insert get_id op f)) with (a := a) as (o & -> & L); auto.
  - intros r (A & B). apply insert_ref; auto.
  - cbn. eauto.
Qed.

Theorem delete_formula : forall get_id op f a,
  o_kind op = Delete -> o_at op + o_count op + 1 < U32 ->
  every (fun r => on_sheet r /\ ~ tail_cut op r) a ->
  exists a', adjust_ast get_id op f a = Ok a' /\ lift (kept_by_delete get_id op f) a a'.
Proof.
  intros get_id op f a K C E. unfold adjust_ast, adjust_ast_if_changed.
  destruct (adj_inner_ok get_id false op (Some f) (fun r => on_sheet r /\ ~ tail_cut op r)
              (kept_by_delete get_id op f)) with (a := a) as (o & -> & L); auto.
  - intros r (A & B). apply delete_ref; auto.
  - cbn. eauto.
Qed.

Lemma bounded_not_cut : forall op r, bounded (o_axis op) r -> ~ tail_cut op r.
Proof.
  intros op [c|g|t] B T; cbn in *; auto. destruct (o_axis op), B as [B1 B2].
  - destruct (r_sr g); [auto|congruence].
  - destruct (r_sc g); [auto|congruence].
Qed.
