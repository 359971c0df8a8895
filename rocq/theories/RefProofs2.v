(** Inserts and deletes, one reference at a time. *)
From Verif Require Import Base Maps RefModel RefSpec RefProofs.
From Coq Require Import ZifyN ZifyNat ZifyBool.
Ltac Zify.zify_post_hook ::= Z.div_mod_to_equations.
Open Scope N_scope.

Lemma cell_as_range : forall v i, 1 <= v -> (v = i + 1 <-> in_axis (Some v) (Some v) i).
Proof. intros v i H. unfold in_axis. lia. Qed.

(** What a deletion does to the bounds along its axis. *)
Definition axis_kept (op : shift_op) (s e s' e' : option N) : Prop :=
  forall i i', pushed op i = Some i' -> (in_axis s' e' i' <-> in_axis s e i).
Definition axis_gone (op : shift_op) (s e : option N) : Prop :=
  forall i, in_axis s e i -> pushed op i = None.

Lemma delete_axis : forall mx op s e sa ea, o_kind op = Delete ->
  bound_ok mx (Some s) -> bound_ok mx (Some e) -> s <= e -> mx < U32 - 2 -> o_at op + o_count op < U32 ->
  match adj_bounds false Delete (o_at op) (o_count op) (bidx (Some s) sa) (bidx (Some e) ea) with
  | None => axis_gone op (Some s) (Some e)
  | Some (s', e') => axis_kept op (Some s) (Some e) (succ_o s') (succ_o e')
                     /\ exists i i', in_axis (Some s) (Some e) i /\ pushed op i = Some i'
  end.
Proof.
  intros mx op s e sa ea K B1 B2 O L M. cbn in B1, B2.
  unfold adj_bounds, bidx, option_map. cbn [negb orb b_idx b_abs].
  rewrite (addw_small (o_at op)) by auto.
  set (at_ := o_at op) in *. set (n := o_count op) in *.
  assert (PU : forall i, pushed op i = if i <? at_ then Some i else if i <? at_ + n then None else Some (i - n)).
  { intros i. unfold pushed. now rewrite K. }
  unfold axis_kept, axis_gone, in_axis.
  destruct (N.ltb_spec (e - 1) at_) as [H1|H1]; cbn [orb].
  { assert (at_ + n <=? s - 1 = false) as -> by (apply N.leb_gt; lia).
    assert (at_ + n <=? e - 1 = false) as -> by (apply N.leb_gt; lia).
    rewrite !succ_small by lia. cbn [option_map]. split.
    - intros i i' P. rewrite PU in P. destruct (N.ltb_spec i at_); [inversion P; lia|].
      destruct (N.ltb_spec i (at_ + n)); [discriminate|]. inversion P; subst. lia.
    - exists (s - 1), (s - 1). rewrite PU. destruct (N.ltb_spec (s - 1) at_); [|lia]. split; [lia|auto]. }
  destruct (N.leb_spec (at_ + n) (s - 1)) as [H2|H2].
  { assert (at_ + n <=? e - 1 = true) as -> by (apply N.leb_le; lia).
    rewrite !succ_small by lia. cbn [option_map]. split.
    - intros i i' P. rewrite PU in P. destruct (N.ltb_spec i at_); [inversion P; lia|].
      destruct (N.ltb_spec i (at_ + n)); [discriminate|]. inversion P; subst. lia.
    - exists (s - 1), (s - 1 - n). rewrite PU. destruct (N.ltb_spec (s - 1) at_); [lia|].
      destruct (N.ltb_spec (s - 1) (at_ + n)); [lia|]. split; [lia|auto]. }
  destruct (N.leb_spec at_ (s - 1)) as [H3|H3]; cbn [andb].
  - destruct (N.ltb_spec (e - 1) (at_ + n)) as [H4|H4].
    + intros i [A B]. rewrite PU. destruct (N.ltb_spec i at_); [lia|].
      destruct (N.ltb_spec i (at_ + n)); [auto|lia].
    + assert (s - 1 <? at_ = false) as -> by (apply N.ltb_ge; lia).
      assert (at_ + n <=? e - 1 = true) as -> by (apply N.leb_le; lia).
      rewrite !succ_small by lia. cbn [option_map]. split.
      * intros i i' P. rewrite PU in P. destruct (N.ltb_spec i at_); [inversion P; lia|].
        destruct (N.ltb_spec i (at_ + n)); [discriminate|]. inversion P; subst. lia.
      * exists (e - 1), (e - 1 - n). rewrite PU. destruct (N.ltb_spec (e - 1) at_); [lia|].
        destruct (N.ltb_spec (e - 1) (at_ + n)); [lia|]. split; [lia|auto].
  - assert (s - 1 <? at_ = true) as -> by (apply N.ltb_lt; lia).
    assert (X : forall e', e' = (if at_ + n <=? e - 1 then e - 1 - n else at_ - 1) -> e' + 1 < U32 ->
                (forall i i', pushed op i = Some i' ->
                  s - 1 + 1 <= i' + 1 /\ i' + 1 <= e' + 1 <-> s <= i + 1 /\ i + 1 <= e)).
    { intros e' -> L' i i' P. rewrite PU in P. destruct (N.ltb_spec i at_); [inversion P; subst|].
      - destruct (N.leb_spec (at_ + n) (e - 1)); lia.
      - destruct (N.ltb_spec i (at_ + n)); [discriminate|]. inversion P; subst.
        destruct (N.leb_spec (at_ + n) (e - 1)); lia. }
    rewrite !succ_small; cbn [option_map]; try (destruct (N.leb_spec (at_ + n) (e - 1))); try lia.
    + split; [intros; eapply X; eauto; lia|].
      exists (s - 1), (s - 1). rewrite PU. destruct (N.ltb_spec (s - 1) at_); [|lia]. split; [lia|auto].
    + split; [intros; eapply X; eauto; lia|].
      exists (s - 1), (s - 1). rewrite PU. destruct (N.ltb_spec (s - 1) at_); [|lia]. split; [lia|auto].
Qed.

(** A range open above: only the lower bound can be hit. *)
Lemma delete_axis_up : forall mx op s sa ea, o_kind op = Delete ->
  bound_ok mx (Some s) -> mx < U32 - 2 -> o_at op + o_count op + 1 < U32 ->
  exists s', adj_bounds false Delete (o_at op) (o_count op) (bidx (Some s) sa) (bidx None ea) = Some (Some s', None)
             /\ axis_kept op (Some s) None (succ_o (Some s')) None
             /\ exists i i', in_axis (Some s) None i /\ pushed op i = Some i'.
Proof.
  intros mx op s sa ea K B L M. cbn in B. cbn [bidx option_map adj_bounds]. eexists. split; [reflexivity|].
  unfold adj_delete. cbn [andb b_idx b_abs]. rewrite (addw_small (o_at op)) by lia.
  set (at_ := o_at op) in *. set (n := o_count op) in *.
  assert (PU : forall i, pushed op i = if i <? at_ then Some i else if i <? at_ + n then None else Some (i - n)).
  { intros i. unfold pushed. now rewrite K. }
  split.
  - rewrite succ_small.
    + intros i i' P. unfold in_axis. cbn [option_map]. rewrite PU in P.
      destruct (N.leb_spec (at_ + n) (s - 1)); [|destruct (N.leb_spec at_ (s - 1))];
      (destruct (N.ltb_spec i at_); [inversion P; subst; lia|]);
      (destruct (N.ltb_spec i (at_ + n)); [discriminate|]); inversion P; subst; lia.
    + destruct (N.leb_spec (at_ + n) (s - 1)); [|destruct (N.leb_spec at_ (s - 1))]; lia.
  - exists (s + at_ + n), (s + at_). rewrite PU. unfold in_axis.
    destruct (N.ltb_spec (s + at_ + n) at_); [lia|].
    destruct (N.ltb_spec (s + at_ + n) (at_ + n)); [lia|]. split; [split; auto; lia|f_equal; lia].
Qed.

(** A range open below whose last line survives. *)
Lemma delete_axis_down : forall mx op e sa ea, o_kind op = Delete ->
  bound_ok mx (Some e) -> mx < U32 - 2 -> o_at op + o_count op < U32 ->
  e - 1 < o_at op \/ o_at op + o_count op <= e - 1 ->
  exists e', adj_bounds false Delete (o_at op) (o_count op) (bidx None sa) (bidx (Some e) ea) = Some (None, Some e')
             /\ axis_kept op None (Some e) None (succ_o (Some e'))
             /\ exists i i', in_axis None (Some e) i /\ pushed op i = Some i'.
Proof.
  intros mx op e sa ea K B L M H. cbn in B. cbn [bidx option_map adj_bounds]. eexists. split; [reflexivity|].
  unfold adj_delete. cbn [andb b_idx b_abs]. rewrite (addw_small (o_at op)) by lia.
  set (at_ := o_at op) in *. set (n := o_count op) in *.
  assert (PU : forall i, pushed op i = if i <? at_ then Some i else if i <? at_ + n then None else Some (i - n)).
  { intros i. unfold pushed. now rewrite K. }
  split.
  - rewrite succ_small.
    + intros i i' P. unfold in_axis. cbn [option_map]. rewrite PU in P.
      destruct (N.leb_spec (at_ + n) (e - 1)); [|destruct (N.leb_spec at_ (e - 1))]; try lia;
      (destruct (N.ltb_spec i at_); [inversion P; subst; lia|]);
      (destruct (N.ltb_spec i (at_ + n)); [discriminate|]); inversion P; subst; lia.
    + destruct (N.leb_spec (at_ + n) (e - 1)); [|destruct (N.leb_spec at_ (e - 1))]; lia.
  - destruct (N.ltb_spec (e - 1) at_).
    + exists (e - 1), (e - 1). rewrite PU. destruct (N.ltb_spec (e - 1) at_); [|lia].
      split; auto. unfold in_axis. split; auto. lia.
    + exists (e - 1), (e - 1 - n). rewrite PU. destruct (N.ltb_spec (e - 1) at_); [lia|].
      destruct (N.ltb_spec (e - 1) (at_ + n)); [lia|]. split; auto. unfold in_axis. split; auto. lia.
Qed.

(** * From one axis to the cells of a range *)
Section Range.
  Variable get_id : text -> option N.
  Variables (op : shift_op) (f : N) (g g' : rrange).
  Hypothesis Hs : sheet_of get_id f (r_sheet g) = Some (o_sheet op).
  Hypothesis Hn : r_sheet g' = r_sheet g.

  Lemma range_same_cells :
    match o_axis op with
    | Rows => axis_kept op (r_sr g) (r_er g) (r_sr g') (r_er g') /\ r_sc g' = r_sc g /\ r_ec g' = r_ec g
    | Cols => axis_kept op (r_sc g) (r_ec g) (r_sc g') (r_ec g') /\ r_sr g' = r_sr g /\ r_er g' = r_er g
    end -> same_cells get_id op f (RRange g) (RRange g').
  Proof.
    intros H [[s row] col] k' G. destruct (N.eq_dec s (o_sheet op)) as [E|E].
    - destruct (goes_cases _ _ _ _ _ G E) as [(A & x & B & ->)|(A & x & B & ->)]; rewrite A in H;
      destruct H as (K & X & Y); cbn; rewrite Hn, X, Y; specialize (K _ _ B); tauto.
    - unfold goes in G. apply N.eqb_neq in E. rewrite E in G. inversion G; subst. cbn. rewrite Hn, Hs.
      apply N.eqb_neq in E. split; intros (X & _); congruence.
  Qed.
End Range.

Lemma axis_inhabited : forall s e, (forall v, s = Some v -> 1 <= v) -> (forall v, e = Some v -> 1 <= v) ->
  ord_ok s e -> exists i, in_axis s e i.
Proof.
  intros [s|] [e|] A B O; unfold in_axis; cbn in O.
  - exists (s - 1). specialize (A _ eq_refl). lia.
  - exists (s - 1). specialize (A _ eq_refl). split; auto. lia.
  - exists (e - 1). specialize (B _ eq_refl). split; auto. lia.
  - exists 0. auto.
Qed.

Lemma UMAX : ROW_MAX < U32 - 2 /\ COL_MAX < U32 - 2.
Proof. unfold ROW_MAX, COL_MAX, U32. lia. Qed.

(** * Insertion *)
Section InsertOne.
  Variable get_id : text -> option N.
  Variables (op : shift_op) (f : N).
  Hypothesis K : o_kind op = Insert.
  Hypothesis C : ROW_MAX + o_count op + 2 < U32.

  Lemma CC : COL_MAX + o_count op + 2 < U32.
  Proof using C. unfold ROW_MAX, COL_MAX in *. lia. Qed.

  Lemma edge_kept : forall mx s e s' e', bound_ok mx s -> bound_ok mx e ->
    edge_image op s s' -> edge_image op e e' -> axis_kept op s e s' e'.
  Proof using K.
    intros mx s e s' e' B1 B2 E1 E2 i i' P.
    apply (edge_axis op s e s' e' i i' K); auto; intros v X;
      [exact (bound_pos mx s v B1 X)|exact (bound_pos mx e v B2 X)].
  Qed.

  Lemma insert_ref : forall r, on_sheet r -> room op r ->
    exists d, adj_reference get_id false op (Some f) r = Ok d /\ kept_by_insert get_id op f r (node_of d).
  Proof using K C.
    intros r W R. destruct r as [c|g|t]; cbn [adj_reference].
    - destruct (other_sheet get_id op (Some f) (c_sheet c)) eqn:O.
      + exists (AdjRef (RCell c)). split; auto. apply other_sheet_spec in O.
        exists (RCell c). split; [auto|]. split; [cbn; auto|]. split; [now apply same_cells_off; left|].
        split; [|auto]. intros N. exfalso. now apply N.
      + apply other_sheet_false in O. rewrite cell_coords_ok by auto. destruct W as [W1 W2].
        unfold adj_cell. rewrite K. cbn [adj_cell_index andb orb]. unfold room in R.
        assert (PU : forall i, pushed op i = Some (if i <? o_at op then i else i + o_count op)).
        { intros i. unfold pushed. now rewrite K. }
        destruct (o_axis op) eqn:AX.
        * assert (E : (if c_row c - 1 <? o_at op then Some (c_row c - 1) else Some (addw (c_row c - 1) (o_count op)))
                      = pushed op (c_row c - 1)).
          { rewrite PU. destruct (N.ltb_spec (c_row c - 1) (o_at op)); auto. rewrite addw_small; auto. lia. }
          rewrite E. rewrite PU. set (row' := if c_row c - 1 <? o_at op then _ else _).
          assert (LE : row' <= ROW_MAX) by (unfold row'; destruct (N.ltb_spec (c_row c - 1) (o_at op)); lia).
          assert (FI : coord_fits row' (c_col c - 1) = true).
          { unfold coord_fits. apply andb_true_iff. split; apply N.leb_le; lia. }
          rewrite FI. cbn [rbind]. eexists. split; [reflexivity|]. cbn [node_of].
          rewrite !addw_small by (unfold ROW_MAX, COL_MAX, U32 in *; lia).
          replace (c_col c - 1 + 1) with (c_col c) by lia.
          eexists. split; [reflexivity|]. split; [cbn; auto|].
          assert (EI : edge_image op (Some (c_row c)) (Some (row' + 1))).
          { exists row'. split; auto. rewrite PU. reflexivity. }
          split; [|split].
          -- intros [[s row] col] k' G. destruct (N.eq_dec s (o_sheet op)) as [Q|Q].
             ++ destruct (goes_cases _ _ _ _ _ G Q) as [(A & x & B & ->)|(A & x & B & ->)]; [|congruence].
                cbn. rewrite cell_as_range by lia. rewrite (cell_as_range (c_row c)) by lia.
                rewrite (edge_kept ROW_MAX (Some (c_row c)) (Some (c_row c)) _ _ W1 W1 EI EI row x B). tauto.
             ++ unfold goes in G. apply N.eqb_neq in Q. rewrite Q in G. inversion G; subst. cbn.
                apply N.eqb_neq in Q. rewrite O. split; intros (X & _); congruence.
          -- intros _. cbn. rewrite AX. cbn. split; exists row'; rewrite PU; auto.
          -- intros X. cbn in X. contradiction.
        * assert (E : (if c_col c - 1 <? o_at op then Some (c_col c - 1) else Some (addw (c_col c - 1) (o_count op)))
                      = pushed op (c_col c - 1)).
          { rewrite PU. destruct (N.ltb_spec (c_col c - 1) (o_at op)); auto. rewrite addw_small; auto.
            pose proof CC. lia. }
          rewrite E. rewrite PU. set (col' := if c_col c - 1 <? o_at op then _ else _).
          assert (LE : col' <= COL_MAX) by (unfold col'; destruct (N.ltb_spec (c_col c - 1) (o_at op)); lia).
          assert (FI : coord_fits (c_row c - 1) col' = true).
          { unfold coord_fits. apply andb_true_iff. split; apply N.leb_le; lia. }
          rewrite FI. cbn [rbind]. eexists. split; [reflexivity|]. cbn [node_of].
          rewrite !addw_small by (unfold ROW_MAX, COL_MAX, U32 in *; lia).
          replace (c_row c - 1 + 1) with (c_row c) by lia.
          eexists. split; [reflexivity|]. split; [cbn; auto|].
          assert (EI : edge_image op (Some (c_col c)) (Some (col' + 1))).
          { exists col'. split; auto. rewrite PU. reflexivity. }
          split; [|split].
          -- intros [[s row] col] k' G. destruct (N.eq_dec s (o_sheet op)) as [Q|Q].
             ++ destruct (goes_cases _ _ _ _ _ G Q) as [(A & x & B & ->)|(A & x & B & ->)]; [congruence|].
                cbn. rewrite (cell_as_range (col' + 1)) by lia. rewrite (cell_as_range (c_col c)) by lia.
                rewrite (edge_kept COL_MAX (Some (c_col c)) (Some (c_col c)) _ _ W2 W2 EI EI col x B). tauto.
             ++ unfold goes in G. apply N.eqb_neq in Q. rewrite Q in G. inversion G; subst. cbn.
                apply N.eqb_neq in Q. rewrite O. split; intros (X & _); congruence.
          -- intros _. cbn. rewrite AX. cbn. split; exists col'; rewrite PU; auto.
          -- intros X. cbn in X. contradiction.
    - destruct (other_sheet get_id op (Some f) (r_sheet g)) eqn:O.
      + exists (AdjRef (RRange g)). split; auto. apply other_sheet_spec in O.
        exists (RRange g). split; [auto|]. split; [cbn; auto|]. split; [now apply same_cells_off; left|].
        split; [|auto]. intros N. exfalso. now apply N.
      + apply other_sheet_false in O. eexists. split; [reflexivity|].
        unfold adj_range. rewrite range_bounds_ok by auto. rewrite K.
        pose proof W as (B1 & B2 & B3 & B4 & _).
        destruct UMAX as [U1 U2].
        destruct (o_axis op) eqn:AX.
        * destruct (insert_axis ROW_MAX op (r_sr g) (r_er g) (r_sra g) (r_era g) K B1 B2 C) as (s' & e' & E & I1 & I2).
          unfold bidx in E. rewrite E. cbn [node_of].
          change (option_map (fun v => mkB (v - 1) (r_sca g)) (r_sc g)) with (bidx (r_sc g) (r_sca g)).
          change (option_map (fun v => mkB (v - 1) (r_eca g)) (r_ec g)) with (bidx (r_ec g) (r_eca g)).
          rewrite (succ_idx COL_MAX (r_sc g)), (succ_idx COL_MAX (r_ec g)) by auto.
          eexists. split; [reflexivity|]. split; [cbn; auto|]. split; [|split].
          -- apply range_same_cells; auto. rewrite AX. cbn. split; auto.
             eapply edge_kept; eauto.
          -- intros _. cbn. rewrite AX. cbn. auto.
          -- intros X. cbn in X. contradiction.
        * destruct (insert_axis COL_MAX op (r_sc g) (r_ec g) (r_sca g) (r_eca g) K B3 B4 CC) as (s' & e' & E & I1 & I2).
          unfold bidx in E. rewrite E. cbn [node_of].
          change (option_map (fun v => mkB (v - 1) (r_sra g)) (r_sr g)) with (bidx (r_sr g) (r_sra g)).
          change (option_map (fun v => mkB (v - 1) (r_era g)) (r_er g)) with (bidx (r_er g) (r_era g)).
          rewrite (succ_idx ROW_MAX (r_sr g)), (succ_idx ROW_MAX (r_er g)) by auto.
          eexists. split; [reflexivity|]. split; [cbn; auto|]. split; [|split].
          -- apply range_same_cells; auto. rewrite AX. cbn. split; auto.
             eapply edge_kept; eauto.
          -- intros _. cbn. rewrite AX. cbn. auto.
          -- intros X. cbn in X. contradiction.
    - exists (AdjRef (ROther t)). split; auto. exists (ROther t). split; auto. split; [cbn; auto|].
      split; [apply same_cells_off; right; eauto|]. split; auto. intros N. exfalso. apply N. cbn. auto.
  Qed.
End InsertOne.
