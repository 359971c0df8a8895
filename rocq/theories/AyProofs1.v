(** Views, tables and collapsed results. *)
From Coq Require Import QArith Permutation Sorted ZifyNat ZifyBool.
From Verif Require Import Base Maps LookupModel LookupSpec AyModel AySpec.
Close Scope Q_scope.

Lemma stored_idem : forall v, stored (stored v) = stored v.
Proof. now intros []. Qed.
Lemma get_stored : forall w r c, stored (get_cell w r c) = get_cell w r c.
Proof. intros. unfold get_cell. destruct (_ && _); [apply stored_idem|reflexivity]. Qed.

Lemma nth_map_seq : forall A (f : nat -> A) n i d, i < n -> nth i (map f (seq 0 n)) d = f i.
Proof.
  intros. rewrite (nth_indep _ d (f 0)) by (rewrite map_length, seq_length; lia).
  rewrite map_nth, seq_nth by lia. reflexivity.
Qed.

Lemma row_of_length : forall w r, length (row_of w r) = v_cols w.
Proof. intros. unfold row_of. now rewrite map_length, seq_length. Qed.
Lemma col_of_length : forall w c, length (col_of w c) = v_rows w.
Proof. intros. unfold col_of. now rewrite map_length, seq_length. Qed.
Lemma rows_of_length : forall w, length (rows_of w) = v_rows w.
Proof. intros. unfold rows_of. now rewrite map_length, seq_length. Qed.
Lemma rows_of_rect : forall w, rect (v_rows w) (v_cols w) (rows_of w).
Proof.
  intros w. split; [apply rows_of_length|]. intros row H. unfold rows_of in H. apply in_map_iff in H.
  destruct H as (r & <- & _). apply row_of_length.
Qed.
Lemma nth_rows_of : forall w r, r < v_rows w -> nth r (rows_of w) [] = row_of w r.
Proof. intros. unfold rows_of. now rewrite nth_map_seq. Qed.
Lemma nth_row_of : forall w r c, nth c (row_of w r) LEmpty = get_cell w r c.
Proof.
  intros. destruct (Nat.lt_ge_cases c (v_cols w)).
  - unfold row_of. now rewrite nth_map_seq.
  - rewrite nth_overflow by (rewrite row_of_length; lia). unfold get_cell.
    destruct (r <? v_rows w); auto. destruct (Nat.ltb_spec c (v_cols w)); auto; lia.
Qed.
Lemma nth_col_of : forall w r c, nth r (col_of w c) LEmpty = get_cell w r c.
Proof.
  intros. destruct (Nat.lt_ge_cases r (v_rows w)).
  - unfold col_of. now rewrite nth_map_seq.
  - rewrite nth_overflow by (rewrite col_of_length; lia). unfold get_cell.
    destruct (Nat.ltb_spec r (v_rows w)); auto; lia.
Qed.
Lemma cell_rows_of : forall w r c, cell (rows_of w) r c = get_cell w r c.
Proof.
  intros. unfold cell. destruct (Nat.lt_ge_cases r (v_rows w)).
  - rewrite nth_rows_of by auto. apply nth_row_of.
  - rewrite (nth_overflow (rows_of w)) by (rewrite rows_of_length; lia).
    unfold get_cell. destruct (Nat.ltb_spec r (v_rows w)); [lia|]. now destruct c.
Qed.

(** Tables of one size are equal cell by cell. *)
Lemma list_ext : forall A (d : A) l l', length l = length l' -> (forall i, i < length l -> nth i l d = nth i l' d) -> l = l'.
Proof. intros. now apply nth_ext with (d := d) (d' := d). Qed.
Lemma table_ext : forall n m t t', rect n m t -> rect n m t' ->
  (forall r c, r < n -> c < m -> cell t r c = cell t' r c) -> t = t'.
Proof.
  intros n m t t' [L W] [L' W'] H. apply list_ext with (d := []); [congruence|]. intros i Hi.
  assert (I1 : In (nth i t []) t) by (apply nth_In; lia).
  assert (I2 : In (nth i t' []) t') by (apply nth_In; lia).
  apply list_ext with (d := LEmpty); [rewrite W, W' by auto; reflexivity|]. intros j Hj.
  rewrite W in Hj by auto. apply H; lia.
Qed.

(** Rows stored as a range. *)
Definition plain (t : table) : Prop := forall row v, In row t -> In v row -> stored v = v.
Lemma max_len : forall m (rows : table), (forall row, In row rows -> length row = m) -> rows <> [] ->
  fold_right Nat.max 0 (map (@length lval) rows) = m.
Proof.
  intros m rows H N. destruct rows as [|a rows]; [congruence|]. clear N. revert a H.
  induction rows as [|b rows IH]; intros a H; cbn in *.
  - rewrite H by auto. lia.
  - rewrite (H a) by auto. rewrite IH by (intros; apply H; cbn in *; tauto). lia.
Qed.
Lemma of_rows_dims : forall n m rows, rect n m rows -> 0 < n -> 0 < m ->
  of_rows rows = mkView n m (fun r c => nth c (nth r rows []) LEmpty).
Proof.
  intros n m rows [L W] Hn Hm. unfold of_rows. rewrite (max_len m) by (auto; intros ->; cbn in L; lia).
  rewrite L. destruct n; [lia|]. destruct m; [lia|]. reflexivity.
Qed.
Lemma rows_of_of_rows : forall n m rows, rect n m rows -> 0 < n -> 0 < m ->
  rows_of (of_rows rows) = map (map stored) rows.
Proof.
  intros n m rows R Hn Hm. apply table_ext with (n := n) (m := m).
  - rewrite (of_rows_dims n m) by auto. apply rows_of_rect.
  - destruct R as [L W]. split; [now rewrite map_length|]. intros row H. apply in_map_iff in H.
    destruct H as (x & <- & H). rewrite map_length. auto.
  - intros r c Hr Hc. rewrite cell_rows_of, (of_rows_dims n m) by auto. unfold get_cell. cbn [v_rows v_cols v_at].
    destruct (Nat.ltb_spec r n); [|lia]. destruct (Nat.ltb_spec c m); [|lia]. cbn [andb].
    unfold cell. change (@nil lval) with (map stored []) at 2. rewrite map_nth.
    change LEmpty with (stored LEmpty) at 2. now rewrite map_nth.
Qed.
Lemma cells_collapse : forall n m rows, rect n m rows -> 0 < n -> 0 < m ->
  cells (collapse_if_scalar rows) = map (map stored) rows.
Proof.
  intros n m rows R Hn Hm. unfold collapse_if_scalar.
  destruct rows as [|[|v [|]] [|]]; try (apply (rows_of_of_rows n m); auto). reflexivity.
Qed.
Lemma map_stored : forall t, plain t -> map (map stored) t = t.
Proof.
  intros t P. rewrite <- (map_id t) at 2. apply map_ext_in. intros row H.
  rewrite <- (map_id row) at 2. apply map_ext_in. intros v Hv. eapply P; eauto.
Qed.
Lemma cells_plain : forall n m rows, rect n m rows -> plain rows -> 0 < n -> 0 < m ->
  cells (collapse_if_scalar rows) = rows.
Proof. intros. rewrite (cells_collapse n m) by auto. now apply map_stored. Qed.

Lemma plain_rows_of : forall w, plain (rows_of w).
Proof.
  intros w row v H Hv. unfold rows_of in H. apply in_map_iff in H. destruct H as (r & <- & _).
  unfold row_of in Hv. apply in_map_iff in Hv. destruct Hv as (c & <- & _). apply get_stored.
Qed.
Lemma plain_incl : forall t t', plain t -> (forall row, In row t' -> In row t) -> plain t'.
Proof. intros t t' P H row v Hr Hv. eapply P; eauto. Qed.
Lemma plain_of : forall t, (forall row v, In row t -> In v row -> exists w r c, v = get_cell w r c) -> plain t.
Proof. intros t H row v Hr Hv. destruct (H row v Hr Hv) as (w & r & c & ->). apply get_stored. Qed.

Lemma cells_empty : cells (Range (of_rows [])) = [].
Proof. reflexivity. Qed.
Lemma rows_of_empty : forall w, v_rows w = 0 -> rows_of w = [].
Proof. intros w H. unfold rows_of. now rewrite H. Qed.

Lemma nonempty : forall w, is_empty w = false <-> 0 < v_rows w /\ 0 < v_cols w.
Proof.
  intros w. unfold is_empty. rewrite orb_false_iff, !Nat.eqb_neq. lia.
Qed.

Lemma map_cell_at : forall w r l, map (get_cell w r) l = map (fun c => nth c (row_of w r) LEmpty) l.
Proof. intros. apply map_ext. intros. now rewrite nth_row_of. Qed.

Lemma shows_collapse : forall n m rows, rect n m rows -> plain rows -> 0 < n -> 0 < m ->
  shows (Ok (collapse_if_scalar rows)) rows.
Proof. intros. eexists. split; [reflexivity|]. eapply cells_plain; eauto. Qed.
Lemma shows_inj : forall o t t', shows o t -> shows o t' -> t = t'.
Proof. intros o t t' (a & H & E) (b & H' & E'). congruence. Qed.

(** Result of an argument read as a view again. *)
Lemma as_view_cells : forall a, rows_of (as_view a) = cells a.
Proof. intros [v|w]; reflexivity. Qed.

(** ** Mirrored tables *)
Lemma flip_rect : forall n m t, rect m n (flip n m t).
Proof.
  intros. split; [unfold flip; now rewrite map_length, seq_length|]. intros row H. unfold flip in H.
  apply in_map_iff in H. destruct H as (c & <- & _). now rewrite map_length, seq_length.
Qed.
Lemma flip_cell : forall n m t r c, r < n -> c < m -> cell (flip n m t) c r = cell t r c.
Proof. intros. unfold cell at 1, flip. now rewrite !nth_map_seq. Qed.
Lemma flip_mirrored : forall n m t, rect n m t -> mirrored n m t (flip n m t).
Proof. intros. split; auto. split; [apply flip_rect|]. intros. now apply flip_cell. Qed.
Lemma mirrored_flip : forall n m t t', mirrored n m t t' -> t' = flip n m t.
Proof.
  intros n m t t' (R & R' & H). apply table_ext with (n := m) (m := n); auto; [apply flip_rect|].
  intros c r Hc Hr. now rewrite flip_cell, H.
Qed.
Lemma flip_flip : forall n m t, rect n m t -> flip m n (flip n m t) = t.
Proof.
  intros n m t R. apply table_ext with (n := n) (m := m); auto; [apply flip_rect|].
  intros. rewrite !flip_cell by auto. reflexivity.
Qed.
Lemma mirrored_sym : forall n m t t', mirrored n m t t' -> mirrored m n t' t.
Proof. intros n m t t' (R & R' & H). split; [auto|]. split; [auto|]. intros. symmetry. now apply H. Qed.

Lemma cols_flip : forall w, map (col_of w) (seq 0 (v_cols w)) = flip (v_rows w) (v_cols w) (rows_of w).
Proof.
  intros w. apply table_ext with (n := v_cols w) (m := v_rows w).
  - split; [now rewrite map_length, seq_length|]. intros row H. apply in_map_iff in H.
    destruct H as (c & <- & _). apply col_of_length.
  - apply flip_rect.
  - intros c r Hc Hr. rewrite flip_cell, cell_rows_of by auto. unfold cell. rewrite nth_map_seq by auto.
    apply nth_col_of.
Qed.
Lemma plain_cols : forall w, plain (map (col_of w) (seq 0 (v_cols w))).
Proof.
  intros w. apply plain_of. intros row v H Hv. apply in_map_iff in H. destruct H as (c & <- & _).
  unfold col_of in Hv. apply in_map_iff in Hv. destruct Hv as (r & <- & _). eauto.
Qed.
Lemma cols_rect : forall w, rect (v_cols w) (v_rows w) (map (col_of w) (seq 0 (v_cols w))).
Proof. intros. rewrite cols_flip. apply flip_rect. Qed.

Lemma transpose_shows : forall w, is_empty w = false ->
  shows (f_transpose w) (flip (v_rows w) (v_cols w) (rows_of w)).
Proof.
  intros w E. unfold f_transpose. fold (is_empty w). rewrite E. apply nonempty in E. rewrite <- cols_flip.
  apply (shows_collapse (v_cols w) (v_rows w)); try tauto; auto using cols_rect, plain_cols.
Qed.
