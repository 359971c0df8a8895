(* Theorems about the sheets of the column store. *)
From Coq Require Import List Bool NArith ZArith Lia.
From Verif Require Import Base Maps OvModel AsModel AsSpec AsProofs AsProofs2 AsProofs3 AsProofs4 AsProofs5 AsProofs6 AsProofs7.
Import ListNotations.
Open Scope N_scope.

(* chunks of 3 rows: literals, results, splits of chunks by insertions and
   deletions, growth over several chunks, compactions, columns *)
Definition ex_sheet : list sop :=
  [WValue 0 1 (OvNumber 1) None; WValue 7 0 (OvText [65]) (Some 4); WComputed 4 1 (OvNumber 2); WInsertRows 4 2;
   WClear 0 1; WComputed 0 1 (OvBoolean true); WDeleteRows 1 2; WInsertCols 1 1; WFormat 4 2 (Some 9);
   WCompactComputed 2 1; WCompactUser 0 2 0 1; WDeleteCols 1 1; WValue 9 3 OvEmpty None; WInsertRows 10 3; WClearRows 6].
Lemma ex_calm : calm_all 3 ex_sheet (0, 0).
Proof. cbn. unfold U32_MAX. repeat split; try lia; auto. Qed.

(* ---- C97: a sheet is a grid of cells ---- *)

Theorem C97_sheet_follows_history : forall mem crows h, calm_all crows h (0, 0) ->
  exists s g, srun mem (new_sheet crows) h = Some s /\ gruns h (fun _ _ => blank) g /\
    (s_rows s, lenN (s_cols s)) = fold_left (fun d p => dims_step p d) h (0, 0) /\
    (forall r c, get_cell s r c = Some (shown (g r c))) /\ (forall r c, format_id s r c = Some (shown_format (g r c))).
Proof. exact sheet_history. Qed.
Print Assumptions C97_sheet_follows_history.
(* one call, on any sheet whose chunks agree with the row layout *)
Theorem C97_call_follows_layout : forall pl mem s lens p, inv pl s lens -> calm (s_crows s) p (s_rows s, lenN (s_cols s)) ->
  exists s' lens', sstep mem s p = Some s' /\ inv pl s' lens' /\ gstep p (layer s lens) (layer s' lens') /\
    (s_rows s', lenN (s_cols s')) = dims_step p (s_rows s, lenN (s_cols s)) /\ s_crows s' = s_crows s.
Proof. exact step_spec. Qed.
Print Assumptions C97_call_follows_layout.
Theorem C97_reads_layout : forall pl s lens r c, inv pl s lens -> get_cell s r c = Some (shown (layer s lens r c)).
Proof. exact get_cell_layer. Qed.
Print Assumptions C97_reads_layout.
Example C97_ex : calm_all 3 ex_sheet (0, 0) /\
  option_map (fun s => (s_rows s, lenN (s_cols s), s_starts s,
     map (fun '(r, c) => get_cell s r c) [(0, 1); (4, 1); (7, 0); (5, 1); (9, 3); (12, 0)],
     map (fun '(r, c) => format_id s r c) [(4, 1); (7, 0)]))
    (srun (fun _ => 100) (new_sheet 3) ex_sheet)
  = Some (13, 4, [0; 1; 2; 4; 6; 9; 10],
          [Some (LBoolean true); Some (LNumber 2); Some (LText [65]); Some LEmpty; Some LEmpty; Some LEmpty],
          [Some (Some 9); Some (Some 4)]).
Proof. split; [exact ex_calm|vm_compute; reflexivity]. Qed.

(* ---- C98: the last write is read back ---- *)

Theorem C98_last_write_is_read : forall mem crows h, calm_all crows h (0, 0) ->
  exists s, srun mem (new_sheet crows) h = Some s /\
    forall r c l, says (fold_left bstep h (fun _ _ => MBlank) r c) = Some l -> get_cell s r c = Some l.
Proof. exact last_write. Qed.
Print Assumptions C98_last_write_is_read.
Example C98_ex : map (fun '(r, c) => says (fold_left bstep ex_sheet (fun _ _ => MBlank) r c)) [(0, 1); (4, 1); (7, 0); (5, 1); (9, 3); (12, 0)]
  = [Some (LBoolean true); Some (LNumber 2); Some (LText [65]); Some LEmpty; Some LEmpty; Some LEmpty].
Proof. reflexivity. Qed.

(* ---- C99: structural edits and writes do not crash ---- *)

(* rows inserted into a sheet without columns, twice *)
Theorem C99_insert_rows_then_write_refuted : exists h s, (forall mem, srun mem (new_sheet CHUNK_ROWS) h = Some s) /\
  h = [WInsertRows 0 1; WInsertRows 0 1] /\ forall mem v f, sstep mem s (WValue 0 0 v f) = None.
Proof.
  exists [WInsertRows 0 1; WInsertRows 0 1], (Sheet [] 2 [] CHUNK_ROWS). split; [reflexivity|]. split; [reflexivity|]. reflexivity.
Qed.
Print Assumptions C99_insert_rows_then_write_refuted.
(* the only column deleted, a row inserted *)
Theorem C99_delete_columns_then_write_refuted : exists h, h = [WValue 0 0 (OvNumber 1) None; WDeleteCols 0 1; WInsertRows 0 1] /\
  forall mem, exists s, srun mem (new_sheet CHUNK_ROWS) h = Some s /\ forall v f, sstep mem s (WValue 0 0 v f) = None.
Proof.
  eexists. split; [reflexivity|]. intros mem. exists (Sheet [] 2 [] CHUNK_ROWS). split; reflexivity.
Qed.
Print Assumptions C99_delete_columns_then_write_refuted.
Theorem C99_no_crash_partial : forall mem crows h, calm_all crows h (0, 0) ->
  exists s, srun mem (new_sheet crows) h = Some s /\ forall r c, get_cell s r c <> None /\ format_id s r c <> None.
Proof.
  intros mem crows h H. destruct (sheet_history mem crows h H) as (s & g & E & _ & _ & V & F). exists s. split; auto.
  intros r c. rewrite V, F. split; discriminate.
Qed.
Print Assumptions C99_no_crash_partial.
Example C99_ex : calm_all 3 ex_sheet (0, 0) /\ calm_all 32768 [WInsertRows 0 1] (0, 0) /\
  ~ calm_all 32768 [WInsertRows 0 1; WInsertRows 0 1] (0, 0).
Proof.
  split; [exact ex_calm|]. cbn. unfold U32_MAX. split; [repeat split; try lia; auto|]. intros (_ & ((_ & [H | H]) & _) & _); lia.
Qed.

(* ---- C100: a large row insertion followed by growth ---- *)

(* A40000 is written, then A50000, and A40000 reads empty *)
Theorem C100_large_insertion_loses_value_refuted : exists h, h =
    [WValue 0 0 (OvNumber 1) None; WInsertRows 1 40000; WValue 39999 0 (OvNumber 2) None; WValue 49999 0 (OvNumber 3) None] /\
  exists mem s, srun mem (new_sheet CHUNK_ROWS) h = Some s /\
    says (fold_left bstep h (fun _ _ => MBlank) 39999 0) = Some (LNumber 2) /\ get_cell s 39999 0 = Some LEmpty.
Proof.
  eexists. split; [reflexivity|]. exists (fun _ => 0).
  match goal with |- exists s, srun ?m ?s0 ?h = _ /\ _ =>
    assert (X : option_map (fun s => get_cell s 39999 0) (srun m s0 h) = Some (Some LEmpty)) by (vm_compute; reflexivity);
    destruct (srun m s0 h) as [s|]; [|discriminate]; exists s; injection X as X end.
  split; [reflexivity|]. split; [reflexivity|exact X].
Qed.
Print Assumptions C100_large_insertion_loses_value_refuted.
(* the same with chunks of two rows *)
Theorem C100_large_insertion_any_store_refuted : forall mem, exists s,
  srun mem (new_sheet 2) [WValue 0 0 (OvNumber 1) None; WInsertRows 1 3; WValue 3 0 (OvNumber 2) None; WValue 4 0 (OvNumber 3) None] = Some s /\
  get_cell s 3 0 = Some LEmpty.
Proof.
  intros mem. match goal with |- exists s, srun ?m ?s0 ?h = _ /\ _ =>
    assert (X : option_map (fun s => get_cell s 3 0) (srun m s0 h) = Some (Some LEmpty)) by (vm_compute; reflexivity);
    destruct (srun m s0 h) as [s|]; [|discriminate]; exists s; injection X as X end.
  split; [reflexivity|exact X].
Qed.
Print Assumptions C100_large_insertion_any_store_refuted.
(* insertions of at most one chunk keep what was written: C98 with the row
   bound, for the store of the engine *)
Theorem C100_written_value_kept_partial : forall mem h, calm_all CHUNK_ROWS h (0, 0) ->
  exists s, srun mem (new_sheet CHUNK_ROWS) h = Some s /\
    forall r c l, says (fold_left bstep h (fun _ _ => MBlank) r c) = Some l -> get_cell s r c = Some l.
Proof. intros mem h H. exact (last_write mem CHUNK_ROWS h H). Qed.
Print Assumptions C100_written_value_kept_partial.
Example C100_ex : calm_all CHUNK_ROWS
  [WValue 0 0 (OvNumber 1) None; WInsertRows 1 32768; WValue 32767 0 (OvNumber 2) None; WValue 49999 0 (OvNumber 3) None] (0, 0).
Proof. cbn. unfold U32_MAX, CHUNK_ROWS. repeat split; try lia; auto. Qed.

(* ---- C101: compaction does not change what is shown ---- *)

Theorem C101_computed_compaction_invisible : forall mem crows h c i, calm_all crows h (0, 0) ->
  exists s s', srun mem (new_sheet crows) h = Some s /\ sstep mem s (WCompactComputed c i) = Some s' /\
    forall r j, get_cell s' r j = get_cell s r j /\ format_id s' r j = format_id s r j.
Proof. exact compact_computed_shown. Qed.
Print Assumptions C101_computed_compaction_invisible.
Theorem C101_user_compaction_partial : forall mem crows h c i t d, calm_all crows h (0, 0) ->
  exists s s' g, srun mem (new_sheet crows) h = Some s /\ sstep mem s (WCompactUser c i t d) = Some s' /\ gruns h (fun _ _ => blank) g /\
    forall r j, x_user (g r j) = None \/ x_comp (g r j) = None -> get_cell s' r j = get_cell s r j.
Proof. exact compact_user_shown. Qed.
Print Assumptions C101_user_compaction_partial.
(* a cell cleared by an edit, a result written over it: the result is hidden
   until the chunk is compacted *)
Theorem C101_user_compaction_refuted : exists h, h = [WValue 99 0 (OvNumber 7) None; WValue 0 0 OvEmpty None; WComputed 0 0 (OvNumber 5)] /\
  calm_all CHUNK_ROWS h (0, 0) /\ forall mem, exists s s', srun mem (new_sheet CHUNK_ROWS) h = Some s /\
    sstep mem s (WCompactUser 0 0 0 50) = Some s' /\ get_cell s 0 0 = Some LEmpty /\ get_cell s' 0 0 = Some (LNumber 5).
Proof.
  eexists. split; [reflexivity|]. split; [cbn; unfold U32_MAX; repeat split; try lia; auto|].
  intros mem. eexists. eexists. split; [reflexivity|]. split; [reflexivity|]. split; reflexivity.
Qed.
Print Assumptions C101_user_compaction_refuted.

(* ---- C102: a literal that a formula has replaced is not shown again ---- *)

Theorem C102_stale_literal_refuted : exists h, h =
    [WValue 0 0 (OvNumber 1) None; WClear 0 0; WComputed 0 0 (OvNumber 2); WInsertRows 0 1; WClearRows 0] /\
  calm_all CHUNK_ROWS h (0, 0) /\ forall mem, exists s, srun mem (new_sheet CHUNK_ROWS) h = Some s /\ get_cell s 1 0 = Some (LNumber 1).
Proof.
  eexists. split; [reflexivity|]. split; [cbn; unfold U32_MAX, CHUNK_ROWS; repeat split; try lia; auto|].
  intros mem. eexists. split; reflexivity.
Qed.
Print Assumptions C102_stale_literal_refuted.
(* the result of a formula is shown as soon as it is written, whatever was in
   the cell before, and a formula without a result never shows a user edit *)
Theorem C102_result_shown_partial : forall mem crows h r c v, calm_all crows (h ++ [WClear r c; WComputed r c v]) (0, 0) ->
  exists s, srun mem (new_sheet crows) (h ++ [WClear r c; WComputed r c v]) = Some s /\ get_cell s r c = Some (lit_of v).
Proof. exact result_shown. Qed.
Print Assumptions C102_result_shown_partial.
Example C102_ex : calm_all 3 (ex_sheet ++ [WClear 7 0; WComputed 7 0 (OvNumber 8)]) (0, 0).
Proof. cbn. unfold U32_MAX. repeat split; try lia; auto. Qed.

(* ---- C103: format runs ---- *)

(* the runs of a list of formats give back the list; General stands for the
   places past its end, and no runs are kept when every format is General *)
Theorem C103_runs_give_formats : forall ids off,
  match fmt_from ids with
  | Some r => fmt_get r off = match nthN ids off with Some f => f | None => GENERAL end
  | None => forall f, In f ids -> f = GENERAL
  end.
Proof.
  intros ids off. destruct (fmt_from ids) as [r|] eqn:E; [now apply fmt_from_get|]. now apply fmt_from_none.
Qed.
Print Assumptions C103_runs_give_formats.
Theorem C103_slice_gives_formats : forall ids r off len i, fmt_from ids = Some r -> i < len ->
  match fmt_slice r off len with Some r' => fmt_get r' i | None => GENERAL end
  = match nthN ids (off + i) with Some f => f | None => GENERAL end.
Proof. exact fmt_slice_get. Qed.
Print Assumptions C103_slice_gives_formats.
Example C103_ex : fmt_from [0; 4; 4; 0; 9] = Some ([1; 3; 4; 5], [0; 4; 0; 9]) /\
  fmt_slice ([1; 3; 4; 5], [0; 4; 0; 9]) 2 2 = Some ([1; 2], [4; 0]) /\ fmt_slice ([1; 3; 4; 5], [0; 4; 0; 9]) 3 1 = None.
Proof. repeat split; reflexivity. Qed.
