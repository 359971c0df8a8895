(** Reference adjustment: C28 to C32, C45, C68 and C69. *)
From Verif Require Import Base Maps RefModel RefSpec RefProofs RefProofs2 RefProofs3 RefProofs4 RefProofs5.
Open Scope N_scope.

(** ** C28. *)
Theorem C28_insert_keeps_references : forall get_id op f a,
  o_kind op = Insert -> ROW_MAX + o_count op + 2 < U32 ->
  every (fun r => on_sheet r /\ room op r) a ->
  exists a', adjust_ast get_id op f a = Ok a' /\ lift (kept_by_insert get_id op f) a a'.
Proof. exact insert_formula. Qed.
Print Assumptions C28_insert_keeps_references.

(** The formula is stored anew only if some reference changed. *)
Theorem C28_reported_change_is_one : forall get_id p op ctx a a',
  adj_inner get_id p op ctx a = Ok (Some a') -> a' <> a.
Proof. exact adj_inner_changed. Qed.
Print Assumptions C28_reported_change_is_one.

(** =SUM(A2:A9, $B$4) with two rows inserted before row 4. *)
Definition ex_formula : ast :=
  AFunction 1 [ARef (RRange (mkRange None (Some 2) (Some 1) (Some 9) (Some 1) false false false false));
               ARef (RCell (mkCell None 4 2 true true))].
Definition ex_insert : shift_op := mkOp Rows Insert 0 3 2.
Example ex_insert_ok : every (fun r => on_sheet r /\ room ex_insert r) ex_formula
  /\ adjust_ast no_sheets ex_insert 0 ex_formula
     = Ok (AFunction 1 [ARef (RRange (mkRange None (Some 2) (Some 1) (Some 11) (Some 1) false false false false));
                        ARef (RCell (mkCell None 6 2 true true))]).
Proof. split; [repeat constructor; cbn; unfold ROW_MAX, COL_MAX; lia|reflexivity]. Qed.

(** ** C29. *)
Theorem C29_delete_keeps_survivors : forall get_id op f a,
  o_kind op = Delete -> o_at op + o_count op + 1 < U32 ->
  every (fun r => on_sheet r /\ bounded (o_axis op) r) a ->
  exists a', adjust_ast get_id op f a = Ok a' /\ lift (kept_by_delete get_id op f) a a'.
Proof.
  intros get_id op f a K C E. apply delete_formula; auto.
  eapply every_mono; [|exact E]. intros r (A & B). split; auto. now apply bounded_not_cut.
Qed.
Print Assumptions C29_delete_keeps_survivors.

Definition ex_delete : shift_op := mkOp Rows Delete 0 3 2.
Example ex_delete_ok : every (fun r => on_sheet r /\ bounded (o_axis ex_delete) r) ex_formula
  /\ adjust_ast no_sheets ex_delete 0 ex_formula
     = Ok (AFunction 1 [ARef (RRange (mkRange None (Some 2) (Some 1) (Some 7) (Some 1) false false false false));
                        ALit LRef]).
Proof.
  split; [|reflexivity].
  repeat constructor; cbn; unfold ROW_MAX, COL_MAX; try lia; discriminate.
Qed.

(** ** C30. *)
(** Full statement: without the hypothesis on [tail_cut].  It fails for a range open
    above whose last line is deleted. *)
Theorem C30_half_open_partial : forall get_id op f a,
  o_kind op = Delete -> o_at op + o_count op + 1 < U32 ->
  every (fun r => on_sheet r /\ ~ tail_cut op r) a ->
  exists a', adjust_ast get_id op f a = Ok a' /\ lift (kept_by_delete get_id op f) a a'.
Proof. exact delete_formula. Qed.
Print Assumptions C30_half_open_partial.
Theorem C30_half_open_refuted : exists op f r a,
  o_kind op = Delete /\ on_sheet r /\ adjust_ast no_sheets op f (ARef r) = Ok a
  /\ ~ kept_by_delete no_sheets op f r a.
Proof. exact tail_cut_wrong. Qed.
Print Assumptions C30_half_open_refuted.

(** =SUM(A4:A) with rows 2 to 5 deleted. *)
Example ex_half_open : let r := RRange (mkRange None (Some 4) (Some 1) None (Some 1) false false false false) in
  on_sheet r /\ ~ tail_cut (mkOp Rows Delete 0 1 4) r
  /\ adjust_ast no_sheets (mkOp Rows Delete 0 1 4) 0 (ARef r)
     = Ok (ARef (RRange (mkRange None (Some 2) (Some 1) None (Some 1) false false false false))).
Proof. cbn. unfold ROW_MAX, COL_MAX. repeat split; try lia. Qed.

(** ** C31. *)
(** Full statement: for every formula whose references are [on_sheet].  It fails inside
    lambda calls and array literals, and where the shift leaves the sheet. *)
Theorem C31_copy_partial : forall ro co a, plain a -> every (fun r => on_sheet r /\ stays ro co r) a ->
  exists a', rel_formula ro co a = Ok a' /\ lift (copied ro co) a a'.
Proof. exact copy_formula. Qed.
Print Assumptions C31_copy_partial.
Theorem C31_lambda_call_refuted : exists ro co a, every (fun r => on_sheet r /\ stays ro co r) a
  /\ rel_formula ro co a = Ok a /\ ~ lift (copied ro co) a a.
Proof. exact copy_call_wrong. Qed.
Print Assumptions C31_lambda_call_refuted.
Theorem C31_array_literal_refuted : exists ro co a, every (fun r => on_sheet r /\ stays ro co r) a
  /\ rel_formula ro co a = Ok a /\ ~ lift (copied ro co) a a.
Proof. exact copy_array_wrong. Qed.
Print Assumptions C31_array_literal_refuted.
Theorem C31_above_first_row_refuted : exists ro co r a, on_sheet r /\ rel_formula ro co (ARef r) = Ok a
  /\ ~ lift (copied ro co) (ARef r) a /\ (exists k, refers no_sheets 0 r k)
  /\ a = ARef (rel_cell 1 1).
Proof. exact copy_clamp_wrong. Qed.
Print Assumptions C31_above_first_row_refuted.
Theorem C31_below_last_row_refuted : exists ro co r r', on_sheet r
  /\ rel_formula ro co (ARef r) = Ok (ARef r') /\ ~ on_sheet r'.
Proof. exact copy_overflow_wrong. Qed.
Print Assumptions C31_below_last_row_refuted.

Example ex_copy : plain ex_formula /\ every (fun r => on_sheet r /\ stays 1 2 r) ex_formula
  /\ rel_formula 1 2 ex_formula
     = Ok (AFunction 1 [ARef (RRange (mkRange None (Some 3) (Some 3) (Some 10) (Some 3) false false false false));
                        ARef (RCell (mkCell None 4 2 true true))]).
Proof.
  split; [repeat constructor|]. split; [|reflexivity].
  repeat constructor; cbn; unfold ROW_MAX, COL_MAX; try lia; vm_compute; discriminate.
Qed.

(** ** C32. *)
(** Full statement: for every formula whose references are [on_sheet].  It fails inside
    lambda calls, and when the reference spells the sheet name in another case. *)
Theorem C32_move_partial : forall get_id m f a, good_move get_id m -> callfree a ->
  every (fun r => on_sheet r /\ headed r /\ spelled get_id m r) a ->
  exists a', move_formula m f a = Ok a' /\ lift (redirected get_id m f) a a'.
Proof. exact move_formula_ok. Qed.
Print Assumptions C32_move_partial.
Theorem C32_lambda_call_refuted : exists get_id m f a, good_move get_id m
  /\ every (fun r => on_sheet r /\ headed r /\ spelled get_id m r) a
  /\ move_formula m f a = Ok a /\ ~ lift (redirected get_id m f) a a.
Proof. exact move_call_wrong. Qed.
Print Assumptions C32_lambda_call_refuted.
Theorem C32_sheet_name_case_refuted : exists get_id m f r, good_move get_id m /\ on_sheet r /\ headed r
  /\ inside get_id m f r
  /\ move_formula m f (ARef r) = Ok (ARef r) /\ ~ redirected get_id m f r (ARef r).
Proof. exact move_case_wrong. Qed.
Print Assumptions C32_sheet_name_case_refuted.

(** A1:E5 moves down ten rows: A2:A4 follows, A2:A9 does not. *)
Example ex_move : good_move fold_a block_move
  /\ move_formula block_move 0 (ABinary 1
       (ARef (RRange (mkRange None (Some 2) (Some 1) (Some 4) (Some 1) false false false false)))
       (ARef (RRange (mkRange (Some [65]) (Some 2) (Some 1) (Some 9) (Some 1) false false false false))))
     = Ok (ABinary 1
       (ARef (RRange (mkRange None (Some 12) (Some 1) (Some 14) (Some 1) false false false false)))
       (ARef (RRange (mkRange (Some [65]) (Some 2) (Some 1) (Some 9) (Some 1) false false false false)))).
Proof. split; [exact block_good|reflexivity]. Qed.

(** ** C45. *)
(** Full statement: without [ends_survive].  It fails when one corner of the range is
    deleted. *)
Theorem C45_names_partial : forall get_id op f d,
  o_kind op = Delete -> o_at op + o_count op + 1 < U32 ->
  binds_cells d -> name_ok d -> ends_survive op d ->
  exists d', adjust_named get_id op f d = Ok d' /\ name_kept op d d'.
Proof. exact name_delete. Qed.
Print Assumptions C45_names_partial.
Theorem C45_corner_deleted_refuted : exists op d d', o_kind op = Delete /\ name_ok d
  /\ adjust_named no_sheets op 0 d = Ok d' /\ (exists k k', name_refers d k /\ goes op k = Some k')
  /\ ~ name_kept op d d'.
Proof. exact name_wrong. Qed.
Print Assumptions C45_corner_deleted_refuted.

Example ex_name : let d := NRange (mkRef 0 0 0 true true) (mkRef 0 5 0 true true) in
  name_ok d /\ ends_survive (mkOp Rows Delete 0 2 2) d
  /\ adjust_named no_sheets (mkOp Rows Delete 0 2 2) 0 d
     = Ok (NRange (mkRef 0 0 0 true true) (mkRef 0 3 0 true true)).
Proof.
  cbn. split; [unfold ROW_MAX, COL_MAX; lia|]. split; [|reflexivity].
  intros c [<-|[<-|[]]]; discriminate.
Qed.

(** ** C68. *)
(** Full statement: also for insertions.  Those fail at the edge of the sheet. *)
Theorem C68_delete_never_crashes_partial : forall get_id op f a,
  o_kind op = Delete -> o_at op + o_count op + 1 < U32 ->
  every on_sheet a -> exists a', adjust_ast get_id op f a = Ok a'.
Proof. exact delete_total. Qed.
Print Assumptions C68_delete_never_crashes_partial.
Theorem C68_insert_crashes_refuted : exists op f r, o_kind op = Insert /\ on_sheet r /\ o_count op = 1
  /\ adjust_ast no_sheets op f (ARef r) = Panic.
Proof. exact insert_panics. Qed.
Print Assumptions C68_insert_crashes_refuted.
Theorem C68_insert_leaves_sheet_refuted : exists op f r r', o_kind op = Insert /\ on_sheet r
  /\ o_count op = 1 /\ adjust_ast no_sheets op f (ARef r) = Ok (ARef r') /\ ~ on_sheet r'.
Proof. exact insert_off_sheet. Qed.
Print Assumptions C68_insert_leaves_sheet_refuted.

Example ex_delete_edge : every on_sheet (ARef (rel_cell 1048576 16384))
  /\ adjust_ast no_sheets (mkOp Cols Delete 0 5 3) 0 (ARef (rel_cell 1048576 16384))
     = Ok (ARef (rel_cell 1048576 16381)).
Proof. split; [constructor; cbn; unfold ROW_MAX, COL_MAX; lia|reflexivity]. Qed.

(** ** C69. *)
(** Full statement: for formulas with relative references too. *)
Theorem C69_moved_formula_partial : forall get_id m a, good_move get_id m -> callfree a ->
  every (fun r => on_sheet r /\ absolute r /\ spelled get_id m r) a -> v_to m = v_from m ->
  exists a', cell_after_move m a = Ok a' /\ lift (carried_along get_id m) a a'.
Proof. exact absolute_move_along. Qed.
Print Assumptions C69_moved_formula_partial.
Theorem C69_relative_reference_refuted : exists get_id m r a, good_move get_id m /\ on_sheet r
  /\ spelled get_id m r /\ ~ inside get_id m (v_from m) r
  /\ cell_after_move m (ARef r) = Ok a /\ ~ lift (carried_along get_id m) (ARef r) a.
Proof. exact moved_formula_wrong. Qed.
Print Assumptions C69_relative_reference_refuted.

Example ex_moved : cell_after_move block_move
    (ABinary 1 (ARef (RCell (mkCell None 1 1 true true))) (ARef (RCell (mkCell None 1 7 true true))))
  = Ok (ABinary 1 (ARef (RCell (mkCell None 11 1 true true))) (ARef (RCell (mkCell None 1 7 true true)))).
Proof. reflexivity. Qed.
