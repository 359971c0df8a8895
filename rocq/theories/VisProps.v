(** C39: hidden rows move with their rows.
    crates/formualizer-eval/src/engine/row_visibility.rs *)
From Verif Require Import Base VisModel VisSpec VisProofs2.
Local Open Scope N_scope.

(** One call, seen through [is_row_hidden]. *)
Theorem C39_one_call :
  forall s o src r, vis_reach s -> spec_fits (hidden_by s src) o ->
    is_row_hidden (fst (run_op s o)) r (Some src) =
    spec_op src (fun q => is_row_hidden s q (Some src)) o r.
Proof. exact step_exact. Qed.
Print Assumptions C39_one_call.

(** Any session. *)
Theorem C39_session :
  forall os s src, vis_reach s -> Forall op_u32 os -> spec_run_fits src (hidden_by s src) os ->
    forall r, is_row_hidden (run_ops s os) r (Some src) =
              spec_run src (fun q => is_row_hidden s q (Some src)) os r.
Proof. exact run_exact. Qed.
Print Assumptions C39_session.

Example C39_session_ex :
  let os := [ORange 60 70 true Manual; OInsert 64 100; OSet 3 true Filter; ODelete 62 101] in
  Forall op_u32 os /\ spec_run_fits Manual (hidden_by vis_new Manual) os /\
  map (fun r => is_row_hidden (run_ops vis_new os) r (Some Manual)) [59; 60; 61; 62; 63; 67; 68] =
    [false; true; true; false; true; true; true].
Proof.
  cbv zeta. split; [repeat constructor; vm_compute; discriminate|]. split; [|vm_compute; reflexivity].
  repeat split. intros q H L. cbn [spec_op src_eqb] in H. unfold spec_range in H.
  destruct ((60 <=? q) && (q <=? 70)) eqn:E.
  - apply andb_true_iff in E. destruct E as [_ E]. apply N.leb_le in E. unfold U32MAX.
    apply N.le_trans with (70 + 100); [now apply N.add_le_mono_r|vm_compute; discriminate].
  - exfalso. unfold hidden_by, is_row_hidden, rs_get, vis_new, manual in H.
    destruct (word_idx q); cbn in H; discriminate H.
Qed.

(** Without a source, a row is hidden if either source hides it. *)
Theorem C39_either_source :
  forall s r, is_row_hidden s r None = is_row_hidden s r (Some Manual) || is_row_hidden s r (Some Filter).
Proof. reflexivity. Qed.
Print Assumptions C39_either_source.

(** The returned flag tells exactly whether some row changed. *)
Theorem C39_flag_exact :
  forall s o, vis_reach s -> op_fits s o ->
    (snd (run_op s o) = true <->
     exists src r, is_row_hidden (fst (run_op s o)) r (Some src) <> is_row_hidden s r (Some src)).
Proof. exact changed_iff. Qed.
Print Assumptions C39_flag_exact.

(** The version moves with the flag and with nothing else. *)
Theorem C39_version :
  forall s o, version (fst (run_op s o)) =
    if snd (run_op s o) then N.min (version s + 1) U64MAX else version s.
Proof. exact version_run_op. Qed.
Print Assumptions C39_version.

(** Two states that hide the same rows hold the same row sets ([derive(PartialEq)]
    on the state is equality of hidden rows plus version). *)
Theorem C39_canonical :
  forall s t, vis_reach s -> vis_reach t ->
    (forall src r, is_row_hidden s r (Some src) = is_row_hidden t r (Some src)) ->
    manual s = manual t /\ filt s = filt t.
Proof. exact canonical. Qed.
Print Assumptions C39_canonical.

Theorem C39_empty_iff_all_visible :
  forall s, vis_reach s -> (vis_is_empty s = true <-> forall r, is_row_hidden s r None = false).
Proof. exact empty_iff. Qed.
Print Assumptions C39_empty_iff_all_visible.

(** Deleting the rows just inserted restores the sets. *)
Theorem C39_insert_delete :
  forall s b c, vis_reach s -> b <= U32MAX -> c <= U32MAX -> op_fits s (OInsert b c) ->
    let t := fst (vis_delete (fst (vis_insert s b c)) b c) in
    manual t = manual s /\ filt t = filt s.
Proof. exact insert_delete. Qed.
Print Assumptions C39_insert_delete.

Theorem C39_rows_hidden_pointwise :
  forall s a b src,
    length (rows_hidden s a b src) = N.to_nat (b + 1 - a) /\
    forall k, a + N.of_nat k <= b ->
      nth_error (rows_hidden s a b src) k = Some (is_row_hidden s (a + N.of_nat k) src).
Proof. exact rows_hidden_spec. Qed.
Print Assumptions C39_rows_hidden_pointwise.

(** Near [u32::MAX] the insertion saturates and two hidden rows become one, so
    deleting the inserted rows does not bring them back.  The API takes any u32. *)
Theorem C39_insert_delete_without_bound_refuted :
  exists s b c r, vis_reach s /\ b <= U32MAX /\ c <= U32MAX /\
    is_row_hidden (fst (vis_delete (fst (vis_insert s b c)) b c)) r (Some Manual)
    <> is_row_hidden s r (Some Manual).
Proof. exact insert_saturates. Qed.
Print Assumptions C39_insert_delete_without_bound_refuted.
