(* Theorems about the overlays of the column store. *)
From Coq Require Import List Bool NArith ZArith Lia String.
From Verif Require Import Base Maps OvModel OvSpec OvProofs OvProofs2 OvProofs3 OvProofs4 OvProofs5.
Import ListNotations.
Open Scope N_scope.

(* a history with every kind of call; fragments are cut at both ends, in the
   middle, and by single cells *)
Definition ex_history : list oop :=
  [ODense 2 [OvNumber 1; OvNumber 2; OvNumber 3; OvNumber 4; OvNumber 5; OvNumber 6];
   ORun 5 [OvText [65]; OvText [65]; OvBoolean true]; OSet 3 (OvError 7);
   OSparse [(9, OvEmpty); (4, OvNumber 8); (9, OvPending)]; OSet 4 (OvNumber 9); ORemove 6;
   OFormat 5 (Some 4); OFormat 3 (Some 0); ORemoveRange 7 8; OSlice 1 20].

(* ---- C92: an overlay is the map its history wrote ---- *)

Theorem C92_reads_follow_history : forall mem h off, Forall op_ok h -> ov_get (ov_run mem h) off = om_run h off.
Proof. intros mem h off OK. apply repr_get. now apply run_spec. Qed.
Print Assumptions C92_reads_follow_history.
Theorem C92_formats_follow_history : forall mem h off, Forall op_ok h -> ov_get_format (ov_run mem h) off = fm_run h off.
Proof. intros mem h off OK. now apply run_spec. Qed.
Print Assumptions C92_formats_follow_history.
(* the conversions to u32 marked "fits in u32" in the code *)
Theorem C92_offsets_fit : forall mem h, Forall op_ok h -> Forall fits_u32 (o_frags (ov_run mem h)).
Proof. exact run_fits. Qed.
Print Assumptions C92_offsets_fit.
Example C92_ex : Forall op_ok ex_history /\
  map (om_run ex_history) [0; 1; 2; 3; 4; 5; 6; 7; 8; 9]
  = [None; Some (OvNumber 1); Some (OvError 7); Some (OvNumber 9); Some (OvText [65]); None; None; None; Some OvPending; None] /\
  map (ov_get (ov_run (fun _ => 100) ex_history)) [0; 1; 2; 3; 4; 5; 6; 7; 8; 9] = map (om_run ex_history) [0; 1; 2; 3; 4; 5; 6; 7; 8; 9] /\
  lenN (o_frags (ov_run (fun _ => 100) ex_history)) = 3.
Proof.
  split; [|repeat split; vm_compute; reflexivity].
  assert (P : forall k v, In (k, v) [(9, OvEmpty); (4, OvNumber 8); (9, OvPending)] -> k < MAX_OFF).
  { intros k v I. unfold MAX_OFF, U32_MAX. cbn in I. repeat (destruct I as [I | I]; [injection I as <- <-; lia|]). destruct I. }
  unfold ex_history. repeat constructor; cbn; try lia; try exact P; unfold MAX_OFF, U32_MAX, USIZE_MAX, lenN; cbn; lia.
Qed.

(* ---- C93: listing and counting ---- *)

Theorem C93_iter_lists_the_map : forall mem h, Forall op_ok h ->
  incr 0 (map fst (ov_iter (ov_run mem h))) /\
  forall k v, In (k, v) (ov_iter (ov_run mem h)) <-> om_run h k = Some v.
Proof. intros mem h OK. apply iter_spec. now apply run_spec. Qed.
Print Assumptions C93_iter_lists_the_map.
Theorem C93_len : forall mem h, Forall op_ok h -> ov_len (ov_run mem h) = lenN (ov_iter (ov_run mem h)).
Proof. intros mem h OK. destruct (run_spec mem h OK) as [R _]. now apply len_spec with (om_run h). Qed.
Print Assumptions C93_len.
Theorem C93_is_empty : forall mem h, Forall op_ok h ->
  (ov_is_empty (ov_run mem h) = true <-> forall k, om_run h k = None).
Proof. intros mem h OK. apply is_empty_spec. now apply run_spec. Qed.
Print Assumptions C93_is_empty.
Theorem C93_has_any_in_range : forall mem h a b, Forall op_ok h ->
  (ov_has_any (ov_run mem h) a b = true <-> exists k, a <= k /\ k < b /\ om_run h k <> None).
Proof. intros mem h a b OK. apply has_any_spec. now apply run_spec. Qed.
Print Assumptions C93_has_any_in_range.
Example C93_ex : Forall op_ok ex_history /\
  ov_iter (ov_run (fun _ => 100) ex_history)
  = [(1, OvNumber 1); (2, OvError 7); (3, OvNumber 9); (4, OvText [65]); (8, OvPending)] /\
  ov_has_any (ov_run (fun _ => 100) ex_history) 5 8 = false /\
  ov_has_any (ov_run (fun _ => 100) ex_history) 5 9 = true.
Proof. split; [exact (proj1 C92_ex)|]. repeat split; vm_compute; reflexivity. Qed.

(* ---- C94: what is written as runs is read back ---- *)

(* The full statement, for every list of values:
     om_run [ORun s vs] off = om_block s vs off
   is false: -0 and 0 compare equal and are merged into one run. *)
Theorem C94_runs_read_back_refuted : exists vs,
  Forall op_ok [ORun 0 vs] /\ forall mem, ov_get (ov_run mem [ORun 0 vs]) 1 <> om_block 0 vs 1.
Proof.
  exists [OvNumber 0; OvNumber SIGN]. split.
  - constructor; [|constructor]. vm_compute. discriminate.
  - intros mem. rewrite C92_reads_follow_history.
    + vm_compute. discriminate.
    + constructor; [|constructor]. vm_compute. discriminate.
Qed.
Print Assumptions C94_runs_read_back_refuted.
(* Proved: every value up to the sign of a zero, and exactly when equal
   values are the same.  Missing: nothing else. *)
Theorem C94_runs_read_back_partial : forall mem h s vs off, Forall op_ok (h ++ [ORun s vs]) ->
  match om_block s vs off with
  | Some v => exists w, ov_get (ov_run mem (h ++ [ORun s vs])) off = Some w /\ same_ov w v
  | None => ov_get (ov_run mem (h ++ [ORun s vs])) off = ov_get (ov_run mem h) off
  end.
Proof.
  intros mem h s vs off OK. rewrite C92_reads_follow_history by auto.
  assert (OK' : Forall op_ok h) by (apply Forall_app in OK; tauto). rewrite C92_reads_follow_history by auto.
  unfold om_run. rewrite fold_left_app. cbn [fold_left om_step]. fold (om_run h). unfold om_over, om_block.
  destruct (off <? s); auto. pose proof (settle_same vs) as F.
  remember (N.to_nat (off - s)) as n eqn:E. clear E OK. revert n. induction F as [|a b l l' A F IH]; intros n.
  - now destruct n.
  - destruct n as [|n]; cbn; eauto. apply IH.
Qed.
Print Assumptions C94_runs_read_back_partial.
Theorem C94_runs_exact_partial : forall mem h s vs off, Forall op_ok (h ++ [ORun s vs]) ->
  (forall a b, In a vs -> In b vs -> ov_eqb a b = true -> a = b) ->
  ov_get (ov_run mem (h ++ [ORun s vs])) off = om_over (om_block s vs) (om_run h) off.
Proof.
  intros mem h s vs off OK H. rewrite C92_reads_follow_history by auto. unfold om_run. rewrite fold_left_app.
  cbn [fold_left om_step]. now rewrite settle_id.
Qed.
Print Assumptions C94_runs_exact_partial.
Example C94_ex : Forall op_ok ([OSet 3 OvPending] ++ [ORun 2 [OvNumber 5; OvNumber 5; OvText [66]; OvText [66]]]) /\
  map (ov_get (ov_run (fun _ => 1) ([OSet 3 OvPending] ++ [ORun 2 [OvNumber 5; OvNumber 5; OvText [66]; OvText [66]]]))) [1; 2; 3; 4; 5; 6]
  = [None; Some (OvNumber 5); Some (OvNumber 5); Some (OvText [66]); Some (OvText [66]); None].
Proof. split; [repeat constructor; vm_compute; discriminate|reflexivity]. Qed.

(* ---- C95: the returned change of the estimate ---- *)

(* Every call returns the change of the estimate of what is stored.
   [wf] is what the three constructors give (C92). *)
Theorem C95_deltas_are_exact : forall mem h, Forall op_ok h ->
  let o := ov_run mem h in
  (forall off v, Z.of_N (recomputed mem (fst (set_scalar mem o off v)))
                 = (Z.of_N (recomputed mem o) + snd (set_scalar mem o off v))%Z) /\
  (forall off, Z.of_N (recomputed mem (fst (remove_scalar mem o off)))
               = (Z.of_N (recomputed mem o) + snd (remove_scalar mem o off))%Z) /\
  (forall a b, Z.of_N (recomputed mem (fst (remove_range mem o a b)))
               = (Z.of_N (recomputed mem o) + snd (remove_range mem o a b))%Z) /\
  (forall f, wf f -> Z.of_N (recomputed mem (fst (apply_fragment mem o f)))
               = (Z.of_N (recomputed mem o) + snd (apply_fragment mem o f))%Z).
Proof.
  intros mem h OK o. destruct (run_spec mem h OK) as ((ND & _) & _). repeat split; intros.
  - now apply set_scalar_moves.
  - now apply remove_scalar_moves.
  - now apply remove_range_moves.
  - now apply apply_fragment_moves.
Qed.
Print Assumptions C95_deltas_are_exact.
Theorem C95_constructors : forall items s vs f,
  (op_ok (OSparse items) -> sparse_offsets items = Some f -> wf f) /\
  (op_ok (ODense s vs) -> dense_range s vs = Some f -> wf f) /\
  (op_ok (ORun s vs) -> run_range s vs = Some f -> wf f).
Proof.
  intros items s vs f. repeat split; intros OK E.
  - now apply (sparse_offsets_some _ _ E OK).
  - now apply (dense_range_some _ _ _ E OK).
  - destruct vs as [|v vs0] eqn:EV; [discriminate|]. rewrite <- EV in *.
    destruct (run_range_some s vs) as (g & E' & W & _); [congruence|exact OK|]. congruence.
Qed.
Print Assumptions C95_constructors.
Example C95_ex : snd (set_scalar (fun _ => 100%N) (ov_run (fun _ => 100%N) ex_history) 4%N (OvText [1; 2; 3]%N))
  = (Z.of_N (recomputed (fun _ => 100%N) (fst (set_scalar (fun _ => 100%N) (ov_run (fun _ => 100%N) ex_history) 4%N (OvText [1; 2; 3]%N))))
     - Z.of_N (recomputed (fun _ => 100%N) (ov_run (fun _ => 100%N) ex_history)))%Z
  /\ wf (Dense 0 1 (from_values [OvEmpty])).
Proof. split; [vm_compute; reflexivity|]. apply (wf_dense 0 [OvEmpty]); [discriminate|vm_compute; discriminate]. Qed.

(* ---- C96: the stored estimate ---- *)

(* The full statement, the stored estimate is the sum of the estimates of
   what is stored, is false: overwriting a single cell while a fragment is
   present subtracts the old cell twice. *)
Theorem C96_estimate_exact_refuted : exists h, Forall op_ok h /\
  forall mem, o_est (ov_run mem h) <> recomputed mem (ov_run mem h).
Proof.
  exists [ODense 0 [OvNumber 1]; OSet 5 (OvNumber 1); OSet 5 (OvNumber 2)]. split.
  - repeat constructor; vm_compute; discriminate.
  - intros mem. set (D := Dense 0 1 (from_values [OvNumber 1])). set (M := mem (from_values [OvNumber 1])).
    assert (A : forall n, adjust n 0 = n) by (intros n; unfold adjust; lia).
    assert (E1 : ov_step mem ov_new (ODense 0 [OvNumber 1]) = Overlay [] [] [D] (48 + M)).
    { cbn [ov_step dense_range apply_opt]. unfold apply_fragment, remove_points_covered. cbn -[N.add Z.of_N from_values].
      f_equal. unfold adjust, M, FRAGMENT_BASE. lia. }
    assert (RF : replace_frags mem (fun f => if is_some (frag_get f 5) then Some (subtract_offset f 5) else None) [D] = ([D], 0%Z))
      by reflexivity.
    assert (E2 : forall n v, fst (set_scalar mem (Overlay [] [] [D] n) 5 v) = Overlay [(5, v)] [] [D] (n + point_est v)).
    { intros n v. unfold set_scalar, remove_scalar. cbn [mget o_points o_formats o_frags o_est]. rewrite RF.
      cbn [fst o_points o_formats o_frags o_est]. rewrite A. f_equal. unfold adjust. lia. }
    assert (E3 : forall n w v, point_est w <= n -> fst (set_scalar mem (Overlay [(5, w)] [] [D] n) 5 v)
                 = Overlay [(5, v)] [] [D] (n - 2 * point_est w + point_est v)).
    { intros n w v L. unfold set_scalar, remove_scalar. cbn [mget o_points o_formats o_frags o_est]. rewrite N.eqb_refl, RF.
      cbn [fst o_points o_formats o_frags o_est]. f_equal. unfold adjust. lia. }
    unfold ov_run. cbn [fold_left]. rewrite E1. cbn [ov_step]. rewrite E2, E3 by lia.
    unfold recomputed. cbn [o_est o_points o_frags fold_right snd frags_est]. unfold D, point_est, ENTRY_BASE. cbn [frag_est ov_bytes].
    unfold FRAGMENT_BASE. fold M. lia.
Qed.
Print Assumptions C96_estimate_exact_refuted.
(* It is never too large. *)
Theorem C96_estimate_bound : forall mem h, Forall op_ok h ->
  o_est (ov_run mem h) <= recomputed mem (ov_run mem h).
Proof. exact run_est_le. Qed.
Print Assumptions C96_estimate_bound.
(* It is exact while no single-cell call hits a single-cell entry of an
   overlay with fragments; so for histories of single cells and for
   histories of fragments, with range removals, clears and slices. *)
Theorem C96_estimate_exact_partial : forall mem h, Forall op_ok h -> clean mem ov_new h ->
  o_est (ov_run mem h) = recomputed mem (ov_run mem h).
Proof. exact run_est_exact. Qed.
Print Assumptions C96_estimate_exact_partial.
Theorem C96_estimate_cells_or_fragments_partial : forall mem h, Forall op_ok h ->
  forallb (fun p => negb (is_cell_op p)) h = true \/ forallb (fun p => negb (is_frag_op p)) h = true ->
  o_est (ov_run mem h) = recomputed mem (ov_run mem h).
Proof.
  intros mem h OK [H | H]; apply run_est_exact; auto; [now apply clean_no_cells|now apply clean_no_frags].
Qed.
Print Assumptions C96_estimate_cells_or_fragments_partial.
Example C96_ex : forallb (fun p => negb (is_frag_op p)) [OSet 4 OvEmpty; OSet 4 (OvNumber 3); ORemoveRange 0 3; OSlice 2 9] = true /\
  clean (fun _ => 9) ov_new [ODense 0 [OvNumber 1; OvNumber 2]; OSet 1 OvEmpty; OSparse [(1, OvNumber 2)]; OSet 0 OvEmpty].
Proof. split; [reflexivity|]. cbn. repeat split; auto. Qed.
