(** Properties of the incrementally maintained order (C16, C75, C76). *)
From Coq Require Import Permutation.
From Verif Require Import Base Maps ListSort PkModel PkSpec PkProofs PkProofs2 PkProofs3 PkProofs4.

(** C16: false of the code: 0 -> 2 is accepted, then 1 -> 0, and 0 ends up after 2. *)
Theorem C16_splice_refuted : exists es o, (forall budget, 1 <= budget -> built budget es o) /\ ~ respects (succs (edges_view es)) o.
Proof.
  exists [(0, 2); (1, 0)], [1; 2; 0]. split.
  - intros budget HB. destruct budget as [|budget]; [lia|].
    apply (built_add _ [(0, 2)] [0; 1; 2] 5 1 0); [|reflexivity].
    apply (built_add _ [] [0; 1; 2] 5 0 2); [|reflexivity].
    change [0; 1; 2] with (sort_nat [2; 0; 1]). constructor. repeat constructor; cbn; intuition lia.
  - intros R. destruct (R 0 2) as (i & j & H & Ei & Ej); [cbn; auto|cbn; auto|cbn; auto|].
    destruct i as [|[|[|i]]], j as [|[|[|j]]]; cbn in *; try discriminate; try lia;
      try (destruct i; discriminate); destruct j; discriminate.
Qed.
Print Assumptions C16_splice_refuted.
(** Every addition keeps one place per node and puts the new edge the right way round,
    whatever the budget. *)
Theorem C16_newest_edge : forall budget es x y o, built budget (es ++ [(x, y)]) o -> NoDup o /\ before o x y.
Proof. intros budget es x y o H. split; [now apply built_nodes in H|eapply built_last; eauto]. Qed.
Print Assumptions C16_newest_edge.
(** Missing: edges leaving the moved block to the nodes right behind x.  When no node
    reached from y has a successor within px - py places after x, all edges are kept. *)
Theorem C16_clear_window_partial : forall budget es o, clear_built budget es o -> respects (succs (edges_view es)) o.
Proof. intros. now apply (clear_respects budget). Qed.
Print Assumptions C16_clear_window_partial.
(** A single step, on any graph view. *)
Theorem C16_step_partial : forall fuel g budget x y o o' px py, NoDup o -> agree g -> respects (succs g) o ->
  (forall a b, In b (succs g a) -> In a o -> In b o) -> (forall n, In n o -> there g n = true) -> length o <= budget ->
  place x o = Some px -> place y o = Some py ->
  (forall u v pv, leads (succs g) y u -> In v (succs g u) -> place v o = Some pv -> ~ (px < pv <= px + (px - py))) ->
  try_add fuel g budget x y o = PkOk o' ->
  forall u v, (u = x /\ v = y) \/ In v (succs g u) -> In u o' -> In v o' -> before o' u v.
Proof.
  intros fuel g budget x y o o' px py ND AG R CL T HB E1 E2 W E u v H Hu Hv.
  apply (try_keeps fuel g budget x y o o' px py ND AG R CL T HB E1 E2 W E u v); auto.
  unfold plus_edge. destruct (Nat.eqb_spec u x) as [->|]; [|tauto]. destruct H as [[_ ->]|H]; [now left|now right].
Qed.
Print Assumptions C16_step_partial.
(** A rebuilt order respects every edge of an acyclic graph and lists the existing nodes once. *)
Theorem C16_rebuild : forall g o, NoDup o -> agree g ->
  exists o', rebuild_full (length o) g o = KDone o' /\ Permutation o' (filter (there g) o) /\
    (acyclic_on g (filter (there g) o) -> respects (succs g) o').
Proof. intros. now apply rebuild_ok. Qed.
Print Assumptions C16_rebuild.
(** Within the visit budget and from a respected order, an edge is refused exactly when it
    would close a cycle. *)
Theorem C16_refusal_exact : forall g budget x y o, NoDup o -> agree g -> respects (succs g) o ->
  (forall a b, In b (succs g a) -> In a o -> In b o) -> (forall n, In n o -> there g n = true) ->
  In x o -> In y o -> length o <= budget -> x <> y ->
  exists n, forall fuel, n <= fuel ->
    (leads (succs g) y x -> exists p, try_add fuel g budget x y o = PkCycle (Some p)) /\
    (~ leads (succs g) y x -> exists o', try_add fuel g budget x y o = PkOk o').
Proof. intros. now apply try_decides. Qed.
Print Assumptions C16_refusal_exact.
(** The path handed out with a refusal is a path of the graph from y to x. *)
Theorem C16_refusal_path : forall fuel g budget x y o path, NoDup o -> agree g -> x <> y ->
  try_add fuel g budget x y o = PkCycle path ->
  exists p l, path = Some p /\ p = l ++ [x] /\ hd_error p = Some y /\ walk (succs g) p.
Proof. intros fuel g budget x y o path ND AG H E. exact (try_cycle fuel g budget x y o ND AG path H E). Qed.
Print Assumptions C16_refusal_path.

Definition ex_edges := [(3, 1); (2, 3)].
Example C16_clear_example : clear_built 100 [(3, 1); (2, 3)] [2; 3; 1].
Proof.
  apply (cb_add _ [(3, 1)] [2; 3; 1] 9 2 3 [2; 3; 1] 0 1); try reflexivity; cbn; auto; try lia.
  - apply (cb_add _ [] [1; 2; 3] 9 3 1 [2; 3; 1] 2 0); try reflexivity; cbn; auto; try lia.
    change [1; 2; 3] with (sort_nat [3; 1; 2]). constructor. repeat constructor; cbn; intuition lia.
Qed.
Example C16_refusal_example :
  leads (succs (edges_view ex_edges)) 2 1 /\ try_add 9 (edges_view ex_edges) 100 1 2 [2; 3; 1] = PkCycle (Some [2; 3; 1]) /\
  respects (succs (edges_view ex_edges)) [2; 3; 1].
Proof.
  split; [|split; [reflexivity|]].
  - apply leads_step with 3; [apply leads_step with 2; [constructor|cbn; auto]|cbn; auto].
  - now apply (clear_respects 100), C16_clear_example.
Qed.

(** C75: layers from the maintained order. *)
Theorem C75_layers_partial : forall g subset o cap fuel, NoDup subset -> agree g ->
  (forall n, In n subset -> In n o) -> cap <> Some 0 -> length subset <= fuel -> acyclic_on g subset ->
  exists layers, layers_for fuel g o cap subset = KDone layers /\
    Permutation (concat layers) subset /\ layered g subset layers /\
    (forall c, cap = Some c -> Forall (fun l => length l <= c) layers).
Proof.
  intros g subset o cap fuel ND AG H. apply layers_ok; auto. intros n Hn E. apply place_none in E. auto.
Qed.
Print Assumptions C75_layers_partial.
(** Two formulas without dependencies that were never registered (bulk entry): a panic. *)
Theorem C75_unregistered_refuted : exists g subset, NoDup subset /\ agree g /\ acyclic_on g subset /\
  forall fuel cap, layers_for fuel g [] cap subset = KMissing.
Proof.
  exists (edges_view []), [1; 2]. split; [repeat constructor; cbn; intuition lia|]. split; [apply agree_edges|].
  split; [exists (fun _ => 0); intros n p _ _ []|]. intros fuel cap. reflexivity.
Qed.
Print Assumptions C75_unregistered_refuted.
(** A layer width of zero: the loop goes on for ever. *)
Theorem C75_zero_width_refuted : exists g subset o, NoDup subset /\ agree g /\ acyclic_on g subset /\
  (forall n, In n subset -> In n o) /\ forall fuel, layers_for fuel g o (Some 0) subset = KFuel.
Proof.
  exists (edges_view []), [1], [1]. split; [repeat constructor; cbn; intuition lia|]. split; [apply agree_edges|].
  split; [exists (fun _ => 0); intros n p _ _ []|]. split; auto. intros fuel.
  unfold layers_for. cbn [sort_places map filter indegrees edges_view preds fst snd length Nat.eqb kbind].
  generalize (@nil (list nat)). induction fuel as [|fuel IH]; intros out; [reflexivity|].
  cbn. apply IH.
Qed.
Print Assumptions C75_zero_width_refuted.
Example C75_example : layers_for 5 (edges_view ex_edges) [2; 3; 1; 4] (Some 5) [1; 2; 3; 4] = KDone [[2; 4]; [3]; [1]].
Proof. reflexivity. Qed.

(** C76: adding an edge need not end: with a visit budget of 1 the rebuilt order is the
    same one, and the call starts over. *)
Theorem C76_budget_refuted : exists es o x y, NoDup o /\ respects (succs (edges_view es)) o /\
  ~ leads (succs (edges_view es)) y x /\ forall fuel, try_add fuel (edges_view es) 1 x y o = PkFuel.
Proof.
  exists [(1, 2)], [1; 2; 3], 3, 1. split; [repeat constructor; cbn; intuition lia|]. split.
  - intros u v H _ _. apply edges_in in H. destruct H as [H|[]]. injection H as <- <-. exists 0, 1. cbn. auto.
  - split.
    + assert (G : forall a b, leads (succs (edges_view [(1, 2)])) a b -> b = a \/ b = 2).
      { intros a b H. induction H as [|u v w H IH Hw]; auto. apply edges_in in Hw. destruct Hw as [Q|[]]. injection Q; auto. }
      intros H. apply G in H. lia.
    + apply (try_never _ _ _ _ _ 2 0); try reflexivity; try lia.
      intros fuel. destruct fuel as [|[|[|fuel]]]; cbn; auto.
Qed.
Print Assumptions C76_budget_refuted.
(** Whenever the limited search overruns in an order that rebuilding returns unchanged. *)
Theorem C76_never_ends : forall g budget x y o px py, place x o = Some px -> place y o = Some py -> py <= px -> x <> y ->
  (forall fuel, search fuel g budget px x y o [y] [] [] = DOver \/ search fuel g budget px x y o [y] [] [] = DFuel) ->
  rebuild_full (length o) g o = KDone o -> forall fuel, try_add fuel g budget x y o = PkFuel.
Proof. exact try_never. Qed.
Print Assumptions C76_never_ends.
(** Proved with a budget no smaller than the number of nodes. *)
Theorem C76_ends_partial : forall g budget x y o, NoDup o -> agree g -> respects (succs g) o ->
  (forall a b, In b (succs g a) -> In a o -> In b o) -> (forall n, In n o -> there g n = true) ->
  In x o -> In y o -> length o <= budget ->
  exists n, forall fuel, n <= fuel -> try_add fuel g budget x y o <> PkFuel.
Proof.
  intros g budget x y o ND AG R CL T Hx Hy HB. destruct (Nat.eq_dec x y) as [->|Hxy].
  - exists 0. intros fuel _. destruct fuel; cbn; rewrite Nat.eqb_refl; discriminate.
  - exists (S (1 + weight g o [])). intros fuel HF. exact (try_ends g budget x y o ND AG Hx Hy HB Hxy fuel HF).
Qed.
Print Assumptions C76_ends_partial.
