(** C17, C18 and C70: the dependency store. *)
From Verif Require Import Base Maps EdgeModel EdgeSpec EdgeProofs2 EdgeProofs3 EdgeProofs4.

(** Whatever the history of additions, removals, registrations, moves, batches, rebuilds
    and bulk builds, both directions answer with exactly the edges added and not removed. *)
Theorem C17_store_exact : forall os,
  legal registered os [] -> legal complete os [] -> answers (run os store_new) (spec_run os).
Proof. exact store_exact. Qed.
Print Assumptions C17_store_exact.

Theorem C17_compaction_silent : forall os, legal registered os [] -> legal complete os [] ->
  answers (rebuild (run os store_new)) (spec_run os)
  /\ (forall f t, In t (out_edges (rebuild (run os store_new)) f) <-> In t (out_edges (run os store_new) f))
  /\ (forall f t, In f (in_edges_merged (rebuild (run os store_new)) t) <-> In f (in_edges_merged (run os store_new) t)).
Proof. exact compaction_silent. Qed.
Print Assumptions C17_compaction_silent.

Theorem C17_no_repeats : forall os v, Forall plain_rows os -> NoDup (out_edges (run os store_new) v).
Proof. exact answers_plain. Qed.
Print Assumptions C17_no_repeats.

(** The number of edges reported is the number of edges. *)
Theorem C17_edge_count : forall os,
  legal registered os [] -> legal complete os [] -> legal once os [] -> Forall plain_rows os ->
  exists l, NoDup l /\ (forall f t, In (f, t) l <-> spec_run os f t) /\ length l = num_edges_exact (run os store_new).
Proof. exact edge_count. Qed.
Print Assumptions C17_edge_count.

(** An edge added before its source is registered is lost by the next compaction. *)
Theorem C18_early_edge_refuted : exists os f t,
  spec_run os f t /\ ~ In t (out_edges (run os store_new) f) /\ ~ In f (in_edges_merged (run os store_new) t).
Proof. exists early, 1, 0. exact early_lost. Qed.
Print Assumptions C18_early_edge_refuted.

(** Every source is registered, and still a second bulk load loses the first one's edges
    at the next compaction. *)
Theorem C70_second_load_refuted : exists os f t,
  legal registered os [] /\ spec_run os f t
  /\ In t (out_edges (run (firstn 2 os) store_new) f)
  /\ ~ In t (out_edges (run os store_new) f) /\ ~ In f (in_edges_merged (run os store_new) t).
Proof. exists second_load, 1, 0. exact second_load_lost. Qed.
Print Assumptions C70_second_load_refuted.

(** Right after the load, before any compaction, the answers are exact. *)
Theorem C70_load_partial : forall os fresh all adj,
  legal registered os [] -> legal complete os [] ->
  registered (OIngest fresh all adj) (reg_run os) ->
  answers (run (os ++ [OIngest fresh all adj]) store_new) (spec_run (os ++ [OIngest fresh all adj])).
Proof. exact load_exact. Qed.
Print Assumptions C70_load_partial.

(** A history with a removal, a batch, a move, a compaction and two loads. *)
Definition busy : list op :=
  [ OIngest [((0, 0)%N, 0); ((1, 0)%N, 1)] [((0, 0)%N, 0); ((1, 0)%N, 1)] [(1, [0])];
    OVertex (2, 0)%N 2; OBegin; OAdd 2 1; OAdd 2 0; ORemove 2 1; OMove 2 (5, 5)%N; OEnd;
    OAdd 1 2; OIngest [] [((0, 0)%N, 0); ((1, 0)%N, 1); ((5, 5)%N, 2)] [(0, [2; 2])] ].
Example busy_legal : legal registered busy [] /\ legal complete busy [].
Proof. cbn. unfold incl. cbn. intuition. Qed.
Example busy_out : map (out_edges (run busy store_new)) [0; 1; 2] = [[2; 2]; [0; 2]; [0]].
Proof. vm_compute. reflexivity. Qed.
Example busy_in : map (in_edges_merged (run busy store_new)) [0; 1; 2] = [[1; 2]; []; [0; 0; 1]].
Proof. vm_compute. reflexivity. Qed.
Example plain_ok : Forall plain_rows (firstn 9 busy).
Proof.
  repeat constructor; cbn; auto; intros p [<-|[]]; repeat constructor; cbn; intuition congruence.
Qed.
Example second_load_answers : registered (nth 1 second_load OBegin) (reg_run (firstn 1 second_load))
  /\ out_edges (run (firstn 2 second_load) store_new) 1 = [0] /\ out_edges (run second_load store_new) 1 = [].
Proof. split; [cbn; unfold incl; cbn; intuition|]. vm_compute. auto. Qed.
Example busy_once : legal once (firstn 9 busy) [] /\ num_edges_exact (run (firstn 9 busy) store_new) = 3
  /\ num_edges_exact (run (firstn 1 busy) store_new) = 1.
Proof.
  split; [|vm_compute; auto]. cbn. repeat split; try (repeat constructor; cbn; intuition congruence); unfold incl; cbn; intuition (subst; discriminate).
Qed.
