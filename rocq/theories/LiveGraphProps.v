(** Claims about analyze_live_graph (C15). *)
From Coq Require Import Permutation Sorted.
From Verif Require Import Base GraphSpec LiveGraphSpec TarjanModel ListSort LiveGraphModel LiveGraphProofs.

(** For every number of members and every recorded edge list the analysis returns,
    flags exactly the members that can reach themselves, counts the cyclic
    components, and orders members after what they read. *)
Theorem C15_live_graph : forall n edges, recorded n edges ->
  exists a, analyze_live_graph n edges = Ok a /\
    (forall i, i < n -> (in_cycle a i = true <-> on_cycle (reads edges) i)) /\
    cyclic_components (reads edges) (fun i => i < n) (cycle_count a) /\
    live_topological (reads edges) n (topo a).
Proof. exact analyze_ok. Qed.
Print Assumptions C15_live_graph.

(** No cycle is counted exactly if no member reaches itself: what the settle loop tests. *)
Theorem C15_no_cycles : forall n edges a, recorded n edges -> analyze_live_graph n edges = Ok a ->
  (cycle_count a = 0 <-> forall i, i < n -> ~ on_cycle (reads edges) i).
Proof.
  intros n edges a H Ha. destruct (analyze_ok n edges H) as (a' & Ha' & _ & (reps & Hl & _ & H1 & _ & H2) & _).
  rewrite Ha in Ha'. injection Ha' as <-. rewrite <- Hl. split.
  - intros L i Hi Hc. destruct (H2 i Hi Hc) as (r & Hr & _). destruct reps; [destruct Hr|discriminate].
  - intros N. destruct reps as [|r reps]; auto. exfalso. destruct (H1 r) as [P C]; [now left|]. exact (N r P C).
Qed.
Print Assumptions C15_no_cycles.

(** A concrete recording: a two-member cycle, a self reader, and readers outside. *)
Example live_example : recorded 5 [(0, 1); (1, 2); (2, 1); (3, 3); (4, 0); (4, 3)].
Proof.
  split.
  - intros x y H. cbn in H. intuition (match goal with E : (_, _) = (_, _) |- _ => injection E as <- <- end; lia).
  - repeat constructor.
Qed.
Example live_example_result :
  match analyze_live_graph 5 [(0, 1); (1, 2); (2, 1); (3, 3); (4, 0); (4, 3)] with
  | Ok a => (cycle_count a, topo a, map (in_cycle a) (seq 0 5))
  | _ => (9, [], [])
  end = (2, [1; 2; 0; 3; 4], [false; true; true; true; false]).
Proof. vm_compute. reflexivity. Qed.

(** The order of the edge list matters: unsorted, the slices are wrong and the one cycle
    of 0 and 1 is taken for two self reads.  The only caller sorts (eval.rs). *)
Example live_needs_sorted :
  match analyze_live_graph 3 [(1, 0); (0, 1); (2, 2)] with
  | Ok a => (cycle_count a, map (in_cycle a) (seq 0 3))
  | _ => (9, [])
  end = (3, [true; true; true]).
Proof. vm_compute. reflexivity. Qed.
