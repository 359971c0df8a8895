(** Classification of observed reads inside one cycle.
    Models crates/formualizer-eval/src/engine/live_graph.rs:19-145. *)
From Verif Require Import Base TarjanModel ListSort.

(** adj_start after the prefix sum (live_graph.rs:55-61): the number of edges whose
    source is below [i]. *)
Definition adj_start (edges : list (nat * nat)) (i : nat) : nat :=
  length (filter (fun e => fst e <? i) edges).

(** `&edges[adj_start[i]..adj_start[i + 1]]`, live_graph.rs:63; only the targets are used. *)
Definition live_adj (edges : list (nat * nat)) (i : nat) : list nat :=
  map snd (firstn (adj_start edges (S i) - adj_start edges i) (skipn (adj_start edges i) edges)).

Record analysis := Analysis { in_cycle : nat -> bool; cycle_count : nat; topo : list nat }.

(** live_graph.rs:112-127, executed when the component rooted at [v] is emitted.
    [v] is the last member popped. *)
Definition emit (edges : list (nat * nat)) (a : analysis) (scc : list nat) : analysis :=
  let v := last scc 0 in
  let members := sort_nat scc in
  let cyclic := (1 <? length members) || memb v (live_adj edges v) in
  if cyclic
  then Analysis (fun x => if memb x members then true else in_cycle a x) (S (cycle_count a)) (topo a ++ members)
  else Analysis (in_cycle a) (cycle_count a) (topo a ++ members).

(** live_graph.rs:48-145.  Emitting a component reads and writes nothing the loop
    uses, so it is applied to the emitted components afterwards. *)
Definition analyze_live_graph (n : nat) (edges : list (nat * nat)) : res unit analysis :=
  rbind (tarjan (fun v => map Some (live_adj edges v)) (seq 0 n) (seq 0 n)) (fun sccs =>
    Ok (fold_left (emit edges) sccs (Analysis (fun _ => false) 0 []))).
