(** The scheduler: components, layers, condensation units, schedules.
    Models crates/formualizer-eval/src/engine/scheduler.rs:14-163, 225-335, 647-968.

    Simplifications: VertexId is nat; the graph is given by its dependency and
    dependent lists ([deps], [dependents]; whether they come from the CSR slice or
    from out_edges is in EdgeModel); hash maps keyed by vertex are functions on the
    vertices they contain; the iteration order of a hash map is the parameter
    [ho] (any list function); layer and cycle counts stay below 2^32.
    Not here: the dynamic-topology branch of create_schedule (lines 84-110). *)
From Verif Require Import Base TarjanModel ListSort.

Inductive serr := Circ | Fuel.

Inductive sunit := ULayer (i : nat) | UCycle (i : nat).
Record schedule := Schedule { units : list sunit; cycles : list (list nat); layers : list (list nat) }.

(** unit_layer / unit_cycle, scheduler.rs:53-62.  Indexing out of bounds would panic;
    [nth] with [] is never reached for a schedule built below (proved). *)
Definition unit_members (s : schedule) (u : sunit) : list nat :=
  match u with ULayer i => nth i (layers s) [] | UCycle i => nth i (cycles s) [] end.

(** First occurrences, in order: vertex_of_local, scheduler.rs:246-255. *)
Fixpoint dedup_from (seen l : list nat) : list nat :=
  match l with
  | [] => []
  | x :: l' => if memb x seen then dedup_from seen l' else x :: dedup_from (x :: seen) l'
  end.
Definition dedup : list nat -> list nat := dedup_from [].

(** local_of, scheduler.rs:246-255: the position of a vertex in vertex_of_local. *)
Fixpoint local_of (vol : list nat) (v : nat) : option nat :=
  match vol with
  | [] => None
  | x :: l => if Nat.eqb x v then Some 0 else option_map S (local_of l v)
  end.

Section Sched.
Variable deps : nat -> list nat.          (* graph.dependencies_slice / get_dependencies *)
Variable dependents : nat -> list nat.    (* graph.dependents_slice / get_dependents *)
Variable ho : list nat -> list nat.       (* hash-map iteration order over given keys *)

Definition lift {A} (r : res unit A) : res serr A :=
  match r with Ok a => Ok a | Err _ => Err Fuel | Panic => Panic end.

(** tarjan_scc_impl, scheduler.rs:200-335.  [vdeps v] is [] when the map has no entry. *)
Definition tarjan_scc (vertices : list nat) (vdeps : nat -> list nat) : res serr (list (list nat)) :=
  let vol := dedup vertices in
  let adj i := map (local_of vol) (deps (nth i vol 0) ++ vdeps (nth i vol 0)) in
  let root v := match local_of vol v with Some i => i | None => 0 end in
  rbind (lift (tarjan adj (seq 0 (length vol)) (map root vertices))) (fun sccs =>
    Ok (map (map (fun i => nth i vol 0)) sccs)).

(** separate_cycles, scheduler.rs:647-664; has_self_loop, graph/mod.rs:4038-4044. *)
Definition is_cycle (scc : list nat) : bool :=
  (1 <? length scc) || ((length scc =? 1) && memb (hd 0 scc) (deps (hd 0 scc))).
Definition separate_cycles (sccs : list (list nat)) : list (list nat) * list (list nat) :=
  (filter is_cycle sccs, filter (fun c => negb (is_cycle c)) sccs).

(** The inner loop of every Kahn round: lower the in-degree of each dependent that is
    in the map ([known]) and queue it when it reaches zero.  With [sat] the
    subtraction saturates (line 946), otherwise going below zero panics (lines 713,
    724, 851). *)
Fixpoint dec (sat : bool) (known : nat -> bool) (vs : list nat) (deg : nat -> nat) (next : list nat)
  : res serr ((nat -> nat) * list nat) :=
  match vs with
  | [] => Ok (deg, next)
  | v :: vs' =>
    if known v then
      match deg v with
      | 0 => if sat then dec sat known vs' deg (next ++ [v]) else Panic
      | S d => dec sat known vs' (fupd deg v d) (if Nat.eqb d 0 then next ++ [v] else next)
      end
    else dec sat known vs' deg next
  end.

(** One wave: every vertex queued at its start.  Vertices queued meanwhile wait for
    the next wave (the bound of `for _ in 0..queue.len()` is evaluated once). *)
Fixpoint wave (sat : bool) (known : nat -> bool) (R : nat -> list nat) (cur : list nat) (deg : nat -> nat) (next : list nat)
  : res serr ((nat -> nat) * list nat) :=
  match cur with
  | [] => Ok (deg, next)
  | u :: cur' => rbind (dec sat known (R u) deg next) (fun p => wave sat known R cur' (fst p) (snd p))
  end.

(** All waves, in order.  [Err Fuel] is the model running out of rounds. *)
Fixpoint kahn (fuel : nat) (sat : bool) (known : nat -> bool) (R : nat -> list nat) (cur : list nat) (deg : nat -> nat)
  : res serr (list (list nat)) :=
  match cur with
  | [] => Ok []
  | _ =>
    match fuel with
    | 0 => Err Fuel
    | S fuel' =>
      rbind (wave sat known R cur deg []) (fun p =>
      rbind (kahn fuel' sat known R (snd p) (fst p)) (fun ws => Ok (cur :: ws)))
    end
  end.

(** The check after the loop, then sorted layers: scheduler.rs:735-757, 952-967. *)
Definition finish_layers (n : nat) (ws : list (list nat)) : res serr (list (list nat)) :=
  if length (concat ws) =? n then Ok (map sort_nat ws) else Err Circ.

(** build_layers, scheduler.rs:670-757. *)
Definition build_layers (acyclic : list (list nat)) : res serr (list (list nat)) :=
  let vs := concat acyclic in
  match vs with
  | [] => Ok []
  | _ =>
    let deg v := length (filter (fun d => memb d vs) (deps v)) in
    let queue := filter (fun v => deg v =? 0) (ho vs) in
    rbind (kahn (S (length vs)) false (fun v => memb v vs) dependents queue deg) (finish_layers (length vs))
  end.

(** `deps.sort_unstable(); deps.dedup()`, scheduler.rs:904-905. *)
Fixpoint dedup_adj (l : list nat) : list nat :=
  match l with
  | [] => []
  | x :: l' => match l' with
               | [] => [x]
               | y :: _ => if Nat.eqb x y then dedup_adj l' else x :: dedup_adj l'
               end
  end.

(** build_layers_with_virtual, scheduler.rs:878-967. *)
Definition build_layers_with_virtual (acyclic : list (list nat)) (vdeps : nat -> list nat)
  : res serr (list (list nat)) :=
  let vs := concat acyclic in
  match vs with
  | [] => Ok []
  | _ =>
    let cdeps v := dedup_adj (sort_nat (filter (fun d => memb d vs) (deps v) ++ filter (fun d => memb d vs) (vdeps v))) in
    let cout d := filter (fun v => memb d (cdeps v)) (ho vs) in
    let deg v := length (cdeps v) in
    let queue := filter (fun v => deg v =? 0) (ho vs) in
    rbind (kahn (S (length vs)) true (fun v => memb v vs) cout queue deg) (finish_layers (length vs))
  end.

(** node_of, scheduler.rs:788-796: cycles are entered first, then singletons; a
    later insert of the same vertex wins. *)
Fixpoint cyc_node (v i : nat) (cs : list (list nat)) : option nat :=
  match cs with
  | [] => None
  | c :: cs' => match cyc_node v (S i) cs' with
                | Some k => Some k
                | None => if memb v c then Some i else None
                end
  end.
Definition node_of (cycs : list (list nat)) (singles : list nat) (v : nat) : option nat :=
  match local_of singles v with
  | Some j => Some (length cycs + j)
  | None => cyc_node v 0 cycs
  end.

(** The pairs (from_node, dep_node) the scan records, in scan order: scheduler.rs:805-832. *)
Definition cond_edges (cycs : list (list nat)) (singles : list nat) (vdeps : nat -> list nat) : list (nat * nat) :=
  flat_map (fun v =>
    match node_of cycs singles v with
    | None => []
    | Some n =>
      flat_map (fun d => match node_of cycs singles d with
                         | Some m => if Nat.eqb m n then [] else [(n, m)]
                         | None => []
                         end) (deps v ++ vdeps v)
    end) (ho (concat cycs ++ singles)).

(** One wave as units: its cycles by smallest member, then one layer of its
    singletons.  scheduler.rs:840-862.  [nl] is layers.len(). *)
Definition list_min (l : list nat) : nat := match l with [] => 0 | x :: r => fold_left Nat.min r x end.
Definition wave_units (cycs : list (list nat)) (singles : list nat) (nl : nat) (cur : list nat)
  : list sunit * list (list nat) :=
  let wc := sort_by (fun n => list_min (nth n cycs [])) (filter (fun n => n <? length cycs) cur) in
  let wv := map (fun n => nth (n - length cycs) singles 0) (filter (fun n => length cycs <=? n) cur) in
  match wv with
  | [] => (map UCycle wc, [])
  | _ => (map UCycle wc ++ [ULayer nl], [sort_nat wv])
  end.
Fixpoint all_units (cycs : list (list nat)) (singles : list nat) (nl : nat) (ws : list (list nat))
  : list sunit * list (list nat) :=
  match ws with
  | [] => ([], [])
  | w :: ws' =>
    let (us, ls) := wave_units cycs singles nl w in
    let (us', ls') := all_units cycs singles (nl + length ls) ws' in
    (us ++ us', ls ++ ls')
  end.

(** build_condensation_units, scheduler.rs:777-876. *)
Definition build_condensation_units (cycs acyclic : list (list nat)) (vdeps : nat -> list nat)
  : res serr (list sunit * list (list nat)) :=
  let singles := concat acyclic in
  let n := length cycs + length singles in
  let edges := cond_edges cycs singles vdeps in
  let deg x := length (filter (fun e => fst e =? x) edges) in
  let R x := map fst (filter (fun e => snd e =? x) edges) in
  let cur := filter (fun x => deg x =? 0) (seq 0 n) in
  rbind (kahn (S n) false (fun x => x <? n) R cur deg) (fun ws =>
    if length (concat ws) =? n then Ok (all_units cycs singles 0 ws) else Err Circ).

(** Schedule::from_parts, scheduler.rs:39-51. *)
Definition from_parts (ls cycs : list (list nat)) : schedule :=
  Schedule (map ULayer (seq 0 (length ls))) cycs ls.

(** create_schedule, scheduler.rs:69-125, without dynamic topology. *)
Definition create_schedule (vertices : list nat) : res serr schedule :=
  rbind (tarjan_scc vertices (fun _ => [])) (fun sccs =>
    let (cycs, acyclic) := separate_cycles sccs in
    match cycs with
    | [] => rbind (build_layers acyclic) (fun ls => Ok (from_parts ls cycs))
    | _ => rbind (build_condensation_units cycs acyclic (fun _ => [])) (fun p => Ok (Schedule (fst p) cycs (snd p)))
    end).

(** create_schedule_with_virtual, scheduler.rs:129-163. *)
Definition create_schedule_with_virtual (vertices : list nat) (vdeps : nat -> list nat) : res serr schedule :=
  rbind (tarjan_scc vertices vdeps) (fun sccs =>
    let (cycs, acyclic) := separate_cycles sccs in
    match cycs with
    | [] => rbind (build_layers_with_virtual acyclic vdeps) (fun ls => Ok (from_parts ls cycs))
    | _ => rbind (build_condensation_units cycs acyclic vdeps) (fun p => Ok (Schedule (fst p) cycs (snd p)))
    end).
End Sched.
