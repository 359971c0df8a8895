(** Evaluating one statically cyclic component with runtime cycle verdicts.
    Models crates/formualizer-eval/src/engine/eval.rs:24714-25211 (evaluate_scc_unit).

    A member's formula is a decision tree: it reads members one after the other,
    choosing the next read by the values seen so far, and then returns a value.
    Reads of cells outside the component are constant during the task and are part
    of the tree.  This is what RecordingContext observes (live_edges.rs).

    Simplifications: members are 0..n-1 in member order (the sort of lines 24729-24764
    is done); [last_value] and the committed values coincide (commits are
    write-through), so there is one map [vals]; a member's out-edges are replaced when
    it runs instead of at the drain after the pass (they are not read in between);
    the edge list is built sorted instead of being sorted; deltas, telemetry,
    cancellation and the restoring of persisted values (24781-24807) are left out;
    convergence of two values is the parameter [conv] (ConvModel.v). *)
From Verif Require Import Base TarjanModel ListSort LiveGraphModel SchedModel.

Inductive prog (V : Type) : Type :=
| Done (v : V)
| Read (j : nat) (k : V -> prog V).
Arguments Done {V} v.
Arguments Read {V} j k.

(** Value and reads, in order, of a formula on given member values. *)
Fixpoint run_prog {V} (p : prog V) (rho : nat -> V) : V * list nat :=
  match p with
  | Done v => (v, [])
  | Read j k => let (v, tr) := run_prog (k (rho j)) rho in (v, j :: tr)
  end.

Inductive policy := PError | PIterate (max_iterations : nat).
Inductive outcome := Exact | StampedCycle | Converged | CappedIter | CappedSettle.

Record sst (V : Type) := Sst {
  vals : nat -> V;
  excl : nat -> bool;             (* excluded *)
  outs : nat -> list nat;         (* out_edges *)
  pos : nat -> option nat;        (* None = -1 *)
  chg : nat -> bool               (* changed *)
}.
Arguments Sst {V}. Arguments vals {V}. Arguments excl {V}. Arguments outs {V}. Arguments pos {V}. Arguments chg {V}.

Section Scc.
Variable V : Type.
Variable veq : V -> V -> bool.            (* LiteralValue == *)
Variable arr : nat -> V -> bool.          (* a cell formula member returned an Array *)
Variable circ : V.                        (* #CIRC! *)
Variable conv : V -> V -> bool.           (* values_converged(..).converged *)
Variable n : nat.
Variable f : nat -> prog V.

(** run_member!, eval.rs:24870-24918. *)
Definition run_member (i : nat) (st : sst V) : sst V :=
  let (v, tr) := run_prog (f i) (vals st) in
  if arr i v
  then Sst (fupd (vals st) i circ) (fupd (excl st) i true) (fupd (outs st) i tr) (pos st)
           (fupd (chg st) i (negb (veq (vals st i) circ)))
  else Sst (fupd (vals st) i v) (excl st) (fupd (outs st) i tr) (pos st)
           (fupd (chg st) i (negb (veq (vals st i) v))).

Definition set_pos (i p : nat) (st : sst V) : sst V :=
  Sst (vals st) (excl st) (outs st) (fupd (pos st) i (Some p)) (chg st).

(** The members of [ord] in order, positions from [p]. *)
Fixpoint pass_from (p : nat) (ord : list nat) (st : sst V) : sst V :=
  match ord with
  | [] => st
  | i :: r => pass_from (S p) r (set_pos i p (run_member i st))
  end.

Definition reset (st : sst V) : sst V := Sst (vals st) (excl st) (outs st) (fun _ => None) (fun _ => false).
Definition evaluable (st : sst V) : list nat := filter (fun i => negb (excl st i)) (seq 0 n).

(** A pass over every evaluable member in member order: 24937-24947, 25096-25110. *)
Definition full_pass (st : sst V) : sst V := pass_from 0 (evaluable st) (reset st).

(** Sorted live edges of the members not excluded: 24995-25005. *)
Definition live_edges (st : sst V) : list (nat * nat) :=
  flat_map (fun i => map (fun t => (i, t)) (sort_nat (dedup (outs st i)))) (evaluable st).

(** Stale readers, 25116-25129: a read of a member that changed after it was read. *)
Definition stale_read (st : sst V) (i t : nat) : bool :=
  chg st t && match pos st i with
              | None => true
              | Some p => match pos st t with Some q => p <? q | None => false end
              end.
Definition stale (st : sst V) : list nat :=
  filter (fun i => existsb (stale_read st i) (outs st i)) (evaluable st).

(** topo_positions, live_graph.rs:36-43. *)
Definition topo_pos (topo : list nat) (i : nat) : nat := match local_of topo i with Some p => p | None => 0 end.

(** A pass over the stale readers in live-topological order: 25148-25167. *)
Definition settle_pass (topo : list nat) (st : sst V) : sst V :=
  pass_from 0 (sort_by (topo_pos topo) (stale st)) (reset st).

(** Stamp members satisfying [p] that are not excluded yet. *)
Definition stamp (p : nat -> bool) (st : sst V) : sst V :=
  let hit i := (i <? n) && p i && negb (excl st i) in
  Sst (fun i => if hit i then circ else vals st i) (fun i => if hit i then true else excl st i)
      (outs st) (pos st) (chg st).

(** The Error arm: stamp the live cycles, then run the rest once in live-topological
    order: 25016-25047. *)
Fixpoint run_all (ord : list nat) (st : sst V) : sst V :=
  match ord with [] => st | i :: r => run_all r (run_member i st) end.
Definition error_arm (a : analysis) (st : sst V) : sst V :=
  let st' := stamp (in_cycle a) st in
  run_all (filter (fun i => negb (excl st' i)) (topo a)) st'.

(** The convergence test over the members not excluded: 25067-25096. *)
Definition all_converged (prev : nat -> V) (st : sst V) : bool :=
  forallb (fun i => conv (prev i) (vals st i)) (evaluable st).

(** The settle loop, 24979-25168.  Returns the outcome, the final state and the
    number of passes run before the loop ended.  [Err tt]: out of fuel. *)
Fixpoint settle (fuel : nat) (pol : policy) (passes settle_passes : nat) (prev : option (nat -> V)) (st : sst V)
  : res unit (outcome * sst V * nat) :=
  match fuel with
  | 0 => Err tt
  | S fuel' =>
    rbind (analyze_live_graph n (live_edges st)) (fun a =>
    if 0 <? cycle_count a then
      match pol with
      | PError => Ok (StampedCycle, error_arm a st, passes)
      | PIterate max_iterations =>
        if match prev with Some pv => all_converged pv st | None => false end then Ok (Converged, st, passes)
        else if max_iterations <=? passes then Ok (CappedIter, st, passes)
        else settle fuel' pol (S passes) settle_passes (Some (vals st)) (full_pass st)
      end
    else
      match stale st with
      | [] => Ok (Exact, st, passes)
      | _ =>
        if n + 2 <=? 1 + settle_passes then Ok (CappedSettle, stamp (fun _ => true) st, passes)
        else settle fuel' pol (S passes) (S settle_passes) None (settle_pass (topo a) st)
      end)
  end.

(** The whole task from the values and exclusions after the pre-scan (24836-24856). *)
Definition scc_init (v0 : nat -> V) (e0 : nat -> bool) : sst V :=
  Sst v0 e0 (fun _ => []) (fun _ => None) (fun _ => false).
Definition scc_fuel (pol : policy) : nat :=
  n + 4 + match pol with PError => 0 | PIterate m => m end.
Definition evaluate_scc (pol : policy) (v0 : nat -> V) (e0 : nat -> bool) : res unit (outcome * sst V * nat) :=
  settle (scc_fuel pol) pol 1 0 None (full_pass (scc_init v0 e0)).
End Scc.
