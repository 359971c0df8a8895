(** What evaluating a component has to give.  Independent of the passes. *)
From Verif Require Import Base GraphSpec SccModel.

(** Every read a formula can make is of a member. *)
Inductive prog_ok {V} (n : nat) : prog V -> Prop :=
| ok_done : forall v, prog_ok n (Done v)
| ok_read : forall j k, j < n -> (forall v, prog_ok n (k v)) -> prog_ok n (Read j k).

(** Demand-driven evaluation with a recursion limit [d]: a member's value is its
    formula's value when every read first evaluates the member read.  Fixed members
    keep their value.  None: deeper than [d] (for every d: it runs into itself). *)
Section Demand.
Context {V : Type}.
Variable f : nat -> prog V.
Variable fixed : nat -> option V.
Fixpoint demand_prog (m : nat -> option V) (p : prog V) : option V :=
  match p with
  | Done v => Some v
  | Read j k => match m j with Some u => demand_prog m (k u) | None => None end
  end.
Fixpoint demand (d : nat) (i : nat) : option V :=
  match fixed i with
  | Some v => Some v
  | None => match d with 0 => None | S d' => demand_prog (demand d') (f i) end
  end.
(** Evaluating [i] on demand terminates with [v]. *)
Definition demands (i : nat) (v : V) : Prop := exists d, demand d i = Some v.
End Demand.

(** The values are the formulas' values: for a member that may be recomputed,
    recomputing it on the final values gives its value. *)
Definition fixpoint {V} (n : nat) (f : nat -> prog V) (st : sst V) : Prop :=
  forall i, i < n -> excl st i = false -> fst (run_prog (f i) (vals st)) = vals st i.

(** [i] reads [j] when recomputed on the given values. *)
Definition reads_now {V} (f : nat -> prog V) (rho : nat -> V) (i j : nat) : Prop := In j (snd (run_prog (f i) rho)).
