(** Directed graphs on natural numbers: reachability, components.  No project code. *)
From Verif Require Import Base.

Inductive reach (E : nat -> nat -> Prop) : nat -> nat -> Prop :=
| r_refl : forall x, reach E x x
| r_step : forall x y z, E x y -> reach E y z -> reach E x z.

(** Mutually reachable. *)
Definition strong (E : nat -> nat -> Prop) (x y : nat) : Prop := reach E x y /\ reach E y x.

(** [x] lies on a cycle: some non-empty path leads back to it. *)
Definition on_cycle (E : nat -> nat -> Prop) (x : nat) : Prop := exists y, E x y /\ reach E y x.

(** [sccs] are the strongly connected components of the nodes satisfying [P],
    each listed once, and every component comes after those it has edges into. *)
Definition components (E : nat -> nat -> Prop) (P : nat -> Prop) (sccs : list (list nat)) : Prop :=
  (forall x, P x <-> In x (concat sccs)) /\
  NoDup (concat sccs) /\
  (forall C, In C sccs -> C <> []) /\
  (forall C x y, In C sccs -> In x C -> (In y C <-> strong E x y)) /\
  (forall pre C post x y, sccs = pre ++ C :: post -> In x C -> E x y -> In y (concat pre) \/ In y C).
