(** What a schedule has to be.  Independent of the algorithm. *)
From Coq Require Import Permutation.
From Verif Require Import Base GraphSpec SchedModel.

(** Dependencies among the requested cells: [x] needs [y]. *)
Definition needs (deps : nat -> list nat) (vertices : list nat) (x y : nat) : Prop :=
  In x vertices /\ In y vertices /\ In y (deps x).

(** Everything the units contain, in walk order. *)
Definition walk (s : schedule) : list nat := concat (map (unit_members s) (units s)).

(** A correct schedule of [vertices] under the dependencies [E]:
    - every index used exists;
    - every requested cell occurs exactly once and nothing else occurs;
    - the cells of a Layer are not on a cycle; a Cycle unit is one whole component of
      cells on cycles;
    - everything a cell needs is in an earlier unit, or in the same Cycle unit. *)
Definition good_schedule (E : nat -> nat -> Prop) (vertices : list nat) (s : schedule) : Prop :=
  (forall i, In (ULayer i) (units s) -> i < length (layers s)) /\
  (forall i, In (UCycle i) (units s) -> i < length (cycles s)) /\
  NoDup (walk s) /\ (forall x, In x (walk s) <-> In x vertices) /\
  (forall i x, In (ULayer i) (units s) -> In x (nth i (layers s) []) -> ~ on_cycle E x) /\
  (forall i x y, In (UCycle i) (units s) -> In x (nth i (cycles s) []) ->
     on_cycle E x /\ (In y (nth i (cycles s) []) <-> strong E x y)) /\
  (forall pre u post x y, units s = pre ++ u :: post -> In x (unit_members s u) -> E x y ->
     In y (concat (map (unit_members s) pre)) \/ (In y (unit_members s u) /\ strong E x y /\ exists i, u = UCycle i)).

(** The reverse adjacency is the forward one turned round, with multiplicity, on the
    requested cells. *)
Definition mirrored (deps dependents : nat -> list nat) (vertices : list nat) : Prop :=
  forall u v, In u vertices -> In v vertices ->
    count_occ Nat.eq_dec (dependents u) v = count_occ Nat.eq_dec (deps v) u.
