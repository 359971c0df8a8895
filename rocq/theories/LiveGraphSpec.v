(** What a classification of observed reads has to say.  Independent of the algorithm. *)
From Coq Require Import Permutation Sorted.
From Verif Require Import Base GraphSpec.

(** [reads x y]: member x was observed to read member y. *)
Definition reads (edges : list (nat * nat)) (x y : nat) : Prop := In (x, y) edges.

(** A recorded edge list over members 0..n-1, in order of the reader. *)
Definition recorded (n : nat) (edges : list (nat * nat)) : Prop :=
  (forall x y, In (x, y) edges -> x < n /\ y < n) /\
  StronglySorted (fun a b => fst a <= fst b) edges.

(** [k] is the number of components of E that contain a cycle: there is a system of
    k representatives, one for each. *)
Definition cyclic_components (E : nat -> nat -> Prop) (P : nat -> Prop) (k : nat) : Prop :=
  exists reps, length reps = k /\ NoDup reps /\
    (forall x, In x reps -> P x /\ on_cycle E x) /\
    (forall x y, In x reps -> In y reps -> strong E x y -> x = y) /\
    (forall x, P x -> on_cycle E x -> exists r, In r reps /\ strong E x r).

(** Members in an order where a member comes after what it reads, unless both are
    on the same cycle; members of one cycle are contiguous. *)
Definition live_topological (E : nat -> nat -> Prop) (n : nat) (order : list nat) : Prop :=
  Permutation order (seq 0 n) /\
  (forall pre x post y, order = pre ++ x :: post -> E x y -> In y pre \/ strong E x y) /\
  (forall pre x mid y post, order = pre ++ x :: mid ++ y :: post -> strong E x y ->
     forall z, In z mid -> strong E x z).
