(** What the range index should answer. *)
From Verif Require Import Base Maps IntervalModel StripeModel.

(** The cells of a range; a missing bound is no bound. *)
Definition below (lo : option N) (x : N) : Prop := forall a, lo = Some a -> (a <= x)%N.
Definition above (x : N) (hi : option N) : Prop := forall b, hi = Some b -> (x <= b)%N.
Definition covers (r : rng) (sheet row col : N) : Prop :=
  rng_sheet r = sheet /\ below (r_sr r) row /\ above row (r_er r) /\ below (r_sc r) col /\ above col (r_ec r).

(** The ranges a formula reads: what it was last given, unless removed since. *)
Definition rspec_step (o : rop) (f : N -> list rng) : N -> list rng :=
  match o with
  | RAdd d [] => f
  | RAdd d rs => fun x => if N.eqb x d then rs else f x
  | RRemove d => fun x => if N.eqb x d then [] else f x
  end.
Definition rspec (os : list rop) : N -> list rng := fold_left (fun f o => rspec_step o f) os (fun _ => []).

(** Both row bounds, or both column bounds, are given: A1:C9, A:C, 1:3, A2:C, B1:3. *)
Definition two_sided (r : rng) : Prop :=
  (r_sr r <> None /\ r_er r <> None) \/ (r_sc r <> None /\ r_ec r <> None).
Definition ordered (a b : option N) : Prop := forall x y, a = Some x -> b = Some y -> (x <= y)%N.
Definition forward (r : rng) : Prop := ordered (r_sr r) (r_er r) /\ ordered (r_sc r) (r_ec r).
(** Coordinates fit 32 bits. *)
Definition fits (x : N) : Prop := (x <= 4294967295)%N.
