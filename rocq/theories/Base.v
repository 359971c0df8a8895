(** Shared vocabulary of the model: results with an explicit panic outcome,
    machine-integer helpers and byte characters.  No project code here. *)
From Coq Require Export List Bool Arith NArith ZArith Lia.
Export ListNotations.

(** [Result<A,E>] plus the outcome "the thread panics". *)
Inductive res (E A : Type) : Type :=
| Ok (a : A)
| Err (e : E)
| Panic.
Arguments Ok {E A} a.
Arguments Err {E A} e.
Arguments Panic {E A}.

Definition rbind {E A B} (r : res E A) (f : A -> res E B) : res E B :=
  match r with Ok a => f a | Err e => Err e | Panic => Panic end.
Definition rmap_err {E F A} (f : E -> F) (r : res E A) : res F A :=
  match r with Ok a => Ok a | Err e => Err (f e) | Panic => Panic end.

Lemma rbind_ok : forall E A B (r : res E A) (f : A -> res E B) b,
  rbind r f = Ok b -> exists a, r = Ok a /\ f a = Ok b.
Proof. intros E A B [a|e|] f b H; cbn in H; [eauto|discriminate|discriminate]. Qed.

Definition U32 : N := 2 ^ 32.
Definition U64 : N := 2 ^ 64.

(** [x as u32] for an unsigned source. *)
Definition trunc_u32 (x : N) : N := N.modulo x U32.

(** [x as u32] for a signed (i32 or i64) source: two's complement truncation. *)
Definition z_as_u32 (z : Z) : N := Z.to_N (Z.modulo z (2 ^ 32)).

(** ASCII classification of a byte, [u8::is_ascii_alphabetic] etc. *)
Definition is_ascii_upper (b : N) : bool := (N.leb 65 b && N.leb b 90)%bool.
Definition is_ascii_lower (b : N) : bool := (N.leb 97 b && N.leb b 122)%bool.
Definition is_ascii_alpha (b : N) : bool := (is_ascii_upper b || is_ascii_lower b)%bool.
Definition is_ascii_digit (b : N) : bool := (N.leb 48 b && N.leb b 57)%bool.
Definition to_ascii_upper (b : N) : N := if is_ascii_lower b then (b - 32)%N else b.
Definition to_ascii_lower (b : N) : N := if is_ascii_upper b then (b + 32)%N else b.

(** The maximal prefix satisfying [p], and the rest ([while idx < len && p(bytes[idx])]). *)
Fixpoint span {A} (p : A -> bool) (l : list A) : list A * list A :=
  match l with
  | [] => ([], [])
  | x :: xs => if p x then let (a, b) := span p xs in (x :: a, b) else ([], l)
  end.
