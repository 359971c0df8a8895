(** What the integer worksheet functions should compute, in terms of positional
    notation, bits, divisibility and Roman letters only. *)
From Coq Require Import String Znumtheory QArith.
From Verif Require Import Base Maps NuModel.
Close Scope Q_scope.
Local Open Scope Z_scope.

(** The digit characters. *)
Definition uppers : text := tx "0123456789ABCDEFGHIJKLMNOPQRSTUVWXYZ"%string.
Definition lowers : text := tx "0123456789abcdefghijklmnopqrstuvwxyz"%string.

(** Character [c] stands for digit [d] of the base. *)
Definition isdigit (base : Z) (c : N) (d : Z) : Prop :=
  0 <= d < base /\ (nth_error uppers (Z.to_nat d) = Some c \/ nth_error lowers (Z.to_nat d) = Some c).
Definition reads (base : Z) (s : text) (ds : list Z) : Prop := Forall2 (isdigit base) s ds.

(** Positional value, the most significant digit first. *)
Fixpoint pv (base : Z) (ds : list Z) : Z :=
  match ds with [] => 0 | d :: r => d * base ^ Z.of_nat (length r) + pv base r end.

(** Two's complement with [base ^ 10] codes: the upper half is negative. *)
Definition signed (base v : Z) : Z := if v <? base ^ 10 / 2 then v else v - base ^ 10.

(** The text of at most ten digits that stands for [n]. *)
Definition stands (base : Z) (s : text) (n : Z) : Prop :=
  exists ds, reads base s ds /\ (length s <= 10)%nat /\ n = signed base (pv base ds).

(** Written with capital letters only. *)
Definition capital (s : text) : Prop := Forall (fun c => In c uppers) s.

(** What a bit function accepts: a whole number below 2^48. *)
Definition whole48 (x : fnum) (n : Z) : Prop :=
  exists q, x = FFin q /\ Qnum q = n * Zpos (Qden q) /\ 0 <= n < 2 ^ 48.

(** Roman letters: each counts its value, negatively if a greater letter stands
    somewhere to the right of it. *)
Definition letter (c : N) (v : Z) : Prop :=
  In (c, v) (combine (tx "IVXLCDM"%string) [1; 5; 10; 50; 100; 500; 1000]).
Fixpoint roman_sum (vs : list Z) : Z :=
  match vs with
  | [] => 0
  | v :: r => (if existsb (fun w => v <? w) r then - v else v) + roman_sum r
  end.

(** Greatest common divisor and least common multiple of a list. *)
Definition is_gcd (g : Z) (ns : list Z) : Prop :=
  0 <= g /\ (forall n, In n ns -> (g | n)) /\ (forall d, (forall n, In n ns -> (d | n)) -> (d | g)).
Definition is_lcm (m : Z) (ns : list Z) : Prop :=
  0 <= m /\ (forall n, In n ns -> (n | m)) /\ (forall k, (forall n, In n ns -> (n | k)) -> (m | k)).

(** What is known of the library functions that the model leaves open. *)
Definition ascii_up (c : N) : N := if ((97 <=? c) && (c <=? 122))%N then (c - 32)%N else c.
Definition upper_ok (upper : text -> text) : Prop :=
  forall s, Forall (fun c => (c < 128)%N) s -> upper s = List.map ascii_up s.
Definition plain (c : N) : Prop := (32 < c < 127)%N.
Definition trim_ok (trim : text -> text) : Prop :=
  forall s, Forall plain s -> trim s = s.

(** [i as f64] is exact as far as f64 counts without gaps. *)
Definition i2f_ok (i2f : Z -> fnum) : Prop :=
  forall z, - 2 ^ 53 <= z <= 2 ^ 53 -> i2f z = FFin (inject_Z z).

(** The shortest text in capitals that stands for [n]. *)
Definition shortest_for (base : Z) (t : text) (n : Z) : Prop :=
  t <> [] /\ capital t /\ stands base t n /\
  (forall t', t' <> [] -> stands base t' n -> (length t <= length t')%nat).
(** The text in capitals of the given length that stands for [n]. *)
Definition sized_for (base p : Z) (t : text) (n : Z) : Prop :=
  t <> [] /\ Z.of_nat (length t) = p /\ capital t /\ stands base t n.

(** A text with an optional sign, as DECIMAL reads it. *)
Definition signed_text (base : Z) (s : text) (n : Z) : Prop :=
  exists sgn body ds, reads base body ds /\ body <> [] /\ n = sgn * pv base ds /\
    (sgn = 1 /\ (s = body \/ s = 43%N :: body) \/ sgn = -1 /\ s = 45%N :: body).
