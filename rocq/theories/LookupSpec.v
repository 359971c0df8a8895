(** Specification of lookups: keys in two classes, each totally ordered, and the
    position a lookup has to select.  Independent of the comparison code. *)
From Coq Require Import QArith Qabs.
From Verif Require Import Base Maps LookupModel.
Close Scope Q_scope.

Inductive key := KNum (q : Q) | KText (t : text).

(** The number a value stands for when ordered with numbers. *)
Definition numv (v : lval) : option Q :=
  match v with
  | LNum (Fin q) => Some q
  | LInt z => Some (inject_Z z)
  | LBool b => Some (if b then 1 else 0)%Q
  | LSerial q => Some q
  | LEmpty => Some 0%Q
  | _ => None
  end.
Definition key_of (lower : text -> text) (v : lval) : option key :=
  match v with
  | LText t => Some (KText (lower t))
  | _ => option_map KNum (numv v)
  end.

(** [a] comes before [b] in dictionary order of code points. *)
Inductive text_lt : text -> text -> Prop :=
| tlt_nil : forall y b, text_lt [] (y :: b)
| tlt_head : forall x y a b, (x < y)%N -> text_lt (x :: a) (y :: b)
| tlt_tail : forall x a b, text_lt a b -> text_lt (x :: a) (x :: b).

(** Keys of one class, in order. *)
Inductive key_le : key -> key -> Prop :=
| kle_num : forall a b, (a <= b)%Q -> key_le (KNum a) (KNum b)
| kle_text_lt : forall a b, text_lt a b -> key_le (KText a) (KText b)
| kle_text_eq : forall a, key_le (KText a) (KText a).

(** Data on which the engine's comparison is a total order: numbers are finite
    and no two differ by less than the tolerance, and no text reads as a number. *)
Definition clean_value (parse : text -> option fnum) (v : lval) : Prop :=
  match v with
  | LText t => parse t = None
  | LNum x => exists q, x = Fin q
  | _ => True
  end.
Definition separated (l : list lval) : Prop :=
  forall u v a b, In u l -> In v l -> numv u = Some a -> numv v = Some b ->
    (a == b)%Q \/ (TOL <= Qabs (a - b))%Q.
Definition clean (parse : text -> option fnum) (l : list lval) : Prop :=
  (forall v, In v l -> clean_value parse v) /\ separated l.

Definition same_class (a b : key) : Prop :=
  match a, b with KNum _, KNum _ | KText _, KText _ => True | _, _ => False end.

Section Spec.
  Variable lower : text -> text.
  Variable vs : list lval.
  Variable needle : lval.

  (** Position [i] holds key [k], in the needle's class and not blank. *)
  Definition cand (i : nat) (k : key) : Prop :=
    exists v kn, nth_error vs i = Some v /\ v <> LEmpty /\ key_of lower v = Some k /\
                 key_of lower needle = Some kn /\ same_class k kn.
  Definition below (k : key) : Prop := exists kn, key_of lower needle = Some kn /\ key_le k kn.
  Definition above (k : key) : Prop := exists kn, key_of lower needle = Some kn /\ key_le kn k.

  Definition ascending : Prop := forall i j a b, i < j -> cand i a -> cand j b -> key_le a b.
  Definition descending : Prop := forall i j a b, i < j -> cand i a -> cand j b -> key_le b a.

  (** MATCH 1: the last candidate not above the needle. *)
  Definition last_below (r : option nat) : Prop :=
    match r with
    | Some i => (exists k, cand i k /\ below k) /\ forall j k, cand j k -> below k -> j <= i
    | None => forall j k, cand j k -> ~ below k
    end.
  (** MATCH -1: the first candidate equal to the needle, else the last not below it. *)
  Definition first_equal_or_last_above (r : option nat) : Prop :=
    match r with
    | Some i =>
        (exists k, cand i k /\ below k /\ above k /\ forall j k', cand j k' -> below k' -> above k' -> i <= j) \/
        ((forall j k, cand j k -> above k -> ~ below k) /\
         (exists k, cand i k /\ above k) /\ forall j k, cand j k -> above k -> j <= i)
    | None => forall j k, cand j k -> ~ above k
    end.

  (** XMATCH/XLOOKUP approximate modes on numbers: position [i] holds [q]. *)
  Definition holds (i : nat) (q : Q) : Prop := exists v, nth_error vs i = Some v /\ numv v = Some q.
  Definition closest_below (n : Q) (first : bool) (r : option nat) : Prop :=
    match r with
    | Some i => exists q, holds i q /\ (q <= n)%Q /\
        (forall j p, holds j p -> (p <= n)%Q -> (p <= q)%Q /\ ((p == q)%Q -> if first then i <= j else j <= i))
    | None => forall j p, holds j p -> ~ (p <= n)%Q
    end.
  Definition closest_above (n : Q) (first : bool) (r : option nat) : Prop :=
    match r with
    | Some i => exists q, holds i q /\ (n <= q)%Q /\
        (forall j p, holds j p -> (n <= p)%Q -> (q <= p)%Q /\ ((p == q)%Q -> if first then i <= j else j <= i))
    | None => forall j p, holds j p -> ~ (n <= p)%Q
    end.
End Spec.
