(** What the questions about values should answer (C196-C200), in words of their own. *)
From Coq Require Import List Bool NArith ZArith.
From Verif Require Import Base Maps LookupModel EvModel LgModel.
Import ListNotations.

(** The kinds of value. *)
Inductive sort := KNumber | KText | KLogical | KBlank | KError | KArray | KPending.
Definition sort_of (T : Type) (v : value T) : sort :=
  match v with
  | VA _ => KArray
  | VS (SNum _) | VS (SInt _) | VS (SDate _ _) => KNumber
  | VS (SText _) => KText
  | VS (SBool _) => KLogical
  | VS SEmpty => KBlank
  | VS (SErr _) => KError
  | VS SOther => KPending
  end.
Definition sort_eq_dec (a b : sort) : {a = b} + {a <> b}.
Proof. decide equality. Defined.
Definition is_sort (T : Type) (k : sort) (v : value T) : bool := if sort_eq_dec (sort_of T v) k then true else false.

(** The number TYPE has for a kind; a value not yet known counts as blank. *)
Definition type_number (k : sort) : option Z :=
  match k with
  | KNumber | KBlank | KPending => Some 1
  | KText => Some 2
  | KLogical => Some 4
  | KArray => Some 64
  | KError => None
  end%Z.

(** An argument whose value is [v]. *)
Definition given (T : Type) (v : value T) : handle T := HExpr T (Ok (SeenPlain (PScalar v))).
Definition answer_of (T : Type) (r : res N (scalar T)) : handle T :=
  HExpr T (rbind r (fun s => Ok (SeenPlain (PScalar (VS s))))).
