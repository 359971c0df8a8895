(** What the database functions should do: which column a name is, what a row of criteria asks,
    which records are selected. *)
From Coq Require Import List Bool NArith ZArith QArith Arith.
From Verif Require Import Base Maps WildModel CrModel DbModel.
Import ListNotations.
Close Scope Q_scope.

Section Spec.
Variable lower : text -> text.
Variable pf : text -> option num.
Variable show : num -> text.
Variable showz : Z -> text.

(** The first column whose header is the name, up to case. *)
Definition column_of (hs : list value) (name : text) (i : nat) : Prop :=
  (exists h, nth_error hs i = Some (VText h) /\ lower h = lower name) /\
  forall j h, j < i -> nth_error hs j = Some (VText h) -> lower h <> lower name.

(** A row of criteria below [heads] has the cell [v] for the column [i] of the database. *)
Definition asks (hs heads : list value) (row : record) (i : nat) (v : value) : Prop :=
  exists c name, nth_error heads c = Some (VText name) /\ nth c row VEmpty = v /\ v <> VEmpty /\ column_of hs name i.
Definition silent (hs heads : list value) (row : record) : Prop := forall i v, ~ asks hs heads row i v.
Definition holds (v x : value) : Prop :=
  exists p, parse_criteria pf v = Ok p /\ criteria_match lower pf show showz p x = true.
(** All criteria of the row hold. *)
Definition satisfies (hs heads : list value) (row r : record) : Prop :=
  forall i v, asks hs heads row i v -> holds v (nth i r VEmpty).
(** Some row of criteria holds. *)
Definition wanted (hs heads : list value) (rows : table) (r : record) : Prop :=
  rows = [] \/ exists row, In row rows /\ satisfies hs heads row r.
(** The same, but rows that ask nothing do not count unless there are no others. *)
Definition selected (hs heads : list value) (rows : table) (r : record) : Prop :=
  (forall row, In row rows -> silent hs heads row) \/
  exists row, In row rows /\ ~ silent hs heads row /\ satisfies hs heads row r.
Definition no_error (hs heads : list value) (rows : table) : Prop :=
  forall row i e, In row rows -> ~ asks hs heads row i (VErr e).

(** The numbers among values; truth values are numbers if [bools]. *)
Definition reading (bools : bool) (v : value) : list num :=
  match v with
  | VNum n => [n]
  | VInt z => [Fin (inject_Z z)]
  | VBool b => if bools then [Fin (if b then 1 else 0)%Q] else []
  | VText t => match parse_number pf t with Some n => [n] | None => [] end
  | _ => []
  end.
Fixpoint first_error (vs : list value) : option N :=
  match vs with [] => None | VErr e :: _ => Some e | _ :: vs => first_error vs end.
Definition or_error {A} (o : option N) (a : A) : res N A := match o with Some e => Err e | None => Ok a end.
(** Numbers and blanks only. *)
Definition numeric (v : value) : Prop := match v with VNum _ | VInt _ | VEmpty => True | _ => False end.
Definition is_number (v : value) : bool := match v with VNum _ | VInt _ => true | _ => false end.
End Spec.

(** A table of criteria by its columns: the head and the cells below it. *)
Definition of_columns (cs : list (value * list value)) (n : nat) : table :=
  map fst cs :: map (fun k => map (fun c => nth k (snd c) VEmpty) cs) (seq 0 n).
