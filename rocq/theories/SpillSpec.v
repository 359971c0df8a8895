(** What spills should mean. *)
From Verif Require Import Base Maps SpillModel.

(** Every spilled cell has the owner that lists it, and the region index agrees. *)
Definition inverse (st : state) : Prop :=
  (forall c a, get (owner st) c = Some a <-> exists l, get (listed st) a = Some l /\ In c l) /\
  (forall c, get (by_sheet st) c = get (owner st) c).
(** Every owner is a formula that is itself one of its cells. *)
Definition live_owners (st : state) : Prop :=
  forall a l, get (listed st) a = Some l -> l <> [] -> In a l /\ exists f, formula_at st a = Some f.

(** Histories of the engine: results of formulas and edits. *)
Inductive event :=
| EArray (anchor : cell) (rows : list (list val))
| EScalar (anchor : cell) (v : val)
| ESetValue (c : cell) (v : val)
| ESetFormula (c : cell) (f : nat).
Definition start : state := State [] [] [] [].
(** RangeView pads every row to the same length, range_view.rs:240-251. *)
Definition rectangular (rows : list (list val)) : Prop := Forall (fun r => length r = width rows) rows.
(** Only formulas produce results. *)
Definition allowed (st : state) (e : event) : Prop :=
  match e with
  | EArray a rows => formula_at st a <> None /\ rectangular rows
  | EScalar a _ => formula_at st a <> None
  | _ => True
  end.
(** Edits through the editor. *)
Definition edited (st : state) (e : event) : state :=
  match e with
  | EArray a rows => array_result st a rows
  | EScalar a v => scalar_result st a v
  | ESetValue c v => editor_set_value st c v
  | ESetFormula c f => editor_set_formula st c f
  end.
(** Direct edits. *)
Definition direct (st : state) (e : event) : state :=
  match e with
  | ESetValue c v => direct_set_value st c v
  | ESetFormula c f => direct_set_formula st c f
  | _ => edited st e
  end.
Inductive reached (step : state -> event -> state) : state -> Prop :=
| reached_start : reached step start
| reached_step st e : reached step st -> allowed st e -> reached step (step st e).
