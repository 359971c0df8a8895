(** The textbook history of an editor: a stack of earlier contents, the present contents
    and a stack of undone contents.  It knows nothing of events or logs. *)
From Verif Require Import Base UndoModel.

Definition contents := cell -> shown.

Inductive edit := EdValue (c : cell) (v : value) | EdFormula (c : cell) (f : formula).
Definition ed_cell (e : edit) : cell := match e with EdValue c _ | EdFormula c _ => c end.
Definition write (e : edit) (K : contents) : contents :=
  match e with EdValue c v => upd K c (ShowV v) | EdFormula c f => upd K c (ShowF f) end.
Definition writes (es : list edit) (K : contents) : contents := fold_left (fun K e => write e K) es K.
Definition edit_op (e : edit) : op := match e with EdValue c v => SetValue c v | EdFormula c f => SetFormula c f end.

(** What a user does: a named action of several edits, a single edit, undo, redo, a
    recalculation. *)
Inductive item :=
| Act (es : list edit)
| Single (e : edit)
| IUndo
| IRedo
| IEval (order : list cell) (vals : cell -> value).
Definition ops_of (it : item) : list op :=
  match it with
  | Act es => Begin :: map edit_op es ++ [End]
  | Single e => [edit_op e]
  | IUndo => [Undo]
  | IRedo => [Redo]
  | IEval order vals => [Evaluate order vals]
  end.

(** Entries of the past are tagged: [true] for a grouped step (an action, or a redone
    step), [false] for a single edit. *)
Record book := { past : list (bool * contents); now : contents; future : list contents }.
Definition opened (b : cell -> value) : book := {| past := []; now := fun c => ShowV (b c); future := [] |}.
Definition turn (it : item) (h : book) : book :=
  match it with
  | Act es => {| past := (true, now h) :: past h; now := writes es (now h); future := [] |}
  | Single e => {| past := (false, now h) :: past h; now := write e (now h); future := [] |}
  | IUndo => match past h with
             | [] => h
             | (_, K) :: p => {| past := p; now := K; future := now h :: future h |}
             end
  | IRedo => match future h with
             | [] => h
             | K :: f => {| past := (true, now h) :: past h; now := K; future := f |}
             end
  | IEval _ _ => h
  end.

(** An edit the theorems speak about: no formula that refers to its own cell (unless
    iterative calculation accepts it) and, when the graph is built eagerly, no formula
    over a plain non-empty value (see C63). *)
Definition fair_edit (k : cfg) (e : edit) (K : contents) : Prop :=
  match e with
  | EdValue _ _ => True
  | EdFormula c f => (iter k = true \/ ~ In c (refs f)) /\
                     (eager k = true -> forall v, K c = ShowV v -> v = vempty)
  end.
Fixpoint fair_edits (k : cfg) (es : list edit) (K : contents) : Prop :=
  match es with [] => True | e :: es' => fair_edit k e K /\ fair_edits k es' (write e K) end.

(** The histories for which the code is a textbook editor: nothing is edited while there
    is something to redo (C24), single edits are not mixed with grouped steps (C23) nor
    made on cells with a pending formula (C66), and nothing is recalculated while a
    formula is pending (C65). *)
Definition fair (k : cfg) (it : item) (h : book) (s : st) : Prop :=
  match it with
  | Act es => future h = [] /\ fair_edits k es (now h)
  | Single e => future h = [] /\ (forall p, In p (past h) -> fst p = false) /\
                staged s (ed_cell e) = None /\ fair_edit k e (now h)
  | IUndo | IRedo => True
  | IEval _ _ => forall c, staged s c = None
  end.
Fixpoint fair_run (k : cfg) (its : list item) (h : book) (s : st) : Prop :=
  match its with
  | [] => True
  | it :: its' => fair k it h s /\ forall s', run k (ops_of it) s = Some s' -> fair_run k its' (turn it h) s'
  end.
Definition turns (its : list item) (h : book) : book := fold_left (fun h it => turn it h) its h.
Definition program (its : list item) : list op := concat (map ops_of its).

(** Every formula in the sheet is reached from the cells it refers to. *)
Definition linked (s : st) : Prop :=
  forall d f c, form (gr s) d = Some f -> In c (refs f) -> dependent s d c = true.

(** The history never needs more than [m] log entries. *)
Fixpoint fits (k : cfg) (m : nat) (os : list op) (s : st) : Prop :=
  length (events (log s)) <= m /\
  match os with
  | [] => True
  | o :: os' => match step k o s with None => True | Some s' => fits k m os' s' end
  end.

(** After a recalculation that computes [vals], formula cells show the computed values. *)
Definition up_to_date (s : st) (vals : cell -> value) : Prop :=
  forall c f, form (gr s) c = Some f -> read s c = vals c.
Definition is_history (o : op) : bool := match o with Undo | Redo => true | _ => false end.
Definition is_cap (o : op) : bool := match o with SetCap _ => true | _ => false end.
Definition is_undo (o : op) : bool := match o with Undo => true | _ => false end.
