(** Row visibility seen from outside: two sets of hidden rows and a version. *)
From Verif Require Import Base VisModel.
Local Open Scope N_scope.

(** The public operations. *)
Inductive vis_op :=
| OSet (row : N) (hidden : bool) (src : source)
| ORange (a b : N) (hidden : bool) (src : source)
| OInsert (before count : N)
| ODelete (start count : N).

Definition run_op (s : vis) (o : vis_op) : vis * bool :=
  match o with
  | OSet r h src => set_row_hidden s r h src
  | ORange a b h src => set_rows_hidden s a b h src
  | OInsert b c => vis_insert s b c
  | ODelete a c => vis_delete s a c
  end.

(** Arguments are u32. *)
Definition op_u32 (o : vis_op) : Prop :=
  match o with
  | OSet r _ _ => r <= U32MAX
  | ORange a b _ _ => a <= U32MAX /\ b <= U32MAX
  | OInsert a b | ODelete a b => a <= U32MAX /\ b <= U32MAX
  end.

(** States a program can reach. *)
Inductive vis_reach : vis -> Prop :=
| vr_new : vis_reach vis_new
| vr_step : forall s o, vis_reach s -> op_u32 o -> vis_reach (fst (run_op s o)).

Definition src_eqb (a b : source) : bool :=
  match a, b with Manual, Manual | Filter, Filter => true | _, _ => false end.

(** What each operation does to the set of hidden rows of one source, as a
    predicate on rows (u32). *)
Definition spec_set (h : N -> bool) (row : N) (hidden : bool) : N -> bool :=
  fun r => if r =? row then hidden else h r.
Definition spec_range (h : N -> bool) (a b : N) (hidden : bool) : N -> bool :=
  fun r => if (a <=? r) && (r <=? b) then hidden else h r.
(** Rows from [before] on move down by [count]; the new rows are visible. *)
Definition spec_insert (h : N -> bool) (before count : N) : N -> bool :=
  fun r => if r <? before then h r else if r <? before + count then false else h (r - count).
(** The deleted rows disappear, those after them move up. *)
Definition spec_delete (h : N -> bool) (start count : N) : N -> bool :=
  fun r => if r <? start then h r else h (r + count).

Definition spec_op (src : source) (h : N -> bool) (o : vis_op) : N -> bool :=
  match o with
  | OSet r hd sc => if src_eqb sc src then spec_set h r hd else h
  | ORange a b hd sc => if src_eqb sc src then spec_range h a b hd else h
  | OInsert b c => spec_insert h b c
  | ODelete a c => spec_delete h a c
  end.

(** No hidden row is pushed past the last u32 row by an insertion. *)
Definition spec_fits (h : N -> bool) (o : vis_op) : Prop :=
  match o with
  | OInsert b c => forall q, h q = true -> b <= q -> q + c <= U32MAX
  | _ => True
  end.

Definition hidden_by (s : vis) (src : source) : N -> bool := fun r => is_row_hidden s r (Some src).
Definition op_fits (s : vis) (o : vis_op) : Prop :=
  spec_fits (hidden_by s Manual) o /\ spec_fits (hidden_by s Filter) o.

(** A whole session. *)
Definition run_ops (s : vis) (os : list vis_op) : vis := fold_left (fun s o => fst (run_op s o)) os s.
Fixpoint spec_run (src : source) (h : N -> bool) (os : list vis_op) : N -> bool :=
  match os with [] => h | o :: r => spec_run src (spec_op src h o) r end.
Fixpoint spec_run_fits (src : source) (h : N -> bool) (os : list vis_op) : Prop :=
  match os with [] => True | o :: r => spec_fits h o /\ spec_run_fits src (spec_op src h o) r end.
