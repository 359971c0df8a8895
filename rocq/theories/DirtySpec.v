(** What an edit should schedule. *)
From Verif Require Import Base Maps EdgeModel EdgeSpec StripeModel StripeSpec DirtyModel.

(** [f] reads [v]. *)
Definition reads : Type := nat -> nat -> Prop.

(** The vertices that are in [srcs] or read, directly or through others, one that is. *)
Inductive reach (R : reads) (srcs : list nat) : nat -> Prop :=
| reach_src : forall v, In v srcs -> reach R srcs v
| reach_read : forall u f, reach R srcs u -> R f u -> reach R srcs f.

(** What the formulas read according to the two histories that built the graph: a
    dependency edge, or a range over the place of the vertex. *)
Definition reads_of (es : list op) (rs : list rop) (pos : nat -> option (N * (N * N))) : reads :=
  fun f v => spec_run es f v \/
    exists r sheet row col, In r (rspec rs (N.of_nat f)) /\ pos v = Some (sheet, (row, col)) /\ covers r sheet row col.

(** The graph was built by these histories; every place fits 32 bits; a name that uses a
    cell also has an edge to it (rebuild_name_dependencies, names.rs:780-783). *)
Record built (g : graph) (es : list op) (rs : list rop) : Prop := Built {
  bu_store : g_store g = run es store_new;
  bu_legal : legal registered es [] /\ legal complete es [];
  bu_index : g_index g = rrun (g_blocks g) rs rindex_new;
  bu_shapes : forall d r, In r (rspec rs d) -> two_sided r /\ forward r;
  bu_places : forall v sheet row col, g_pos g v = Some (sheet, (row, col)) -> fits row /\ fits col;
  bu_names : forall v n, In n (g_names g v) -> spec_run es n v }.

Definition marks_of (xs : list (graph * dop)) : list (graph * dop) :=
  filter (fun x => match snd x with DMark _ => true | _ => false end) xs.
Definition sources_of (xs : list (graph * dop)) : list nat :=
  flat_map (fun x => match snd x with DMark s => s | _ => [] end) xs.
(** Scopes still open after a history. *)
Definition open_after (xs : list (graph * dop)) (n : nat) : nat :=
  fold_left (fun n x => match snd x with DBegin => S n | DEnd => pred n | DMark _ => n end) xs n.

(** In the course of a history of edits only the edited vertices change what they read. *)
Definition own_reads_only (Rs : list reads) (edited : list nat) : Prop :=
  forall R R' f v, In R Rs -> In R' Rs -> ~ In f edited -> (R f v <-> R' f v).
