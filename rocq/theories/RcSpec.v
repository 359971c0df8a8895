(** What recalculation is for.  No scheduling, no dirty marks. *)
From Verif Require Import Base GraphSpec RcModel.

Section Rc.
Variable V : Type.
Variable circ : V.

(** The formula in [f] reads the cell [u]. *)
Definition reads (b : book V) (f u : nat) : Prop := exists F, b_form b f = Some F /\ In u (f_reads F).
(** [f] reads [u] directly or through other formulas, or is [u]. *)
Definition uses (b : book V) (f u : nat) : Prop := reach (reads b) f u.

(** The value of a result. *)
Definition top (r : result V) : V := match r with Scalar x => x | Spill x _ => x end.
(** The cell shows what its formula says about the values now shown: #CIRC! on a circular
    reference, otherwise the result of the formula, volatile functions seeing [t]. *)
Definition settled (t : nat) (b : book V) (f : nat) : Prop := forall F, b_form b f = Some F ->
  (on_cycle (reads b) f -> b_val b f = circ) /\
  (~ on_cycle (reads b) f ->
     b_val b f = top (f_body F (if f_volatile F then t else 0) (map (b_val b) (f_reads F)))).

(** A formula that always gives one value. *)
Definition plain (F : formula V) : Prop := forall t l, exists x, f_body F t l = Scalar x.
Definition plain_op (o : rop V) : Prop := match o with OForm _ F => plain F | _ => True end.
(** Books with the same formulas and the same values typed in. *)
Definition same_content (b b' : book V) : Prop :=
  (forall v, b_form b v = b_form b' v) /\ (forall v, b_form b v = None -> b_val b v = b_val b' v).
(** What the edits leave in a cell: a value or a formula.  A formula that refers to its own
    cell is not entered. *)
Definition edited (o : rop V) (v : nat) (old : V + formula V) : V + formula V :=
  match o with
  | OSet u x => if Nat.eqb u v then inl x else old
  | OForm u F => if Nat.eqb u v && negb (existsb (Nat.eqb u) (f_edges F)) then inr F else old
  | _ => old
  end.
Definition entered (blank : V) (os : list (rop V)) (v : nat) : V + formula V :=
  fold_left (fun c o => edited o v c) os (inl blank).
(** The history enters a volatile formula in [v]. *)
Definition once_volatile (os : list (rop V)) (v : nat) : Prop := exists F, In (OForm v F) os /\ f_volatile F = true.
(** A volatile formula, or one that uses a volatile formula. *)
Definition restless (b : book V) (f : nat) : Prop :=
  exists v F, uses b f v /\ b_form b v = Some F /\ f_volatile F = true.
(** Histories that differ at most in the use of the thread pool. *)
Definition same_op (o o' : rop V) : Prop :=
  match o, o' with
  | OAll _ t, OAll _ t' => t = t'
  | OCells _ t l, OCells _ t' l' => t = t' /\ l = l'
  | _, _ => o = o'
  end.
End Rc.
Arguments reads {V}. Arguments uses {V}. Arguments settled {V}. Arguments plain {V}. Arguments plain_op {V}.
Arguments same_content {V}. Arguments same_op {V}. Arguments top {V}.
Arguments edited {V}. Arguments entered {V}. Arguments restless {V}. Arguments once_volatile {V}.
