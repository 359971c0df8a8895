(** What criteria mean, cell by cell, and what the functions that use them
    should count.  Wildcards: [WildSpec.glob]. *)
From Coq Require Import String QArith Sorted.
From Verif Require Import Base Maps WildSpec CrModel.
Close Scope Q_scope.

Definition code_points (s : text) : Prop := Forall (fun c => (c < 1114112)%N) s.
Definition ascii (s : text) : Prop := Forall (fun c => (c < 128)%N) s.

(** The order of numbers. *)
Inductive below : num -> num -> Prop :=
| below_fin : forall x y, (x < y)%Q -> below (Fin x) (Fin y)
| below_ninf : forall y, y <> NInf -> y <> NaN -> below NInf y
| below_pinf : forall x, x <> PInf -> x <> NaN -> below x PInf.
Inductive same : num -> num -> Prop :=
| same_fin : forall x y, (x == y)%Q -> same (Fin x) (Fin y)
| same_pinf : same PInf PInf
| same_ninf : same NInf NInf.

(** The numbers nearer to each other than 1e-12, but not the same. *)
Definition nearly (x y : num) : Prop := close x y = true /\ ~ same x y.

(** The number a value is read as: text is trimmed, and a final percent sign
    divides by a hundred. *)
Inductive reads_as (pf : text -> option num) : value -> num -> Prop :=
| ra_num : forall n, reads_as pf (VNum n) n
| ra_int : forall z, reads_as pf (VInt z) (Fin (inject_Z z))
| ra_true : reads_as pf (VBool true) (Fin 1%Q)
| ra_false : reads_as pf (VBool false) (Fin 0%Q)
| ra_empty : reads_as pf VEmpty (Fin 0%Q)
| ra_text : forall t n, (forall b, trim t <> b ++ [37%N]) -> pf (trim t) = Some n -> reads_as pf (VText t) n
| ra_percent : forall t b q, trim t = b ++ [37%N] -> pf (trim b) = Some (Fin q) ->
    reads_as pf (VText t) (Fin (q / 100)%Q)
| ra_percent_big : forall t b n, trim t = b ++ [37%N] -> pf (trim b) = Some n -> (forall q, n <> Fin q) ->
    reads_as pf (VText t) n.

(** What the four ordering operators ask of a number. *)
Definition ordered (o : op) (x n : num) : Prop :=
  match o with
  | OGt => below n x
  | OGe => below n x \/ same n x
  | OLt => below x n
  | OLe => below x n \/ same x n
  | _ => False
  end.
Definition ordering (o : op) : Prop := match o with OGt | OGe | OLt | OLe => True | _ => False end.

(** Text without space around it. *)
Definition trimmed (s : text) : Prop := trim s = s.
Definition spaces (s : text) : Prop := Forall (fun c => is_ws c = true) s.
(** Text that does not start like the rest of a longer operator. *)
Definition no_op_tail (s : text) : Prop :=
  match s with 61%N :: _ | 62%N :: _ => False | _ => True end.

(** A sheet whose chunks follow one another from row 0. *)
Definition sheet_ok (s : sheet) : Prop :=
  StronglySorted le (sh_starts s) /\ Forall (fun x => x <= sh_rows s) (sh_starts s) /\
  (0 < sh_rows s -> exists rest, sh_starts s = 0 :: rest).

Definition blank_cell : cell := {| c_over := false; c_val := VEmpty |}.

(** The cell at a position of a view; blank to the right of the sheet. *)
Definition cell_at (w : view) (r c : nat) : cell :=
  if w_sc w + c <? sh_cols (w_sheet w) then sh_at (w_sheet w) (w_sr w + r) (w_sc w + c) else blank_cell.

(** A view of [rows] by [cols] whose rows are all rows of its sheet. *)
Definition fits (rows cols : nat) (w : view) : Prop :=
  sheet_ok (w_sheet w) /\ w_rows w = rows /\ w_cols w = cols /\ 1 <= rows /\ 1 <= cols /\
  w_sr w + rows <= sh_rows (w_sheet w).

(** A sheet that is this one cell, and the view of it. *)
Definition one (x : cell) : view :=
  {| w_sheet := {| sh_rows := 1; sh_cols := 1; sh_starts := [0]; sh_at := fun _ _ => x |};
     w_sr := 0; w_sc := 0; w_rows := 1; w_cols := 1 |}.

(** The positions of a rectangle, row by row. *)
Definition positions (rows cols : nat) : list (nat * nat) := list_prod (seq 0 rows) (seq 0 cols).

(** Text with none of the characters that arrow's LIKE treats specially. *)
Definition sql_plain (s : text) : Prop := ~ In 37%N s /\ ~ In 95%N s /\ ~ In 92%N s.

(** Criteria for which a cell's value decides alone: the cell is a number and
    the criterion compares numbers that are not nearly equal; or the cell is
    text and the criterion is text; or the cell is blank and the criterion is
    equality with text or inequality with non-empty text; or the criterion is
    neither numeric nor text. *)
Inductive suited (lower : text -> text) : pred -> value -> Prop :=
| su_gt : forall n x, n <> NaN -> x <> NaN -> suited lower (PGt n) (VNum x)
| su_ge : forall n x, n <> NaN -> x <> NaN -> suited lower (PGe n) (VNum x)
| su_lt : forall n x, n <> NaN -> x <> NaN -> suited lower (PLt n) (VNum x)
| su_le : forall n x, n <> NaN -> x <> NaN -> suited lower (PLe n) (VNum x)
| su_eq : forall n x, ~ nearly n x -> (exists q, n = Fin q) -> suited lower (PEq (VNum n)) (VNum x)
| su_ne : forall n x, ~ nearly n x -> (exists q, n = Fin q) -> suited lower (PNe (VNum n)) (VNum x)
| su_teq : forall t s, sql_plain (lower t) -> suited lower (PEq (VText t)) (VText s)
| su_tne : forall t s, sql_plain (lower t) -> suited lower (PNe (VText t)) (VText s)
| su_like : forall p s, sql_plain (lower p) -> ~ In 126%N (lower p) ->
    code_points (lower p) -> code_points (lower s) ->
    (~ In 63%N (lower p) \/ ascii (lower s)) -> suited lower (PLike p) (VText s)
| su_beq : forall t, suited lower (PEq (VText t)) VEmpty
| su_bne : forall t, t <> [] -> lower t <> [] -> suited lower (PNe (VText t)) VEmpty
| su_bool : forall b v, suited lower (PEq (VBool b)) v
| su_blank : forall v, suited lower PBlank v.

(** The number of a position, as a list. *)
Definition number_of (v : value) : list num := match v with VNum n => [n] | _ => [] end.

(** Facts of the three library functions on a few texts, used by the
    counterexamples. *)
Record library (lower : text -> text) (pf : text -> option num) (show : num -> text) : Prop := {
  lib_lower : forall s, ascii s -> lower s = List.map to_ascii_lower s;
  lib_digits : pf (tx "0"%string) = Some (Fin 0%Q) /\ pf (tx "5"%string) = Some (Fin 5%Q) /\ pf (tx "7"%string) = Some (Fin 7%Q);
  lib_show : show (Fin 5%Q) = tx "5"%string;
  lib_words : pf [] = None /\ pf (tx "a*"%string) = None /\ pf (tx "apple"%string) = None /\
    pf (tx "banana"%string) = None /\ pf (tx "TRUE"%string) = None;
  lib_nan : pf (tx "nan"%string) = Some NaN /\ pf (tx "inf"%string) = Some PInf
}.
