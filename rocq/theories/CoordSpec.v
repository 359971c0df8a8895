(** Specification vocabulary for coordinates, written independently of the packed
    representation: column names are bijective base-26 numerals, row numbers are
    decimal numerals, A1 references are [$?letters $?digits]. *)
From Verif Require Import Base.
Open Scope N_scope.

(** Sheet limits: 1,048,576 rows and 16,384 columns, counted from zero. *)
Definition on_sheet (row col : N) : Prop := row < 1048576 /\ col < 16384.

Definition upper_letters (s : list N) : Prop := Forall (fun b => 65 <= b <= 90) s.
Definition ascii_letters (s : list N) : Prop :=
  Forall (fun b => 65 <= b <= 90 \/ 97 <= b <= 122) s.
Definition ascii_digits (s : list N) : Prop := Forall (fun b => 48 <= b <= 57) s.

(** The letter's value, A or a = 1 ... Z or z = 26. *)
Definition letter_value (b : N) : N := if b <=? 90 then b - 64 else b - 96.

(** One-based value of a column name: most significant letter first. *)
Definition column_value (s : list N) : N :=
  fold_left (fun acc b => acc * 26 + letter_value b) s 0.

(** Value of a decimal numeral. *)
Definition decimal_value (s : list N) : N :=
  fold_left (fun acc b => acc * 10 + (b - 48)) s 0.

Definition dollar (b : bool) : list N := if b then [36] else [].

(** [s] is an A1 reference to (one-based) [row], [col] with the given markers. *)
Definition a1_reference (s : list N) (row col : N) (row_abs col_abs : bool) : Prop :=
  exists letters digits,
    s = dollar col_abs ++ letters ++ dollar row_abs ++ digits /\
    letters <> [] /\ ascii_letters letters /\ column_value letters = col /\
    digits <> [] /\ ascii_digits digits /\ decimal_value digits = row /\
    1 <= row <= 1048576 /\ 1 <= col <= 16384.
