(* What it means for a reference to be well formed, to have a faithful
   display and to be covered by its dependencies. *)
From Coq Require Import List Bool NArith String.
From Verif Require Import LexModel RtModel.
Import ListNotations.
Open Scope N_scope.

(* Two specifiers for the same part of a table: [T[]] and [T[#All]],
   [T[[#This Row]]] and [T[@]]. *)
Definition canon_spec (sp : tspec) : tspec :=
  match sp with SpAll => SpItem IAll | SpItem IThisRow => SpRow | _ => sp end.
Definition canon (r : reft) : reft :=
  match r with RTable n (Some sp) => RTable n (Some (canon_spec sp)) | _ => r end.

(* A column name without any byte that means something in a specifier. *)
Definition plain_in_brackets (c : text) : Prop :=
  c <> [] /\ memc c_sq c = false /\ memc c_lb c = false /\ memc c_rb c = false /\
  starts c_hash c = false /\ starts c_at c = false.
Definition plain_column (c : text) : Prop :=
  plain_in_brackets c /\ memc c_comma c = false /\ memc c_colon c = false.
Definition item_ok (sp : tspec) : Prop :=
  match sp with
  | SpItem _ => True
  | SpCol c => plain_in_brackets c
  | SpRange a b => plain_in_brackets a /\ plain_in_brackets b
  | _ => False
  end.
Definition spec_ok (sp : tspec) : Prop :=
  match sp with
  | SpCol c => plain_column c
  | SpRange a b => plain_column a /\ plain_column b
  | SpComb l => Forall item_ok l
  | _ => True
  end.

(* A sheet name that can stand next to the ':' of a 3D reference. *)
Definition name_3d (n : text) : Prop :=
  needs_quote n = true \/ (memc 9 n = false /\ memc 10 n = false /\ memc 13 n = false).

Definition displayable (r : reft) : Prop :=
  match r with
  | RCell sh _ _ _ _ | RRange sh _ => sh <> Some []
  | RCell3 f l _ _ _ _ | RRange3 f l _ => name_3d f /\ name_3d l
  | RTable n sp =>
      memc c_lb n = false /\ memc c_bang (show_ref r) = false /\ r1c1_shape (show_ref r) = false /\
      match sp with Some s => spec_ok s | None => True end
  | _ => True
  end.

(* Indices count from one. *)
Definition in_bound (m : N) (b : bound) : Prop :=
  match b with Some (i, _) => 1 <= i <= m | None => True end.
Definition rows : N := 1048576.
Definition cols : N := 16384.

(* The cells (counted from zero) of a box whose corners are in order. *)
Definition above (b : bound) (x : N) : Prop := match b with Some (i, _) => i <= x + 1 | None => True end.
Definition below (b : bound) (x : N) : Prop := match b with Some (i, _) => x + 1 <= i | None => True end.
Definition inside (b : box) (r c : N) : Prop :=
  above (b_sr b) r /\ below (b_er b) r /\ above (b_sc b) c /\ below (b_ec b) c.

Definition lo (x : option N) (v : N) : Prop := match x with Some i => i <= v | None => True end.
Definition hi (x : option N) (v : N) : Prop := match x with Some i => v <= i | None => True end.
Definition dep_covers (d : dep) (r c : N) : Prop :=
  match d with
  | DCell row col => row = r /\ col = c
  | DRange sr sc er ec => lo sr r /\ hi er r /\ lo sc c /\ hi ec c
  end.

(* A column name as Excel writes it in a specifier: an apostrophe before
   every byte that means something there. *)
Fixpoint escape (c : text) : text :=
  match c with
  | [] => []
  | x :: r => if memc x [39; 91; 93; 35; 64; 44; 58] then c_sq :: x :: escape r else x :: escape r
  end.

(* A reference as OpenFormula writes it: the sheet in quotes, possibly with a
   '$', and a dot before the cell. *)
Definition open_sheet (abs : bool) (n : text) : text := abs_text abs ++ c_sq :: double_q n ++ [c_sq].
Definition open_cell (sheet : option (bool * text)) (cell : text) : text :=
  match sheet with Some (a, n) => open_sheet a n | None => [] end ++ c_dot :: cell.
Definition open_ref (t : text) : text := c_lb :: t ++ [c_rb].
