(* Rectangles of cells. *)
From Coq Require Import List Bool NArith ZArith.
From Verif Require Import LexModel RtModel RfModel.
Import ListNotations.
Open Scope Z_scope.

(** The rectangle a reference with four corners names. *)
Definition rect_of (r : reft) : option (option text * rect) :=
  match r with
  | RCell sh row col _ _ => Some (sh, (row, col, row, col))
  | RRange sh (Box (Some (a, _)) (Some (b, _)) (Some (c, _)) (Some (d, _))) => Some (sh, (a, b, c, d))
  | _ => None
  end.
(** A rectangle of the sheet, its corners in order. *)
Definition on_sheet (q : rect) : Prop :=
  let '(sr, sc, er, ec) := q in
  (1 <= sr <= er)%N /\ (er <= 1048576)%N /\ (1 <= sc <= ec)%N /\ (ec <= 16384)%N.
(** The row (or column) number [i] between [lo] and [hi]; 0 for all of them. *)
Definition nth_line (lo hi : N) (i : Z) : option (N * N) :=
  if i <? 0 then None
  else if i =? 0 then Some (lo, hi)
  else let x := Z.of_N lo + i - 1 in if x <=? Z.of_N hi then Some (Z.to_N x, Z.to_N x) else None.
Definition picked (q : rect) (row col : Z) : option rect :=
  let '(sr, sc, er, ec) := q in
  match nth_line sr er row, nth_line sc ec col with
  | Some (a, c), Some (b, d) => Some (a, b, c, d)
  | _, _ => None
  end.
(** One index counts along a single row, otherwise down the first column. *)
Definition picked1 (q : rect) (i : Z) : option rect :=
  let '(sr, _, er, _) := q in if (sr =? er)%N then picked q 1 i else picked q i 1.
(** A rectangle moved and given a size. *)
Definition moved (q : rect) (dr dc h w : Z) : Z * Z * Z * Z :=
  let '(sr, sc, er, ec) := q in
  (Z.of_N sr + dr, Z.of_N sc + dc, Z.of_N sr + dr + h - 1, Z.of_N sc + dc + w - 1).
Definition inside (m : Z * Z * Z * Z) (q : rect) : Prop :=
  let '(a, b, c, d) := m in let '(sr, sc, er, ec) := q in
  Z.of_N sr = a /\ Z.of_N sc = b /\ Z.of_N er = c /\ Z.of_N ec = d /\ on_sheet q.
Definition height (q : rect) : Z := let '(sr, _, er, _) := q in Z.of_N er - Z.of_N sr + 1.
Definition width (q : rect) : Z := let '(_, sc, _, ec) := q in Z.of_N ec - Z.of_N sc + 1.
(** An index of which the code can keep track. *)
Definition small (i : Z) : Prop := i < 4293918720.        (* 2^32 - 2^20 *)
(** What is seen of a result: its cells. *)
Definition seen {V} (o : outcome V) : list (list V) := match o with OScalar _ v => [[v]] | OGrid _ g => g end.
