(* What a sheet means: a grid of cells, each with a user edit, a computed
   value and a stored value below them.  Rows and columns move as a whole.
   Nothing here looks at chunks, fragments or lanes. *)
From Coq Require Import List Bool NArith.
From Verif Require Import Base Maps OvModel AsModel.
Import ListNotations.
Open Scope N_scope.

Record cell := Cell { x_user : option ov; x_comp : option ov; x_base : lit;
                      x_ufmt : option N; x_cfmt : option N }.
Definition blank : cell := Cell None None LEmpty None None.
Definition grid := N -> N -> cell.
Definition same (g h : grid) : Prop := forall r c, g r c = h r c.

(* the value and the format that are shown *)
Definition shown (x : cell) : lit :=
  match x_user x with
  | Some v => lit_of v
  | None => match x_comp x with Some v => lit_of v | None => x_base x end
  end.
Definition shown_format (x : cell) : option N :=
  match x_ufmt x with Some f => Some f | None => x_cfmt x end.

Definition at_cell (r c : N) (f : cell -> cell) (g : grid) : grid :=
  fun i j => if (i =? r) && (j =? c) then f (g i j) else g i j.
Definition on_rows (c a z : N) (f : cell -> cell) (g : grid) : grid :=
  fun i j => if (j =? c) && (a <=? i) && (i <? z) then f (g i j) else g i j.

Definition plain_format (f : option N) : option N :=
  match f with Some id => if id =? 0 then None else Some id | None => None end.
Definition edited (v : ov) (f : option N) (x : cell) : cell :=
  Cell (Some v) None (x_base x) (plain_format f) (x_cfmt x).
Definition unedited (x : cell) : cell := Cell None (x_comp x) (x_base x) (x_ufmt x) (x_cfmt x).
Definition computed (v : ov) (x : cell) : cell := Cell (x_user x) (Some v) (x_base x) (x_ufmt x) (x_cfmt x).
Definition uncomputed (x : cell) : cell := Cell (x_user x) None (x_base x) (x_ufmt x) (x_cfmt x).
Definition reformatted (f : option N) (x : cell) : cell :=
  Cell (x_user x) (x_comp x) (x_base x) (x_ufmt x) (plain_format f).
(* the user edit, or the computed value, becomes the stored value *)
Definition user_stored (x : cell) : cell :=
  Cell None (x_comp x) (match x_user x with Some v => lit_of v | None => x_base x end) (x_ufmt x) (x_cfmt x).
Definition computed_stored (x : cell) : cell :=
  Cell (x_user x) None (match x_comp x with Some v => lit_of v | None => x_base x end) (x_ufmt x) (x_cfmt x).

Definition rows_in (before count : N) (g : grid) : grid :=
  fun r c => if r <? before then g r c else if r <? before + count then blank else g (r - count) c.
Definition rows_out (start count : N) (g : grid) : grid :=
  fun r c => if r <? start then g r c else g (r + count) c.
Definition cols_in (before count : N) (g : grid) : grid :=
  fun r c => if c <? before then g r c else if c <? before + count then blank else g r (c - count).
Definition cols_out (start count : N) (g : grid) : grid :=
  fun r c => if c <? start then g r c else g r (c + count).

(* One call.  Which rows a compaction takes is left open. *)
Definition gstep (p : sop) (g g' : grid) : Prop :=
  match p with
  | WValue r c v f => exists a z, same g' (on_rows c a z user_stored (at_cell r c (edited v f) g))
  | WClear r c => same g' (at_cell r c unedited g)
  | WComputed r c v => same g' (at_cell r c (computed v) g)
  | WFormat r c f => same g' (at_cell r c (reformatted f) g)
  | WCompactUser c _ _ _ => exists a z, same g' (on_rows c a z user_stored g)
  | WCompactComputed c _ => exists a z, same g' (on_rows c a z computed_stored g)
  | WInsertRows b n => same g' (rows_in b n g)
  | WDeleteRows b n => same g' (rows_out b n g)
  | WInsertCols b n => same g' (cols_in b n g)
  | WDeleteCols b n => same g' (cols_out b n g)
  | WClearRows r => same g' (fun i j => if r <=? i then uncomputed (g i j) else g i j)
  | WClearCols c => same g' (fun i j => if c <=? j then uncomputed (g i j) else g i j)
  end.
Inductive gruns : list sop -> grid -> grid -> Prop :=
| gruns_nil : forall g g', same g g' -> gruns [] g g'
| gruns_cons : forall p h g g1 g2, gstep p g g1 -> gruns h g1 g2 -> gruns (p :: h) g g2.

(* The size of the sheet. *)
Definition dims_step (p : sop) (d : N * N) : N * N :=
  let '(rows, cols) := d in
  match p with
  | WValue r c _ _ | WComputed r c _ | WFormat r c _ => (N.max rows (r + 1), N.max cols (c + 1))
  | WInsertRows _ n => (rows + n, cols)
  | WDeleteRows b n => (if b <? rows then rows - (N.min (b + n) rows - b) else rows, cols)
  | WInsertCols _ n => (rows, cols + n)
  | WDeleteCols b n => (rows, if b <? cols then cols - (N.min (b + n) cols - b) else cols)
  | _ => d
  end.

(* The calls that are in order: row insertions of at most one chunk, no
   insertion or deletion of rows while the sheet has rows but no column, and
   row numbers that fit in u32. *)
Definition calm (crows : N) (p : sop) (d : N * N) : Prop :=
  let '(rows, cols) := d in
  match p with
  | WInsertRows _ n => n <= crows /\ (rows = 0 \/ 0 < cols)
  | WDeleteRows _ _ => rows = 0 \/ 0 < cols
  | _ => True
  end /\ fst (dims_step p d) <= U32_MAX.
Fixpoint calm_all (crows : N) (h : list sop) (d : N * N) : Prop :=
  match h with [] => True | p :: r => calm crows p d /\ calm_all crows r (dims_step p d) end.

(* The value of a cell as a user counts it: never written, a literal, the
   last result of a formula or spill, or left open.  A computed value over a
   literal leaves the cell open until the literal is taken out. *)
Inductive mark := MBlank | MLit (l : lit) | MComp (o : option lit) | MOpen.
Definition board := N -> N -> mark.
Definition says (m : mark) : option lit :=
  match m with MBlank => Some LEmpty | MLit l => Some l | MComp o => o | MOpen => None end.
Definition put (r c : N) (f : mark -> mark) (b : board) : board :=
  fun i j => if (i =? r) && (j =? c) then f (b i j) else b i j.
Definition drop_result (m : mark) : mark := match m with MComp _ => MComp None | m => m end.
Definition bstep (b : board) (p : sop) : board :=
  match p with
  | WValue r c v _ => put r c (fun _ => MLit (lit_of v)) b
  | WClear r c => put r c (fun m => match m with MLit _ | MOpen => MComp None | m => m end) b
  | WComputed r c v => put r c (fun m => match m with MLit _ | MOpen => MOpen | _ => MComp (Some (lit_of v)) end) b
  | WFormat _ _ _ | WCompactUser _ _ _ _ | WCompactComputed _ _ => b
  | WInsertRows a n => fun r c => if r <? a then b r c else if r <? a + n then MBlank else b (r - n) c
  | WDeleteRows a n => fun r c => if r <? a then b r c else b (r + n) c
  | WInsertCols a n => fun r c => if c <? a then b r c else if c <? a + n then MBlank else b r (c - n)
  | WDeleteCols a n => fun r c => if c <? a then b r c else b r (c + n)
  | WClearRows a => fun r c => if a <=? r then drop_result (b r c) else b r c
  | WClearCols a => fun r c => if a <=? c then drop_result (b r c) else b r c
  end.
