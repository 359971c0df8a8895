(** What an insertion or deletion of rows or columns does to cells, and what it means that a
    formula follows the cells it reads. *)
From Verif Require Import Base Maps IntervalModel FpModel FpSpec SsModel.

Open Scope N_scope.

(** Where a row (column) goes: [None] when it is deleted. *)
Definition goes1 (op : sop) (i : N) : option N :=
  if i <? o_at op then Some i
  else if o_del op then (if i <? o_at op + o_n op then None else Some (i - o_n op))
  else Some (i + o_n op).
(** Where a cell goes. *)
Definition goes (op : sop) (y : cell) : option cell :=
  if csh y =? o_sh op
  then if o_rows op then option_map (fun r => Cl (csh y) r (ccol y)) (goes1 op (crow y))
       else option_map (fun c => Cl (csh y) (crow y) c) (goes1 op (ccol y))
  else Some y.

(** The sheets hold u32 rows and columns, and the edit stays on them. *)
Definition op_ok (op : sop) : Prop := 0 < o_n op /\ o_at op + o_n op <= umax.

(** What a span makes the cell [p] read by one of its references: the cells [y] of the
    sheet. *)
Definition reads_by (sr : N * rule) (p y : cell) : Prop := csh y = fst sr /\ reads (snd sr) p y.

(** The reference [sr'] of the formula now at [p'] is the reference [sr] of the formula that
    was at [p], after the edit: it reads where the cells that were read have gone, and, unless
    it reads whole columns, nothing that the edit has brought in. *)
Definition follows (op : sop) (p p' : cell) (sr sr' : N * rule) : Prop :=
  fst sr' = fst sr
  /\ (forall y y', ucell y -> goes op y = Some y' -> (reads_by sr p y <-> reads_by sr' p' y'))
  /\ (not_whole (snd sr) -> forall y', ucell y' -> reads_by sr' p' y' -> exists y, ucell y /\ goes op y = Some y').
(** A whole formula: reference by reference. *)
Definition formula_follows (op : sop) (p p' : cell) (m m' : list (N * rule)) : Prop := Forall2 (follows op p p') m m'.

(** The frames of a span agree: its values are computed from the formulas that it shows. *)
Definition agree (sp : span) : Prop :=
  meaning (s_eval sp) = meaning (s_template sp) /\ meaning (s_shown sp) = meaning (s_template sp).

(** The coordinates of a bound are those of a cell. *)
Definition lands1 (a : proj) (x : N) : Prop := (0 <= at_axis a x <= Z.of_N umax)%Z.
Definition lands (ru : rule) (p : cell) : Prop :=
  match ru with
  | ACell r c => lands1 r (crow p) /\ lands1 c (ccol p)
  | ARange r0 r1 c0 c1 => lands1 r0 (crow p) /\ lands1 r1 (crow p) /\ lands1 c0 (ccol p) /\ lands1 c1 (ccol p)
  | WCols c0 c1 => lands1 c0 (ccol p) /\ lands1 c1 (ccol p)
  | WResult => True
  end.

(** The summary of reads is what the placements read: nothing is missing, nothing is made
    up. *)
Definition covered (deps : list dep) (d : domain) (sr : N * rule) : Prop :=
  match snd sr with
  | WCols _ _ => forall p y, placed_at d p -> ucell y -> reads_by sr p y -> exists r, In (r, snd sr) deps /\ rows r = All /\ within r y
  | _ => exists r, In (r, snd sr) deps /\ sh r = fst sr
                   /\ forall p y, placed_at d p -> ucell y -> reads_by sr p y -> within r y
  end.
Definition shaped (dp : dep) : Prop :=
  match snd dp with
  | WCols _ _ => rows (fst dp) = All /\ ax_bounded (cols (fst dp)) = true
  | _ => bounded (fst dp)
  end.
Definition grounded (m : list (N * rule)) (d : domain) (dp : dep) : Prop :=
  rg_ok (fst dp) /\ shaped dp /\ In (sh (fst dp), snd dp) m
  /\ forall y, ucell y -> within (fst dp) y -> exists p, placed_at d p /\ reads (snd dp) p y.
Definition described (m : list (N * rule)) (d : domain) (deps : list dep) : Prop :=
  Forall (covered deps d) m /\ Forall (grounded m d) deps
  /\ Forall (fun sr => forall p, placed_at d p -> lands (snd sr) p) m.

(** A template: coordinates and origin are u32, and ranges are written top left first. *)
Definition tref_ok (t : tref) : Prop :=
  match t with
  | TCell _ r c => tix r <= umax /\ tix c <= umax
  | TRange _ r0 r1 c0 c1 => tix r0 <= tix r1 <= umax /\ tix c0 <= tix c1 <= umax
  | TCols _ c0 c1 => tix c0 <= tix c1 <= umax
  end.
Definition frame_ok (fr : frame) : Prop := Forall tref_ok (f_refs fr) /\ f_row fr <= umax /\ f_col fr <= umax.

(** A span in good order. *)
Definition sound (sp : span) : Prop :=
  dom_ok (s_dom sp) /\ frame_ok (s_template sp) /\ (agree sp /\ frame_ok (s_shown sp))
  /\ described (meaning (s_template sp)) (s_dom sp) (s_deps sp).

(** An insertion does not push anything that the span holds, reads or has written down off the sheet. *)
Definition opx (op : sop) (y : cell) : N := if o_rows op then crow y else ccol y.
Definition tmax (op : sop) (t : tref) : N :=
  match t with
  | TCell _ r c => if o_rows op then tix r else tix c
  | TRange _ _ r1 _ c1 => if o_rows op then tix r1 else tix c1
  | TCols _ _ c1 => if o_rows op then 0 else tix c1
  end.
Definition roomy (op : sop) (sp : span) : Prop :=
  o_del op = true \/
  ((forall p, placed_at (s_dom sp) p -> opx op p + o_n op <= umax)
   /\ (forall r ru, In (r, ru) (s_deps sp) -> ax_bounded (op_axis op r) = true -> snd (ax_bounds (op_axis op r)) + o_n op <= umax)
   /\ Forall (fun t => tmax op t + o_n op <= umax) (f_refs (s_template sp))).


(** A span that has become another one, or stayed as it is: its cells are those of before at
    their new places, and each formula has followed the cells it reads. *)
Definition carries (op : sop) (sp sp' : span) : Prop :=
  (forall p', placed_at (s_dom sp') p' <-> exists p, placed_at (s_dom sp) p /\ goes op p = Some p')
  /\ forall p p', placed_at (s_dom sp) p -> goes op p = Some p' ->
       formula_follows op p p' (meaning (s_eval sp)) (meaning (s_eval sp')).
(** A span that has become two: every cell is in the one or the other. *)
Definition carries2 (op : sop) (sp up lo : span) : Prop :=
  (forall p', placed_at (s_dom up) p' \/ placed_at (s_dom lo) p' <-> exists p, placed_at (s_dom sp) p /\ goes op p = Some p')
  /\ (forall p', ~ (placed_at (s_dom up) p' /\ placed_at (s_dom lo) p'))
  /\ forall p p', placed_at (s_dom sp) p -> goes op p = Some p' ->
       (placed_at (s_dom up) p' -> formula_follows op p p' (meaning (s_eval sp)) (meaning (s_eval up)))
       /\ (placed_at (s_dom lo) p' -> formula_follows op p p' (meaning (s_eval sp)) (meaning (s_eval lo))).

(** The bounds of a rule along rows or columns. *)
Definition along (rw : bool) (ru : rule) : list proj :=
  match ru, rw with
  | ACell r _, true => [r]
  | ACell _ c, false => [c]
  | ARange r0 r1 _ _, true => [r0; r1]
  | ARange _ _ c0 c1, false => [c0; c1]
  | WCols c0 c1, false => [c0; c1]
  | _, _ => []
  end.
(** Reads that a deletion does not disturb: on the edited sheet those of the cell's own row
    (column) and of fixed ones before the deleted; on other sheets fixed ones. *)
Definition in_line (op : sop) (s : N) (q : proj) : Prop :=
  match q with
  | Rel off => s = o_sh op /\ off = 0%Z
  | Abs i => s = o_sh op -> i < o_at op
  end.
Definition aligned (op : sop) (sp : span) : Prop :=
  Forall (fun sr => Forall (in_line op (fst sr)) (along (o_rows op) (snd sr))) (meaning (s_template sp))
  /\ (if o_rows op then f_row (s_template sp) else f_col (s_template sp)) <= o_at op.
(** The template of a span was written for the cell whose formula it shows. *)
Definition own_origin (sp : span) : Prop := f_row (s_shown sp) = f_row (s_template sp) /\ f_col (s_shown sp) = f_col (s_template sp).

(** A deletion takes some of the span's cells and leaves others. *)
Definition cut (op : sop) (sp : span) : Prop :=
  (exists p, placed_at (s_dom sp) p /\ goes op p = None) /\ (exists p, placed_at (s_dom sp) p /\ goes op p <> None).
(** The edits that the claims about whole histories are for. *)
Definition smooth (op : sop) (sp : span) : Prop := op_ok op /\ roomy op sp /\ (cut op sp -> aligned op sp).
(** What a span becomes: itself, its moved self, or one of its halves. *)
Definition becomes (op : sop) (sp sp' : span) : Prop :=
  match edit_span op sp with
  | Kept => sp' = sp
  | Moved s => sp' = s
  | Halves up lo => sp' = up \/ sp' = lo
  | Gone | Demoted | Failed => False
  end.
Inductive life : list sop -> span -> span -> Prop :=
| life_end : forall sp, life [] sp sp
| life_edit : forall op l sp sp1 sp', smooth op sp -> becomes op sp sp1 -> life l sp1 sp' -> life (op :: l) sp sp'.
(** Where a cell ends up after some edits. *)
Fixpoint travels (l : list sop) (y y' : cell) : Prop :=
  match l with
  | [] => y' = y
  | op :: l => exists z, goes op y = Some z /\ ucell z /\ travels l z y'
  end.

(** The motion of a region: nothing of it moves, all of it by one distance, all of it is
    deleted. *)
Definition stays (op : sop) (r : region) : Prop := forall y, ucell y -> within r y -> goes op y = Some y.
Definition moves_by (op : sop) (d : Z) (r : region) : Prop :=
  forall y, ucell y -> within r y -> exists y', goes op y = Some y'
    /\ (Z.of_N (crow y') = Z.of_N (crow y) + if o_rows op then d else 0)%Z
    /\ (Z.of_N (ccol y') = Z.of_N (ccol y) + if o_rows op then 0 else d)%Z.
Definition deleted (op : sop) (r : region) : Prop := forall y, ucell y -> within r y -> goes op y = None.

(** The literals of a placement. *)
Definition literals (sp : span) (p : cell) : option (list lit) := bindings_for (s_lits sp) (s_dom sp) p.
(** The identifiers of a dictionary are those of its table, one for each placement. *)
Definition lits_ok (sp : span) : Prop :=
  match s_lits sp with
  | Dictionary ids t =>
      Forall (fun k => k < N.of_nat (length t)) ids
      /\ forall p, placed_at (s_dom sp) p -> exists i, ordinal (s_dom sp) p = Some i /\ i < N.of_nat (length ids)
  | _ => True
  end.
(** Literals that are not computed from the place of the cell. *)
Definition unsloped (e : encoding) : bool :=
  match e with
  | Broadcast _ | Dictionary _ _ => true
  | ByRow _ _ st | ByCol _ _ st => zeros st
  | ByRect _ _ _ rs cs => zeros rs && zeros cs
  end.
