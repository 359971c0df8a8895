(** What regions, spans and changes mean, cell by cell. *)
From Verif Require Import Base Maps IntervalModel FpModel.

Open Scope N_scope.

(** The coordinates an axis range stands for, and the cells of a region. *)
Definition on (a : axis) (x : N) : Prop :=
  match a with
  | Pt p => x = p
  | Sp s e => s <= x <= e
  | Fr s => s <= x
  | To e => x <= e
  | All => True
  end.
Definition within (r : region) (c : cell) : Prop := csh c = sh r /\ on (rows r) (crow c) /\ on (cols r) (ccol c).
(** A cell whose coordinates are u32. *)
Definition ucell (c : cell) : Prop := crow c <= umax /\ ccol c <= umax.
(** Ranges that are not reversed and fit u32. *)
Definition ax_ok (a : axis) : Prop :=
  match a with
  | Pt p => p <= umax
  | Sp s e => s <= e /\ e <= umax
  | Fr s => s <= umax
  | To e => e <= umax
  | All => True
  end.
Definition rg_ok (r : region) : Prop := ax_ok (rows r) /\ ax_ok (cols r).
Definition bounded (r : region) : Prop := ax_bounded (rows r) = true /\ ax_bounded (cols r) = true.

(** The cells of a dirty domain of a producer with the given result region. *)
Definition dirty_cell (d : dirty) (result : region) (c : cell) : Prop :=
  match d with
  | Whole => within result c
  | Cells l => In c l
  | Regions l => exists r, In r l /\ within r c
  end.
Definition dirty_ok (d : dirty) : Prop :=
  match d with
  | Whole => True
  | Cells l => Forall ucell l
  | Regions l => Forall rg_ok l
  end.

(** The coordinate that a bound names for the placement at [x]. *)
Definition at_axis (p : proj) (x : N) : Z := match p with Rel off => (Z.of_N x + off)%Z | Abs i => Z.of_N i end.
Definition between (a b : Z) (y : N) : Prop := (Z.min a b <= Z.of_N y <= Z.max a b)%Z.
(** Offsets are i64, pinned coordinates u32. *)
Definition i64 (z : Z) : Prop := (i64min <= z <= i64max)%Z.
Definition pi64 (p : proj) : Prop := match p with Rel off => i64 off | Abs i => i <= umax end.
Definition rule_i64 (ru : rule) : Prop :=
  match ru with
  | ACell r c => pi64 r /\ pi64 c
  | ARange r0 r1 c0 c1 => pi64 r0 /\ pi64 r1 /\ pi64 c0 /\ pi64 c1
  | WCols c0 c1 => pi64 c0 /\ pi64 c1
  | WResult => True
  end.
(** Rules that read cell by cell, not whole columns. *)
Definition not_whole (ru : rule) : Prop := match ru with ACell _ _ | ARange _ _ _ _ => True | _ => False end.
(** The cells that the formula at [p] reads, by a rule (the sheet is the rule's user's). *)
Definition reads (ru : rule) (p y : cell) : Prop :=
  match ru with
  | ACell r c => Z.of_N (crow y) = at_axis r (crow p) /\ Z.of_N (ccol y) = at_axis c (ccol p)
  | ARange r0 r1 c0 c1 =>
      between (at_axis r0 (crow p)) (at_axis r1 (crow p)) (crow y) /\
      between (at_axis c0 (ccol p)) (at_axis c1 (ccol p)) (ccol y)
  | WCols c0 c1 => between (at_axis c0 (ccol p)) (at_axis c1 (ccol p)) (ccol y)
  | WResult => True
  end.

(** The cells that the formula at [p] reads, by a precedent of its template. *)
Definition ref_at (a : axref) (x : N) (z : Z) : Prop :=
  match a with
  | RelPl off => z = (Z.of_N x + off)%Z
  | AbsVc i => z = (Z.of_N i - 1)%Z
  | _ => False
  end.
Definition axis_reads (a b : axref) (x y : N) : Prop :=
  match a, b with
  | WholeAxis, WholeAxis => True
  | _, _ => exists u v, ref_at a x u /\ ref_at b x v /\ between u v y
  end.
Definition precedent_reads (pr : precedent) (p y : cell) : Prop :=
  match pr with
  | PCell s r c => s = Some (csh y) /\ ref_at r (crow p) (Z.of_N (crow y)) /\ ref_at c (ccol p) (Z.of_N (ccol y))
  | PRange s r0 r1 c0 c1 => s = Some (csh y) /\ axis_reads r0 r1 (crow p) (crow y) /\ axis_reads c0 c1 (ccol p) (ccol y)
  end.
(** Offsets are i64, absolute coordinates u32. *)
Definition ref_ok (a : axref) : Prop :=
  match a with RelPl off => (i64min <= off <= i64max)%Z | AbsVc i => i <= umax | _ => True end.
Definition precedent_ok (pr : precedent) : Prop :=
  match pr with
  | PCell _ r c => ref_ok r /\ ref_ok c
  | PRange _ r0 r1 c0 c1 => ref_ok r0 /\ ref_ok r1 /\ ref_ok c0 /\ ref_ok c1
  end.
Definition dom_ok (d : domain) : Prop :=
  match d with
  | RowRun _ r0 r1 c => r0 <= r1 <= umax /\ c <= umax
  | ColRun _ r c0 c1 => r <= umax /\ c0 <= c1 <= umax
  | RectDom _ r0 r1 c0 c1 => r0 <= r1 <= umax /\ c0 <= c1 <= umax
  end.
(** The cells of a domain. *)
Definition placed_at (d : domain) (p : cell) : Prop :=
  match d with
  | RowRun s r0 r1 c => csh p = s /\ r0 <= crow p <= r1 /\ ccol p = c
  | ColRun s r c0 c1 => csh p = s /\ crow p = r /\ c0 <= ccol p <= c1
  | RectDom s r0 r1 c0 c1 => csh p = s /\ r0 <= crow p <= r1 /\ c0 <= ccol p <= c1
  end.

(** The history of an index: the regions and values inserted since it was last cleared. *)
Inductive xop (T : Type) := XInsert (r : region) (v : T) | XClear.
Arguments XInsert {T}. Arguments XClear {T}.
Definition xstep {T} (x : rindex T) (o : xop T) : rindex T :=
  match o with XInsert r v => ri_insert r v x | XClear => ri_clear x end.
Definition xrun {T} (x : rindex T) (os : list (xop T)) : rindex T := fold_left xstep os x.
Definition xhist {T} (os : list (xop T)) : list (region * T) :=
  fold_left (fun h o => match o with XInsert r v => h ++ [(r, v)] | XClear => [] end) os [].
Definition xop_ok {T} (o : xop T) : Prop := match o with XInsert r _ => rg_ok r | XClear => True end.

(** Queries whose budget is limited are for these shapes: no open end, and not one
    whole row or one whole column. *)
Definition plain (a : axis) : bool := match a with Fr _ | To _ => false | _ => true end.
Definition supported (q : region) : bool :=
  plain (rows q) && plain (cols q)
  && negb (match ax_norm (rows q), ax_norm (cols q) with Pt _, All | All, Pt _ => true | _, _ => false end).

(** What a closure is about: which cells depend on which. *)
Definition depends (es : list rentry) (p y : cell) : Prop :=
  exists e, In e es /\ within (eresult e) p /\ within (eread e) y /\ reads (erule e) p y.
(** The index of reads built from entries. *)
Definition built (es : list rentry) : cindex := fold_left (fun x e => insert_read e x) es ci_empty.
(** Cells that are out of date when the cells of the regions [ch] changed. *)
Inductive stale (es : list rentry) (ch : list region) : cell -> Prop :=
| stale_read : forall p y, ucell p -> ucell y -> depends es p y -> (exists r, In r ch /\ within r y) -> stale es ch p
| stale_step : forall p y, ucell p -> depends es p y -> stale es ch y -> stale es ch p.
(** A cell that the work of a closure recomputes for a producer. *)
Definition worked (w : list (producer * dirty)) (result_of : producer -> option region) (c : producer) (p : cell) : Prop :=
  exists d r, mget N.eqb w c = Some d /\ result_of c = Some r /\ dirty_cell d r p.
(** Entries as the engine makes them: the reads of an accepted rule, with the producer's
    own result region. *)
Definition entry_ok (result_of : producer -> option region) (e : rentry) : Prop :=
  rg_ok (eread e) /\ rg_ok (eresult e) /\ result_of (consumer e) = Some (eresult e).
Definition entry_read (e : rentry) : Prop :=
  exists s rs, read_regions (erule e) s (eresult e) = Ok rs /\ In (eread e) rs.
(** Why a cell of a producer has to be recomputed. *)
Definition because (es : list rentry) (changed : list region) (c : producer) (p : cell) : Prop :=
  exists e y, In e es /\ consumer e = c /\ ucell y /\ within (eresult e) p /\ within (eread e) y /\ reads (erule e) p y /\
    ((exists r, In r changed /\ within r y) \/ stale es changed y).
