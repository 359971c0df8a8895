(** Structural edits of formula spans: what happens to a span, its formulas, its literals
    and its summary of reads when rows or columns are inserted or deleted.
    Models crates/formualizer-eval/src/formula_plane/structural_shift.rs:6-560,
    crates/formualizer-eval/src/engine/eval.rs:12491-12570 and 12827-14062, and
    crates/formualizer-eval/src/formula_plane/runtime.rs:112-285, 440-620, 1411-1511.

    Simplifications: a template is the list of its references with zero-based authored
    coordinates (the operators and functions around them are not touched by these edits)
    and its literals; every span has a read summary and a binding set, as the spans made by
    placement.rs have; the checks that can only turn a kept span into single cells (canonical
    labels, slot layouts, overlays that straddle a split) are left out; the whole-number
    literals Int and Number are one constructor, so the checks that a sum fits a float
    exactly are left out; u32 and i64 arithmetic is checked as in the code. *)
From Verif Require Import Base Maps IntervalModel FpModel.
From Verif Require RefModel.

(** StructuralOp, structural_shift.rs:7-28: [o_del] deletes, otherwise inserts; [o_rows]
    edits rows, otherwise columns. *)
Record sop := Op { o_del : bool; o_rows : bool; o_sh : N; o_at : N; o_n : N }.
(** AxisShiftCase, 31-37. *)
Inductive acase := OtherSheet | Below | Above (d : Z) | Straddles | Contained.
(** SpanDemoteReason, 68-80, and SpanShiftPlan, 40-66. *)
Inductive dreason := ReadStraddles | OriginStays | DeleteOverlaps | MixedReads.
Inductive plan :=
| NoOp
| Shift (dr dc odr odc : Z) (rewrite : bool)
| Split
| Demote (r : dreason)
| Remove.

Definition sat32 (a b : N) : N := N.min umax (a + b).

(** axis_shift_delta, 108-115. *)
Definition op_delta (op : sop) : Z * Z :=
  let d := if o_del op then (- Z.of_N (o_n op))%Z else Z.of_N (o_n op) in
  if o_rows op then (d, 0%Z) else (0%Z, d).

(** classify_axis, 117-148. *)
Definition classify_axis (op : sop) (a : axis) : acase :=
  let low := fst (ax_bounds a) in
  let high := snd (ax_bounds a) in
  if o_del op then
    let e := sat32 (o_at op) (o_n op) in
    if N.ltb high (o_at op) then Below
    else if N.leb e low then Above (- Z.of_N (o_n op))
    else if N.leb (o_at op) low && N.ltb high e then Contained
    else Straddles
  else if N.ltb high (o_at op) then Below
  else if N.leb (o_at op) low then Above (Z.of_N (o_n op))
  else Straddles.

(** classify_region, 150-159. *)
Definition op_axis (op : sop) (r : region) : axis := if o_rows op then rows r else cols r.
Definition classify (op : sop) (r : region) : acase :=
  if negb (N.eqb (sh r) (o_sh op)) then OtherSheet else classify_axis op (op_axis op r).

(** rule_axis_bound_kinds, 180-213: whether the rule has relative and absolute bounds on
    the axis of the edit. *)
Definition is_abs (p : proj) : bool := match p with Abs _ => true | Rel _ => false end.
Definition bkinds (l : list proj) : bool * bool := (existsb (fun p => negb (is_abs p)) l, existsb is_abs l).
Definition bound_kinds (ru : rule) (rw : bool) : bool * bool :=
  match ru, rw with
  | ACell r _, true => bkinds [r]
  | ACell _ c, false => bkinds [c]
  | ARange r0 r1 _ _, true => bkinds [r0; r1]
  | ARange _ _ c0 c1, false => bkinds [c0; c1]
  | WCols c0 c1, false => bkinds [c0; c1]
  | WCols _ _, true => (true, false)
  | WResult, _ => (true, false)
  end.

(** summary_has_displaced_absolute_read, 222-233. *)
Definition above (c : acase) : bool := match c with Above _ => true | _ => false end.
Definition displaced_absolute (deps : list dep) (op : sop) : bool :=
  existsb (fun dp => above (classify op (fst dp)) && snd (bound_kinds (snd dp) (o_rows op))) deps.

(** rule_relative_offsets_on_op_axis, 239-275. *)
Definition poffs (l : list proj) : list Z := flat_map (fun p => match p with Rel off => [off] | Abs _ => [] end) l.
Definition rel_offsets (ru : rule) (rw : bool) : option (list Z) :=
  match ru, rw with
  | ACell r _, true => Some (poffs [r])
  | ACell _ c, false => Some (poffs [c])
  | ARange r0 r1 _ _, true => Some (poffs [r0; r1])
  | ARange _ _ c0 c1, false => Some (poffs [c0; c1])
  | WCols c0 c1, false => Some (poffs [c0; c1])
  | WCols _ _, true => Some []
  | WResult, _ => None
  end.

(** rewrite_frame_is_sound, 304-356. *)
Definition frame_offset (op : sop) (origin0 : Z) (displaced : bool) (off : Z) : bool :=
  let a := (origin0 + off)%Z in
  let s := Z.of_N (o_at op) in
  let e := (s + Z.of_N (o_n op))%Z in
  if Z.ltb a 0 then false
  else if o_del op then
    if Z.leb s a && Z.ltb a e then false else Bool.eqb (Z.leb e a) displaced
  else Bool.eqb (Z.leb s a) displaced.
Definition frame_dep (op : sop) (origin0 : Z) (dp : dep) : bool :=
  match classify op (fst dp) with
  | Below => match rel_offsets (snd dp) (o_rows op) with Some l => forallb (frame_offset op origin0 false) l | None => false end
  | Above _ => match rel_offsets (snd dp) (o_rows op) with Some l => forallb (frame_offset op origin0 true) l | None => false end
  | _ => false
  end.
Definition frame_sound (op : sop) (deps : list dep) (orow ocol : N) : bool :=
  forallb (frame_dep op ((if o_rows op then Z.of_N orow else Z.of_N ocol) - 1)) deps.

(** classify_span_for_op, 358-474. *)
Record seen_reads := Seen { shifting_rel : bool; still_rel : bool; displaced_abs : bool }.
Fixpoint partition_reads (op : sop) (deps : list dep) (s : seen_reads) : option seen_reads :=
  match deps with
  | [] => Some s
  | dp :: l =>
      let k := bound_kinds (snd dp) (o_rows op) in
      match classify op (fst dp) with
      | OtherSheet | Below =>
          partition_reads op l (Seen (shifting_rel s) (still_rel s || fst k) (displaced_abs s))
      | Above _ =>
          partition_reads op l (Seen (shifting_rel s || fst k) (still_rel s) (displaced_abs s || snd k))
      | Straddles | Contained => None
      end
  end.
Definition plan_reads (op : sop) (deps : list dep) (dr dc : Z) : plan :=
  match partition_reads op deps (Seen false false false) with
  | None => Demote ReadStraddles
  | Some s =>
      if Z.eqb dr 0 && Z.eqb dc 0
      then if shifting_rel s || displaced_abs s then Demote OriginStays else NoOp
      else if displaced_abs s then Shift dr dc dr dc true
      else match shifting_rel s, still_rel s with
           | true, true => Demote MixedReads
           | true, false => Shift dr dc 0 0 false
           | false, _ => Shift dr dc dr dc false
           end
  end.
Definition classify_span (op : sop) (d : domain) (deps : list dep) : plan :=
  match classify op (of_domain d) with
  | OtherSheet | Below => plan_reads op deps 0 0
  | Above _ => plan_reads op deps (fst (op_delta op)) (snd (op_delta op))
  | Contained => Remove
  | Straddles => if o_del op then Demote DeleteOverlaps else Split
  end.

(** split_axis_at and split_domain_at, 476-560. *)
Definition split_axis (low high before : N) : option ((N * N) * (N * N)) :=
  if N.ltb low before && N.leb before high then Some ((low, before - 1), (before, high))%N else None.
Definition dsheet (d : domain) : N := match d with RowRun s _ _ _ | ColRun s _ _ _ | RectDom s _ _ _ _ => s end.
Definition split_domain (op : sop) (d : domain) : option (domain * domain) :=
  if negb (N.eqb (dsheet d) (o_sh op)) || o_del op then None
  else match d, o_rows op with
       | RowRun s r0 r1 c, true =>
           option_map (fun h => (RowRun s (fst (fst h)) (snd (fst h)) c, RowRun s (fst (snd h)) (snd (snd h)) c))
                      (split_axis r0 r1 (o_at op))
       | RectDom s r0 r1 c0 c1, true =>
           option_map (fun h => (RectDom s (fst (fst h)) (snd (fst h)) c0 c1, RectDom s (fst (snd h)) (snd (snd h)) c0 c1))
                      (split_axis r0 r1 (o_at op))
       | ColRun s r c0 c1, false =>
           option_map (fun h => (ColRun s r (fst (fst h)) (snd (fst h)), ColRun s r (fst (snd h)) (snd (snd h))))
                      (split_axis c0 c1 (o_at op))
       | RectDom s r0 r1 c0 c1, false =>
           option_map (fun h => (RectDom s r0 r1 (fst (fst h)) (snd (fst h)), RectDom s r0 r1 (fst (snd h)) (snd (snd h))))
                      (split_axis c0 c1 (o_at op))
       | _, _ => None
       end.

(** PlacementDomain::project_through_axis_shift, runtime.rs:238-284; checked_shift_u32,
    eval.rs:13012-13014, is the same function. *)
Definition shift32 (v : N) (d : Z) : option N :=
  let z := (Z.of_N v + d)%Z in if Z.leb 0 z && Z.leb z (Z.of_N umax) then Some (Z.to_N z) else None.
Definition dom_shift (dr dc : Z) (d : domain) : option domain :=
  match d with
  | RowRun s r0 r1 c =>
      match shift32 r0 dr, shift32 r1 dr, shift32 c dc with
      | Some r0, Some r1, Some c => Some (RowRun s r0 r1 c) | _, _, _ => None end
  | ColRun s r c0 c1 =>
      match shift32 r dr, shift32 c0 dc, shift32 c1 dc with
      | Some r, Some c0, Some c1 => Some (ColRun s r c0 c1) | _, _, _ => None end
  | RectDom s r0 r1 c0 c1 =>
      match shift32 r0 dr, shift32 r1 dr, shift32 c0 dc, shift32 c1 dc with
      | Some r0, Some r1, Some c0, Some c1 => Some (RectDom s r0 r1 c0 c1) | _, _, _, _ => None end
  end.

(** * Templates *)

(** An authored coordinate, zero-based, relative or absolute; a reference; the references of
    a formula with the one-based cell it was written for (TemplateRecord runtime.rs:729-742,
    SpanAstRelocation, and the anchor of a SpanBindingSet 481-492). *)
Inductive tb := TRel (i : N) | TAbs (i : N).
Inductive tref :=
| TCell (s : N) (r c : tb)
| TRange (s : N) (r0 r1 c0 c1 : tb)
| TCols (s : N) (c0 c1 : tb).
Record frame := Frame { f_refs : list tref; f_row : N; f_col : N }.
Definition tsheet (t : tref) : N := match t with TCell s _ _ | TRange s _ _ _ _ | TCols s _ _ => s end.

(** canonicalize_template: a relative bound is its distance from the origin. *)
Definition proj_of (origin : N) (b : tb) : proj :=
  match b with TRel i => Rel (Z.of_N i - (Z.of_N origin - 1)) | TAbs i => Abs i end.
Definition rule_of (fr : frame) (t : tref) : rule :=
  match t with
  | TCell _ r c => ACell (proj_of (f_row fr) r) (proj_of (f_col fr) c)
  | TRange _ r0 r1 c0 c1 => ARange (proj_of (f_row fr) r0) (proj_of (f_row fr) r1) (proj_of (f_col fr) c0) (proj_of (f_col fr) c1)
  | TCols _ c0 c1 => WCols (proj_of (f_col fr) c0) (proj_of (f_col fr) c1)
  end.
(** What a frame makes every placement read: the sheet and the rule of each reference. *)
Definition meaning (fr : frame) : list (N * rule) := map (fun t => (tsheet t, rule_of fr t)) (f_refs fr).

(** ReferenceAdjuster::new() (absolute references track the edit) on the references of the
    edited sheet, with the functions of [RefModel]; [None] is a deleted target. A range that
    was written with its corners reversed is left alone. *)
Definition tix (b : tb) : N := match b with TRel i | TAbs i => i end.
Definition tabs (b : tb) : bool := match b with TRel _ => false | TAbs _ => true end.
Definition tset (b : tb) (i : N) : tb := match b with TRel _ => TRel i | TAbs _ => TAbs i end.
Definition okind (op : sop) : RefModel.kind := if o_del op then RefModel.Delete else RefModel.Insert.
Definition adj1 (op : sop) (b : tb) : option tb :=
  option_map (tset b) (RefModel.adj_cell_index false (tabs b) (okind op) (o_at op) (o_n op) (tix b)).
Definition adj2 (op : sop) (a b : tb) : option (tb * tb) :=
  match RefModel.adj_bounds false (okind op) (o_at op) (o_n op)
          (Some (RefModel.mkB (tix a) (tabs a))) (Some (RefModel.mkB (tix b) (tabs b))) with
  | Some (Some i, Some j) => Some (tset a i, tset b j)
  | _ => None
  end.
Definition t_ordered (a b : tb) : bool := N.leb (tix a) (tix b).
Definition adj_ref (op : sop) (t : tref) : option tref :=
  if negb (N.eqb (tsheet t) (o_sh op)) then Some t
  else match t with
       | TCell s r c =>
           if o_rows op then option_map (fun r => TCell s r c) (adj1 op r)
           else option_map (fun c => TCell s r c) (adj1 op c)
       | TRange s r0 r1 c0 c1 =>
           if negb (t_ordered r0 r1 && t_ordered c0 c1) then Some t
           else if o_rows op then option_map (fun q => TRange s (fst q) (snd q) c0 c1) (adj2 op r0 r1)
           else option_map (fun q => TRange s r0 r1 (fst q) (snd q)) (adj2 op c0 c1)
       | TCols s c0 c1 =>
           if negb (t_ordered c0 c1) || o_rows op then Some t
           else option_map (fun q => TCols s (fst q) (snd q)) (adj2 op c0 c1)
       end.
Fixpoint adj_refs (op : sop) (l : list tref) : option (list tref) :=
  match l with
  | [] => Some []
  | t :: r => match adj_ref op t, adj_refs op r with Some t, Some r => Some (t :: r) | _, _ => None end
  end.

(** * Literals *)

(** LiteralValue of a slot: a whole number, or anything else. *)
Inductive lit := LInt (z : Z) | LOther (n : N).
(** LiteralBindingEncoding with the tables of SpanBindingSet, runtime.rs:458-492; the origins
    of the encodings are zero-based. *)
Inductive encoding :=
| Broadcast (b : list lit)
| Dictionary (ids : list N) (table : list (list lit))
| ByRow (origin : N) (base : list lit) (steps : list Z)
| ByCol (origin : N) (base : list lit) (steps : list Z)
| ByRect (orow ocol : N) (base : list lit) (rsteps csteps : list Z).

(** is_single_literal_binding, 495-511. *)
Definition zeros (l : list Z) : bool := forallb (fun z => Z.eqb z 0) l.
Definition single_binding (e : encoding) : bool :=
  match e with
  | Broadcast _ => true
  | Dictionary _ t => Nat.leb (length t) 1
  | ByRow _ _ st | ByCol _ _ st => zeros st
  | ByRect _ _ _ rs cs => zeros rs && zeros cs
  end.

(** PlacementDomain::ordinal_of, 167-231. *)
Definition ordinal (d : domain) (p : cell) : option N :=
  if negb (N.eqb (dsheet d) (csh p)) then None
  else match d with
       | RowRun _ r0 r1 c => if N.eqb (ccol p) c && btw r0 r1 (crow p) then Some (crow p - r0)%N else None
       | ColRun _ r c0 c1 => if N.eqb (crow p) r && btw c0 c1 (ccol p) then Some (ccol p - c0)%N else None
       | RectDom _ r0 r1 c0 c1 =>
           if btw r0 r1 (crow p) && btw c0 c1 (ccol p)
           then Some ((crow p - r0) * (c1 - c0 + 1) + (ccol p - c0))%N else None
       end.

(** affine_bindings, affine_rect_bindings, apply_integer_affine_step, 573-622. *)
Definition chk64 (z : Z) : option Z := if is_i64 z then Some z else None.
Definition affine_step (v : lit) (st delta extra : Z) : option lit :=
  obind (chk64 (st * delta)) (fun m => obind (chk64 (m + extra)) (fun off =>
    match v with LInt b => option_map LInt (chk64 (b + off)) | LOther _ => None end)).
Fixpoint affine_bindings (base : list lit) (steps : list Z) (delta : Z) : option (list lit) :=
  match base, steps with
  | [], [] => Some []
  | v :: b, st :: s =>
      obind (affine_step v st delta 0) (fun x => option_map (cons x) (affine_bindings b s delta))
  | _, _ => None
  end.
Fixpoint affine_rect (base : list lit) (rs cs : list Z) (dr dc : Z) : option (list lit) :=
  match base, rs, cs with
  | [], [], [] => Some []
  | v :: b, r :: rs, c :: cs =>
      obind (chk64 (c * dc)) (fun ex =>
      obind (affine_step v r dr ex) (fun x => option_map (cons x) (affine_rect b rs cs dr dc)))
  | _, _, _ => None
  end.

(** literal_bindings_for_placement, 513-570. *)
Definition bindings_for (e : encoding) (d : domain) (p : cell) : option (list lit) :=
  match e with
  | Broadcast b => option_map (fun _ => b) (ordinal d p)
  | Dictionary ids t =>
      obind (ordinal d p) (fun i => obind (nth_error ids (N.to_nat i)) (fun k => nth_error t (N.to_nat k)))
  | ByRow o b st => affine_bindings b st (Z.of_N (crow p) - Z.of_N o)
  | ByCol o b st => affine_bindings b st (Z.of_N (ccol p) - Z.of_N o)
  | ByRect orow ocol b rs cs => affine_rect b rs cs (Z.of_N (crow p) - Z.of_N orow) (Z.of_N (ccol p) - Z.of_N ocol)
  end.

(** * Spans *)

(** A span: its placements, its summary of reads, the template it shares with others, the
    frame its values are computed in (the binding set's, span_eval.rs:247-256), the frame its
    formulas are shown and demoted in ([ast_relocation]), and its literals. *)
Record span := Span {
  s_dom : domain;
  s_deps : list dep;
  s_template : frame;
  s_eval : frame;
  s_shown : frame;
  s_lits : encoding
}.
Inductive fate :=
| Kept
| Moved (sp : span)
| Halves (upper lower : span)
| Gone
| Demoted
| Failed.

(** shifted_read_summary, eval.rs:13027-13069. *)
Fixpoint shifted_deps (op : sop) (dr dc odr odc : Z) (deps : list dep) : option (list dep) :=
  match deps with
  | [] => Some []
  | (r, ru) :: l =>
      match (match classify op r with
             | OtherSheet | Below => Some r
             | Above _ => shift dr dc r
             | Straddles | Contained => None
             end), shifted_deps op dr dc odr odc l with
      | Some r', Some l' => Some ((r', rule_shift (- odr) (- odc) ru) :: l')
      | _, _ => None
      end
  end.

(** compact_axis_through_delete, 13071-13090, with u32 saturating and checked
    subtraction. *)
Definition csub (a b : N) : option N := if N.leb b a then Some (a - b)%N else None.
Definition compact_axis (low high start count : N) : option (N * N) :=
  let e := sat32 start count in
  if N.ltb high start || N.leb e low then Some (low - count, high - count)%N
  else match N.ltb low start, N.leb e high with
       | false, false => None
       | true, false => option_map (fun x => (low, x)) (csub start 1)
       | false, true => option_map (fun x => (start, x)) (csub high count)
       | true, true => option_map (fun x => (low, x)) (csub high count)
       end.
(** compact_domain_through_delete, 13092-13163. *)
Definition compact_domain (op : sop) (d : domain) : option domain :=
  if negb (o_del op) then None
  else match d, o_rows op with
       | RowRun s r0 r1 c, true =>
           option_map (fun q => RowRun s (fst q) (snd q) c) (compact_axis r0 r1 (o_at op) (o_n op))
       | RectDom s r0 r1 c0 c1, true =>
           option_map (fun q => RectDom s (fst q) (snd q) c0 c1) (compact_axis r0 r1 (o_at op) (o_n op))
       | ColRun s r c0 c1, false =>
           option_map (fun q => ColRun s r (fst q) (snd q)) (compact_axis c0 c1 (o_at op) (o_n op))
       | RectDom s r0 r1 c0 c1, false =>
           option_map (fun q => RectDom s r0 r1 (fst q) (snd q)) (compact_axis c0 c1 (o_at op) (o_n op))
       | _, _ => None
       end.
(** compact_axis_range_through_delete and compact_region_through_delete, 13165-13203. *)
Definition compact_range (a : axis) (start count : N) : option axis :=
  match a with
  | Pt p => option_map (fun q => Pt (fst q)) (compact_axis p p start count)
  | Sp l h => option_map (fun q => Sp (fst q) (snd q)) (compact_axis l h start count)
  | All => Some All
  | Fr _ | To _ => None
  end.
Definition compact_region (op : sop) (r : region) : option region :=
  if o_del op && N.eqb (sh r) (o_sh op)
  then if o_rows op then option_map (fun a => Rg (sh r) a (cols r)) (compact_range (rows r) (o_at op) (o_n op))
       else option_map (fun a => Rg (sh r) (rows r) a) (compact_range (cols r) (o_at op) (o_n op))
  else Some r.
(** compact_read_summary_through_delete, 13205-13241: the rules stay as they are. *)
Fixpoint compact_deps (op : sop) (deps : list dep) : option (list dep) :=
  match deps with
  | [] => Some []
  | (r, ru) :: l =>
      match (match classify op r with
             | OtherSheet | Below => Some r
             | Above _ => shift (fst (op_delta op)) (snd (op_delta op)) r
             | Straddles => compact_region op r
             | Contained => None
             end), compact_deps op l with
      | Some r', Some l' => Some ((r', ru) :: l')
      | _, _ => None
      end
  end.
(** origin_coord_through_delete and origin_through_delete, 13429-13470. *)
Definition origin_coord (op : sop) (origin : N) : option N :=
  obind (csub origin 1) (fun o0 =>
    if N.ltb o0 (o_at op) then Some origin
    else if N.leb (sat32 (o_at op) (o_n op)) o0 then Some (origin - o_n op)%N
    else None).
Definition origin_through (op : sop) (fr : frame) : option frame :=
  if negb (o_del op) then None
  else if o_rows op then option_map (fun o => Frame (f_refs fr) o (f_col fr)) (origin_coord op (f_row fr))
  else option_map (fun o => Frame (f_refs fr) (f_row fr) o) (origin_coord op (f_col fr)).

(** rederive_read_summary_for_result, 13250-13279. *)
Fixpoint rederive_deps (result : region) (deps : list dep) (acc : list dep) : option (list dep) :=
  match deps with
  | [] => Some acc
  | (r, ru) :: l =>
      match read_regions ru (sh r) result with
      | Ok rs => rederive_deps result l (append_unique dep_eqb acc (map (fun x => (x, ru)) rs))
      | _ => None
      end
  end.
(** from_formula_summary on the references of a frame. *)
Fixpoint derive (result : region) (m : list (N * rule)) (acc : list dep) : option (list dep) :=
  match m with
  | [] => Some acc
  | (s, ru) :: l =>
      match read_regions ru s result with
      | Ok rs => derive result l (append_unique dep_eqb acc (map (fun x => (x, ru)) rs))
      | _ => None
      end
  end.

Definition with_origin (fr : frame) (dr dc : Z) : option frame :=
  match shift32 (f_row fr) dr, shift32 (f_col fr) dc with
  | Some r, Some c => Some (Frame (f_refs fr) r c)
  | _, _ => None
  end.

(** The shift arm without a rewrite, 13589-13617 and 13773-13812, then 13858-13922:
    the values are computed and the formulas shown in the template's frame from here on
    ([replace_span_geometry], runtime.rs:1453-1477). *)
Definition do_shift (op : sop) (sp : span) (dr dc odr odc : Z) : fate :=
  match with_origin (s_template sp) odr odc, dom_shift dr dc (s_dom sp) with
  | Some fr, Some d =>
      match shifted_deps op dr dc odr odc (s_deps sp) with
      | Some deps => Moved (Span d deps fr fr fr (s_lits sp))
      | None => Failed
      end
  | _, _ => Failed
  end.
(** The rewrite arm, 13618-13772. *)
Definition do_rewrite (op : sop) (sp : span) (dr dc : Z) : fate :=
  match with_origin (s_template sp) dr dc, dom_shift dr dc (s_dom sp) with
  | Some fr, Some d =>
      if negb (frame_sound op (s_deps sp) (f_row (s_template sp)) (f_col (s_template sp))) then Demoted
      else match adj_refs op (f_refs (s_template sp)) with
           | None => Demoted
           | Some refs =>
               let fr' := Frame refs (f_row fr) (f_col fr) in
               match derive (of_domain d) (meaning fr') [] with
               | Some deps => Moved (Span d deps fr' fr' fr' (s_lits sp))
               | None => Demoted
               end
           end
  | _, _ => Failed
  end.
(** plan_span_split, 13287-13424, and its commit, 13930-14062: the lower half computes its
    values with the template's references at the shown frame's origin. *)
Definition do_split (op : sop) (sp : span) : fate :=
  if negb (single_binding (s_lits sp)) then Demoted
  else match split_domain op (s_dom sp) with
  | None => Demoted
  | Some (du, dl) =>
      match rederive_deps (of_domain du) (s_deps sp) [], rederive_deps (of_domain dl) (s_deps sp) [] with
      | Some depu, Some depl =>
          match classify_span op du depu, classify_span op dl depl with
          | NoOp, Shift dr dc odr odc false =>
              match with_origin (s_shown sp) odr odc, dom_shift dr dc dl, shifted_deps op dr dc odr odc depl with
              | Some shown, Some dl', Some depl' =>
                  let tm := Frame (f_refs (s_template sp)) (f_row shown) (f_col shown) in
                  Halves (Span du depu (s_template sp) (s_eval sp) (s_shown sp) (s_lits sp))
                         (Span dl' depl' tm tm shown (s_lits sp))
              | _, _, _ => Demoted
              end
          | _, _ => Demoted
          end
      | _, _ => Demoted
      end
  end.
(** The compaction of a span that a delete cuts, 13506-13572. *)
Definition do_compact (op : sop) (sp : span) : fate :=
  if negb (single_binding (s_lits sp)) || displaced_absolute (s_deps sp) op then Demoted
  else match compact_domain op (s_dom sp), compact_deps op (s_deps sp), origin_through op (s_template sp) with
       | Some d, Some deps, Some fr => Moved (Span d deps fr fr fr (s_lits sp))
       | _, _, _ => Demoted
       end.
(** The decision for one span, 13498-13835. *)
Definition edit_span (op : sop) (sp : span) : fate :=
  match classify_span op (s_dom sp) (s_deps sp) with
  | NoOp => Kept
  | Remove => Gone
  | Demote DeleteOverlaps => do_compact op sp
  | Demote _ => Demoted
  | Split => do_split op sp
  | Shift dr dc odr odc false => do_shift op sp dr dc odr odc
  | Shift dr dc _ _ true => do_rewrite op sp dr dc
  end.

(** The region whose spans are looked at, 12491-12497: everything from the edited row or
    column on. *)
Definition affected (op : sop) : region :=
  if o_rows op then Rg (o_sh op) (Fr (o_at op)) All else Rg (o_sh op) All (Fr (o_at op)).
(** structural_dirty_region_for_domain, 12498-12570. *)
Definition dirty_region (op : sop) (d : domain) : option region :=
  match d with
  | RowRun s r0 r1 _ | RectDom s r0 r1 _ _ =>
      let c := match d with RowRun _ _ _ c => (c, c) | RectDom _ _ _ c0 c1 => (c0, c1) | ColRun _ _ c0 c1 => (c0, c1) end in
      if negb (N.eqb s (o_sh op)) then None
      else if o_rows op
           then if N.leb (o_at op) r1 then Some (Rg s (Sp (N.max r0 (o_at op)) r1) (Sp (fst c) (snd c))) else None
           else if N.leb (o_at op) (snd c) then Some (Rg s (Sp r0 r1) (Sp (N.max (fst c) (o_at op)) (snd c))) else None
  | ColRun s r c0 c1 =>
      if negb (N.eqb s (o_sh op)) then None
      else if o_rows op
           then if N.leb (o_at op) r then Some (Rg s (Sp (N.max r (o_at op)) r) (Sp c0 c1)) else None
           else if N.leb (o_at op) c1 then Some (Rg s (Sp r r) (Sp (N.max c0 (o_at op)) c1)) else None
  end.
