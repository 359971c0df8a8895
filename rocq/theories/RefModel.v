(** Reference adjustment under structural edits, copies and moves:
    [crates/formualizer-eval/src/engine/graph/editor/reference_adjuster.rs],
    [crates/formualizer-parse/src/parser.rs:493-551] ([to_sheet_ref_lossy]),
    [crates/formualizer-common/src/address.rs:443-465] ([from_parts]) and
    [crates/formualizer-eval/src/engine/graph/names.rs:50-117].

    Simplifications.  The display-only fields [original], [source_token] and
    [contains_volatile] of a syntax node are dropped.  [u32] additions wrap as in a
    release build; [i32] additions are taken in Z (they overflow only for indices far
    outside the sheet).  The registry lookup [SheetRegistry::get_id] is the parameter
    [get_id]. *)
From Verif Require Import Base Maps.
Open Scope N_scope.

(** [parser.rs: ReferenceType].  Three-dimensional, external, table and named
    references are never touched by any adjuster; they are told apart by a tag. *)
Record rcell := mkCell { c_sheet : option text; c_row : N; c_col : N; c_rabs : bool; c_cabs : bool }.
Record rrange := mkRange {
  r_sheet : option text;
  r_sr : option N; r_sc : option N; r_er : option N; r_ec : option N;
  r_sra : bool; r_sca : bool; r_era : bool; r_eca : bool }.
Inductive refty := RCell (c : rcell) | RRange (r : rrange) | ROther (tag : N).

(** [parser.rs: ASTNodeType].  Literals other than the #REF! error, operators and function
    names are tags. *)
Inductive lit := LRef | LVal (tag : N).
Inductive ast :=
| ALit (l : lit)
| AOmitted
| ARef (r : refty)
| AUnary (op : N) (e : ast)
| ABinary (op : N) (l r : ast)
| AFunction (name : N) (args : list ast)
| ACall (callee : ast) (args : list ast)
| AArray (rows : list (list ast)).

Definition ROW_MAX : N := 1048575.
Definition COL_MAX : N := 16383.

(** [u32 + u32] (release build). *)
Definition addw (a b : N) : N := (a + b) mod U32.

(** [coord.rs: RelativeCoord::new]: the assertions. *)
Definition coord_fits (row col : N) : bool := (row <=? ROW_MAX) && (col <=? COL_MAX).

(** [reference_adjuster.rs: ShiftOperation]. *)
Inductive axis := Rows | Cols.
Inductive kind := Insert | Delete.
Record shift_op := mkOp { o_axis : axis; o_kind : kind; o_sheet : N; o_at : N; o_count : N }.

(** [address.rs: AxisBound]. *)
Record bound := mkB { b_idx : N; b_abs : bool }.

(** [parser.rs:493-551 to_sheet_ref_lossy]: 0-based coordinates; [None] for a zero
    index; [RelativeCoord::new] panics on a cell outside the sheet. *)
Definition pred1 (n : N) : option N := if n =? 0 then None else Some (n - 1).

Definition bound_of (o : option N) (a : bool) : option (option bound) :=
  match o with
  | None => Some None
  | Some v => match pred1 v with Some i => Some (Some (mkB i a)) | None => None end
  end.

(** [address.rs: from_parts]: both axes ordered when bounded. *)
Definition ordered_b (s e : option bound) : bool :=
  match s, e with Some s, Some e => b_idx s <=? b_idx e | _, _ => true end.

Definition range_bounds (r : rrange)
  : option (option bound * option bound * option bound * option bound) :=
  match bound_of (r_sr r) (r_sra r), bound_of (r_sc r) (r_sca r),
        bound_of (r_er r) (r_era r), bound_of (r_ec r) (r_eca r) with
  | Some sr, Some sc, Some er, Some ec =>
      if ordered_b sr er && ordered_b sc ec then Some (sr, sc, er, ec) else None
  | _, _, _, _ => None
  end.

Inductive cell0 := NoCell | Cell0 (row col : N) | CellPanic.
Definition cell_coords (c : rcell) : cell0 :=
  match pred1 (c_row c), pred1 (c_col c) with
  | Some r, Some k => if coord_fits r k then Cell0 r k else CellPanic
  | _, _ => NoCell
  end.

(** [AbsShiftPolicy]: [true] is [Pin], [false] is [Track]. *)
Definition policy := bool.

(** The index of a cell along the axis of the operation
    ([adjust_cell_ref_with_policy], lines 299-390): [None] means deleted. *)
Definition adj_cell_index (p : policy) (abs : bool) (k : kind) (at_ count i : N) : option N :=
  match k with
  | Insert => if (p && abs) || (i <? at_) then Some i else Some (addw i count)
  | Delete =>
      if p && abs then Some i
      else if (at_ <=? i) && (i <? addw at_ count) then None
      else if addw at_ count <=? i then Some (i - count)
      else Some i
  end.

(** [adjust_cell_ref_with_policy] on the coordinates of a cell of the edited sheet:
    [Ok None] is "deleted". *)
Definition adj_cell (p : policy) (op : shift_op) (rabs cabs : bool) (row col : N)
  : res unit (option (N * N)) :=
  match o_axis op with
  | Rows =>
      match adj_cell_index p rabs (o_kind op) (o_at op) (o_count op) row with
      | None => Ok None
      | Some r => if coord_fits r col then Ok (Some (r, col)) else Panic
      end
  | Cols =>
      match adj_cell_index p cabs (o_kind op) (o_at op) (o_count op) col with
      | None => Ok None
      | Some c => if coord_fits row c then Ok (Some (row, c)) else Panic
      end
  end.

(** [adjust_insert], lines 459-467. *)
Definition adj_insert (p : policy) (b : bound) (before count : N) : N :=
  if p && b_abs b then b_idx b
  else if before <=? b_idx b then addw (b_idx b) count
  else b_idx b.

(** [adjust_delete], lines 469-479. *)
Definition adj_delete (p : policy) (idx : N) (abs : bool) (start count : N) : N :=
  if p && abs then idx
  else if addw start count <=? idx then idx - count
  else if start <=? idx then start
  else idx.

(** The two bounds of a range along the axis of the operation, lines 481-531 and
    533-586: [None] means invalidated. *)
Definition adj_bounds (p : policy) (k : kind) (at_ count : N) (s e : option bound)
  : option (option N * option N) :=
  match k with
  | Insert => Some (option_map (fun b => adj_insert p b at_ count) s,
                    option_map (fun b => adj_insert p b at_ count) e)
  | Delete =>
      match s, e with
      | Some rs, Some re =>
          if negb p || (negb (b_abs rs) && negb (b_abs re)) then
            let s := b_idx rs in
            let e := b_idx re in
            if (e <? at_) || (addw at_ count <=? s) then
              Some (Some (if addw at_ count <=? s then s - count else s),
                    Some (if addw at_ count <=? e then e - count else e))
            else if (at_ <=? s) && (e <? addw at_ count) then None
            else Some (Some (if s <? at_ then s else at_),
                       Some (if addw at_ count <=? e then e - count else at_ - 1))
          else Some (Some (adj_delete p (b_idx rs) (b_abs rs) at_ count),
                     Some (adj_delete p (b_idx re) (b_abs re) at_ count))
      | _, _ => Some (option_map (fun b => adj_delete p (b_idx b) (b_abs b) at_ count) s,
                      option_map (fun b => adj_delete p (b_idx b) (b_abs b) at_ count) e)
      end
  end.

Inductive adjustment := AdjRef (r : refty) | Invalidated.

Definition succ_o (o : option N) : option N := option_map (fun i => addw i 1) o.
Definition idx_o (o : option bound) : option N := option_map b_idx o.

(** The range branch of [adjust_reference], lines 440-597. *)
Definition adj_range (p : policy) (op : shift_op) (r : rrange) : adjustment :=
  match range_bounds r with
  | None => AdjRef (RRange r)
  | Some (sr, sc, er, ec) =>
      let k := o_kind op in
      let rows := match o_axis op with
                  | Rows => adj_bounds p k (o_at op) (o_count op) sr er
                  | Cols => Some (idx_o sr, idx_o er)
                  end in
      match rows with
      | None => Invalidated
      | Some (sr', er') =>
          let cols := match o_axis op with
                      | Cols => adj_bounds p k (o_at op) (o_count op) sc ec
                      | Rows => Some (idx_o sc, idx_o ec)
                      end in
          match cols with
          | None => Invalidated
          | Some (sc', ec') =>
              AdjRef (RRange (mkRange (r_sheet r) (succ_o sr') (succ_o sc') (succ_o er') (succ_o ec')
                                      (r_sra r) (r_sca r) (r_era r) (r_eca r)))
          end
      end
  end.

(** Rust [==] on references. *)
Definition otext_eqb (a b : option text) : bool :=
  match a, b with Some x, Some y => text_eqb x y | None, None => true | _, _ => false end.
Definition on_eqb (a b : option N) : bool :=
  match a, b with Some x, Some y => x =? y | None, None => true | _, _ => false end.
Definition refty_eqb (a b : refty) : bool :=
  match a, b with
  | RCell x, RCell y =>
      otext_eqb (c_sheet x) (c_sheet y) && (c_row x =? c_row y) && (c_col x =? c_col y)
      && eqb (c_rabs x) (c_rabs y) && eqb (c_cabs x) (c_cabs y)
  | RRange x, RRange y =>
      otext_eqb (r_sheet x) (r_sheet y)
      && on_eqb (r_sr x) (r_sr y) && on_eqb (r_sc x) (r_sc y)
      && on_eqb (r_er x) (r_er y) && on_eqb (r_ec x) (r_ec y)
      && eqb (r_sra x) (r_sra y) && eqb (r_sca x) (r_sca y)
      && eqb (r_era x) (r_era y) && eqb (r_eca x) (r_eca y)
  | ROther x, ROther y => x =? y
  | _, _ => false
  end.

Section Context.
  Variable get_id : text -> option N.

  (** [ReferenceContext::reference_sheet_id]. *)
  Definition reference_sheet_id (formula_sheet : N) (sheet : option text) : option N :=
    match sheet with Some name => get_id name | None => Some formula_sheet end.

  (** [adjust_reference], lines 396-597; [ctx] is the formula's sheet, [None] for the
      context-free entry points. *)
  Definition other_sheet (op : shift_op) (ctx : option N) (sheet : option text) : bool :=
    match ctx with
    | None => false
    | Some f => match reference_sheet_id f sheet with
                | Some s => negb (s =? o_sheet op)
                | None => true
                end
    end.

  Definition adj_reference (p : policy) (op : shift_op) (ctx : option N) (r : refty)
    : res unit adjustment :=
    match r with
    | RCell c =>
        if other_sheet op ctx (c_sheet c) then Ok (AdjRef r)
        else match cell_coords c with
             | NoCell => Ok (AdjRef r)
             | CellPanic => Panic
             | Cell0 row col =>
                 rbind (adj_cell p op (c_rabs c) (c_cabs c) row col) (fun o =>
                   match o with
                   | None => Ok Invalidated
                   | Some (row', col') =>
                       Ok (AdjRef (RCell (mkCell (c_sheet c) (addw row' 1) (addw col' 1)
                                                 (c_rabs c) (c_cabs c))))
                   end)
             end
    | RRange g => if other_sheet op ctx (r_sheet g) then Ok (AdjRef r) else Ok (adj_range p op g)
    | ROther _ => Ok (AdjRef r)
    end.

  (** [adjust_ast_if_changed_inner] and [adjust_children], lines 173-291. *)
  Definition or_old (o : option ast) (old : ast) : ast := match o with Some a => a | None => old end.

  Section Children.
    Variable adj : ast -> res unit (option ast).
    Fixpoint adj_children (l : list ast) : res unit (list ast * bool) :=
      match l with
      | [] => Ok ([], false)
      | x :: xs =>
          rbind (adj x) (fun o =>
          rbind (adj_children xs) (fun '(ys, ch) =>
            match o with Some y => Ok (y :: ys, true) | None => Ok (x :: ys, ch) end))
      end.
    Fixpoint adj_rows (l : list (list ast)) : res unit (list (list ast) * bool) :=
      match l with
      | [] => Ok ([], false)
      | r :: rs =>
          rbind (adj_children r) (fun '(r', c1) =>
          rbind (adj_rows rs) (fun '(rs', c2) => Ok (r' :: rs', c1 || c2)))
      end.
  End Children.

  Fixpoint adj_inner (p : policy) (op : shift_op) (ctx : option N) (a : ast) {struct a}
    : res unit (option ast) :=
    match a with
    | ARef r =>
        rbind (adj_reference p op ctx r) (fun d =>
          match d with
          | AdjRef r' => if refty_eqb r' r then Ok None else Ok (Some (ARef r'))
          | Invalidated => Ok (Some (ALit LRef))
          end)
    | ABinary o l r =>
        rbind (adj_inner p op ctx l) (fun l' =>
        rbind (adj_inner p op ctx r) (fun r' =>
          match l', r' with
          | None, None => Ok None
          | _, _ => Ok (Some (ABinary o (or_old l' l) (or_old r' r)))
          end))
    | AUnary o e =>
        rbind (adj_inner p op ctx e) (fun e' =>
          match e' with None => Ok None | Some e' => Ok (Some (AUnary o e')) end)
    | AFunction f args =>
        rbind (adj_children (adj_inner p op ctx) args) (fun '(args', ch) =>
          if ch then Ok (Some (AFunction f args')) else Ok None)
    | ACall callee args =>
        rbind (adj_inner p op ctx callee) (fun c' =>
        rbind (adj_children (adj_inner p op ctx) args) (fun '(args', ch) =>
          match c', ch with
          | None, false => Ok None
          | _, _ => Ok (Some (ACall (or_old c' callee) args'))
          end))
    | AArray rows =>
        rbind (adj_rows (adj_inner p op ctx) rows) (fun '(rows', ch) =>
          if ch then Ok (Some (AArray rows')) else Ok None)
    | ALit _ | AOmitted => Ok None
    end.

  (** [adjust_ast_with_policy_in_context] and [adjust_ast_if_changed_in_context]
      (formulas use the [Track] policy). *)
  Definition adjust_ast_if_changed (op : shift_op) (formula_sheet : N) (a : ast)
    : res unit (option ast) := adj_inner false op (Some formula_sheet) a.
  Definition adjust_ast (op : shift_op) (formula_sheet : N) (a : ast) : res unit ast :=
    rbind (adjust_ast_if_changed op formula_sheet a) (fun o => Ok (or_old o a)).

  (** * Named definitions ([names.rs:50-117]) *)
  Record cref := mkRef { k_sheet : N; k_row : N; k_col : N; k_rabs : bool; k_cabs : bool }.
  Inductive named := NCell (c : cref) | NRange (s e : cref) | NLiteral (tag : N) | NFormula (a : ast).

  (** [adjust_cell_ref_with_policy] on a bound cell. *)
  Definition adj_cref (op : shift_op) (c : cref) : res unit (option cref) :=
    if k_sheet c =? o_sheet op then
      rbind (adj_cell false op (k_rabs c) (k_cabs c) (k_row c) (k_col c)) (fun o =>
        match o with
        | None => Ok None
        | Some (r, k) => Ok (Some (mkRef (k_sheet c) r k (k_rabs c) (k_cabs c)))
        end)
    else Ok (Some c).

  Definition adjust_named (op : shift_op) (formula_sheet : N) (d : named) : res unit named :=
    match d with
    | NCell c => rbind (adj_cref op c) (fun o =>
                   Ok (match o with Some c' => NCell c' | None => NFormula (ALit LRef) end))
    | NRange s e => rbind (adj_cref op s) (fun os =>
                    rbind (adj_cref op e) (fun oe =>
                      Ok (match os, oe with
                          | Some s', Some e' => NRange s' e'
                          | _, _ => NFormula (ALit LRef)
                          end)))
    | NLiteral t => Ok (NLiteral t)
    | NFormula a => rbind (adjust_ast op formula_sheet a) (fun a' => Ok (NFormula a'))
    end.
End Context.

(** * Copying ([RelativeReferenceAdjuster], lines 608-741) *)
Definition shift0 (abs : bool) (i : N) (off : Z) : N :=
  if abs then i else Z.to_N (Z.max (Z.of_N i + off) 0).

Definition rel_reference (ro co : Z) (r : refty) : res unit refty :=
  match r with
  | RCell c =>
      match cell_coords c with
      | NoCell => Ok r
      | CellPanic => Panic
      | Cell0 row col =>
          Ok (RCell (mkCell (c_sheet c) (addw (shift0 (c_rabs c) row ro) 1)
                            (addw (shift0 (c_cabs c) col co) 1) (c_rabs c) (c_cabs c)))
      end
  | RRange g =>
      match range_bounds g with
      | None => Ok r
      | Some (sr, sc, er, ec) =>
          let sh off o := option_map (fun b => addw (shift0 (b_abs b) (b_idx b) off) 1) o in
          let ab o := match o with Some b => b_abs b | None => false end in
          Ok (RRange (mkRange (r_sheet g) (sh ro sr) (sh co sc) (sh ro er) (sh co ec)
                              (ab sr) (ab sc) (ab er) (ab ec)))
      end
  | ROther _ => Ok r
  end.

Section Rmap.
  Context {A B : Type}.
  Variable f : A -> res unit B.
  Fixpoint rmap (l : list A) : res unit (list B) :=
    match l with
    | [] => Ok []
    | x :: xs => rbind (f x) (fun y => rbind (rmap xs) (fun ys => Ok (y :: ys)))
    end.
End Rmap.

Fixpoint rel_formula (ro co : Z) (a : ast) {struct a} : res unit ast :=
  match a with
  | ARef r => rbind (rel_reference ro co r) (fun r' => Ok (ARef r'))
  | ABinary o l r => rbind (rel_formula ro co l) (fun l' =>
                     rbind (rel_formula ro co r) (fun r' => Ok (ABinary o l' r')))
  | AUnary o e => rbind (rel_formula ro co e) (fun e' => Ok (AUnary o e'))
  | AFunction f args => rbind (rmap (rel_formula ro co) args) (fun args' => Ok (AFunction f args'))
  | _ => Ok a
  end.

(** * Moving ([MoveReferenceAdjuster], lines 743-1030) *)
Record move := mkMove {
  v_from : N; v_from_name : text; v_r0 : N; v_c0 : N; v_r1 : N; v_c1 : N;
  v_to : N; v_to_name : text; v_ro : Z; v_co : Z }.

Definition off0 (i : N) (off : Z) : N := Z.to_N (Z.max (Z.of_N i + off) 0).

Definition matches_source (m : move) (formula_sheet : N) (sheet : option text) : bool :=
  match sheet with
  | Some name => text_eqb name (v_from_name m)
  | None => formula_sheet =? v_from m
  end.

Definition new_sheet (m : move) (sheet : option text) : option text :=
  if v_to m =? v_from m then sheet else Some (v_to_name m).

(** [adjust_reference], lines 896-1030: [None] means unchanged. *)
Definition move_reference (m : move) (formula_sheet : N) (r : refty) : res unit (option refty) :=
  match r with
  | RCell c =>
      if matches_source m formula_sheet (c_sheet c) then
        match cell_coords c with
        | NoCell => Ok None
        | CellPanic => Panic
        | Cell0 row col =>
            if (row <? v_r0 m) || (v_r1 m <? row) || (col <? v_c0 m) || (v_c1 m <? col)
            then Ok None
            else Ok (Some (RCell (mkCell (new_sheet m (c_sheet c)) (addw (off0 row (v_ro m)) 1)
                                         (addw (off0 col (v_co m)) 1) (c_rabs c) (c_cabs c))))
        end
      else Ok None
  | RRange g =>
      if matches_source m formula_sheet (r_sheet g) then
        match range_bounds g with
        | Some (Some sr, Some sc, Some er, Some ec) =>
            if (v_r0 m <=? b_idx sr) && (b_idx er <=? v_r1 m)
               && (v_c0 m <=? b_idx sc) && (b_idx ec <=? v_c1 m)
            then Ok (Some (RRange (mkRange (new_sheet m (r_sheet g))
                       (Some (addw (off0 (b_idx sr) (v_ro m)) 1))
                       (Some (addw (off0 (b_idx sc) (v_co m)) 1))
                       (Some (addw (off0 (b_idx er) (v_ro m)) 1))
                       (Some (addw (off0 (b_idx ec) (v_co m)) 1))
                       (b_abs sr) (b_abs sc) (b_abs er) (b_abs ec))))
            else Ok None
        | _ => Ok None
        end
      else Ok None
  | ROther _ => Ok None
  end.

(** [adjust_ast_inner], lines 800-894: the boolean says "changed". *)
Fixpoint move_inner (m : move) (f : N) (a : ast) {struct a} : res unit (ast * bool) :=
  match a with
  | ARef r => rbind (move_reference m f r) (fun o =>
                match o with Some r' => Ok (ARef r', true) | None => Ok (a, false) end)
  | ABinary o l r =>
      rbind (move_inner m f l) (fun '(l', c1) =>
      rbind (move_inner m f r) (fun '(r', c2) =>
        if c1 || c2 then Ok (ABinary o l' r', true) else Ok (a, false)))
  | AUnary o e =>
      rbind (move_inner m f e) (fun '(e', c) =>
        if c then Ok (AUnary o e', true) else Ok (a, false))
  | AFunction g args =>
      rbind (rmap (move_inner m f) args) (fun l =>
        if existsb snd l then Ok (AFunction g (map fst l), true) else Ok (a, false))
  | AArray rows =>
      rbind (rmap (rmap (move_inner m f)) rows) (fun ll =>
        if existsb (existsb snd) ll then Ok (AArray (map (map fst) ll), true) else Ok (a, false))
  | _ => Ok (a, false)
  end.

(** [adjust_if_references], used as in [vertex_editor.rs:1917-1926]. *)
Definition move_formula (m : move) (formula_sheet : N) (a : ast) : res unit ast :=
  rbind (move_inner m formula_sheet a) (fun '(a', ch) => Ok (if ch then a' else a)).

(** * What happens to the formula of a moved cell ([vertex_editor.rs:1757-1935]):
    the copy shifts its relative references, then the references into the block are
    redirected.  [cell_after_move] is the formula found at the destination when the
    destination lies outside the source block. *)
Definition cell_after_move (m : move) (a : ast) : res unit ast :=
  rbind (rel_formula (v_ro m) (v_co m) a) (fun a' => move_formula m (v_to m) a').
