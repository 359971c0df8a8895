(* Functions that take and give references.
   crates/formualizer-eval/src/builtins/reference_fns.rs 84-128 (resolve_reference_bounds),
   196-490 (INDEX), 550-690 (OFFSET), 756-900 (INDIRECT); builtins/lookup/reference_info.rs
   (ROW, ROWS, COLUMN, COLUMNS); builtins/lookup/address.rs (ADDRESS);
   crates/formualizer-parse/src/parser.rs 553-617 (parse_excel_sheet_ref);
   crates/formualizer-common/src/address.rs 319-322, 445-465 (bounds and their order).

   References are those of RtModel.v.  An argument that gives an index is what its value is
   after the cast "as i64" (a number), another value, or an error of its evaluation; a
   left-out index is 0, as in the code.  resolve_range_view is a parameter: for an open
   range it gives the used part of it (one-based corners), nothing, or an error; for a
   bounded range it is taken to show its cells.  u32 and i64 arithmetic is written out;
   [checks] says whether overflow panics (debug builds) or wraps (release builds).  Error
   kinds are numbered as in DESIGN.md.  Omitted: names, tables and references to other
   workbooks as arguments (they are only resolved through the parameter), messages. *)
From Coq Require Import List Bool NArith ZArith String.
From Verif Require Import Base CoordModel LexModel RtModel.
Import ListNotations.

Definition K_REF : N := 1%N. Definition K_VALUE : N := 3%N. Definition K_NIMPL : N := 8%N.
Definition M32 : Z := 4294967296%Z.
Definition I64_MIN : Z := (-9223372036854775808)%Z.
Definition I64_MAX : Z := 9223372036854775807%Z.
Definition as_u32 (z : Z) : N := Z.to_N (z mod M32).
Definition wrap64 (z : Z) : Z := ((z - I64_MIN) mod (2 ^ 64) + I64_MIN)%Z.

Inductive arg := ANum (z : Z) | AOther | AFail (k : N).
(** [Number(n) => n as i64, Int(i) => i, _ => #VALUE!] *)
Definition index_arg (a : arg) : res N Z :=
  match a with ANum z => Ok z | AOther => Err K_VALUE | AFail k => Err k end.

Definition rect := (N * N * N * N)%type.    (* start row, start column, end row, end column *)
Definition range_ref (sheet : option text) (sr sc er ec : N) : reft :=
  RRange sheet (Box (Some (sr, false)) (Some (sc, false)) (Some (er, false)) (Some (ec, false))).
Definition cell_ref (sheet : option text) (r c : N) : reft := RCell sheet r c false false.

Section Rf.
Variable checks : bool.
Variable view : reft -> res N (option rect).        (* resolve_range_view *)

Definition add32 (a b : N) : res N N :=
  if (a + b <? 4294967296)%N then Ok (a + b)%N else if checks then Panic else Ok ((a + b) mod 4294967296)%N.
Definition sub32 (a b : N) : res N N :=
  if (b <=? a)%N then Ok (a - b)%N else if checks then Panic else Ok (a + 4294967296 - b)%N.
Definition add64 (a b : Z) : res N Z :=
  if ((I64_MIN <=? a + b) && (a + b <=? I64_MAX))%Z then Ok (a + b)%Z
  else if checks then Panic else Ok (wrap64 (a + b)).

(** reference_fns.rs:92-128 *)
Definition bounds (base : reft) : res N (option text * rect) :=
  match base with
  | RRange sheet (Box (Some (sr, _)) (Some (sc, _)) (Some (er, _)) (Some (ec, _))) => Ok (sheet, (sr, sc, er, ec))
  | RRange sheet _ =>
      match view base with
      | Ok (Some q) => Ok (sheet, q)
      | Ok None => Err K_REF
      | Err k => Err k
      | Panic => Panic
      end
  | RCell sheet row col _ _ => Ok (sheet, (row, col, row, col))
  | _ => Err K_REF
  end.

(** [sr + (row as u32) - 1] *)
Definition nth32 (start : N) (i : Z) : res N N := rbind (add32 start (as_u32 i)) (fun s => sub32 s 1).

(** ** INDEX *)
(** eval_reference, 212-331 *)
Definition index_at (sheet : option text) (q : rect) (row col : Z) : res N reft :=
  let '(sr, sc, er, ec) := q in
  if ((row <? 0) || (col <? 0))%Z then Err K_REF
  else if (col =? 0)%Z then
    if (row =? 0)%Z then Ok (range_ref sheet sr sc er ec)
    else rbind (nth32 sr row) (fun r =>
           if (er <? r)%N then Err K_REF
           else Ok (if (sc =? ec)%N then cell_ref sheet r sc else range_ref sheet r sc r ec))
  else if (row =? 0)%Z then
    rbind (nth32 sc col) (fun c =>
      if (ec <? c)%N then Err K_REF
      else Ok (if (sr =? er)%N then cell_ref sheet sr c else range_ref sheet sr c er c))
  else
    rbind (nth32 sr row) (fun r => rbind (nth32 sc col) (fun c =>
      if ((er <? r) || (ec <? c))%N then Err K_REF else Ok (cell_ref sheet r c))).
Definition index_ref (base : reft) (pos : arg) (col : option arg) : res N reft :=
  rbind (index_arg pos) (fun p =>
  rbind (match col with Some a => rbind (index_arg a) (fun c => Ok (Some c)) | None => Ok None end) (fun oc =>
  rbind (bounds base) (fun b =>
  let '(sheet, q) := b in
  let '(sr, sc, er, ec) := q in
  let '(row, c) := match oc with
                   | Some c => (p, c)
                   | None => if (sr =? er)%N then (1, p)%Z else (p, 1)%Z
                   end in
  index_at sheet q row c))).

(** The cells of a reference as rows of values (RangeView); a parameter says what a cell shows. *)
Variable V : Type.
Variable empty : V.
Variable error : N -> V.
Variable cellv : option text -> N -> N -> V.
Definition upto (a b : N) : list N := map (fun i => (a + N.of_nat i)%N) (seq 0 (N.to_nat (b + 1 - a))).
Definition cells_of (sheet : option text) (q : rect) : list (list V) :=
  let '(sr, sc, er, ec) := q in map (fun r => map (cellv sheet r) (upto sc ec)) (upto sr er).

(** eval, 333-490: of a reference, then of an array literal. *)
Inductive outcome := OScalar (v : V) | OGrid (g : list (list V)).
Definition one_or_grid (g : list (list V)) : outcome := match g with [[v]] => OScalar v | _ => OGrid g end.
Definition index_of_ref (base : reft) (pos : arg) (col : option arg) : res N outcome :=
  match index_ref base pos col with
  | Ok r => match bounds r with
            | Ok (sheet, q) => Ok (one_or_grid (cells_of sheet q))
            | Err k => Ok (OScalar (error k))
            | Panic => Panic
            end
  | Err k => Ok (OScalar (error k))
  | Panic => Panic
  end.

Definition lit_arg (a : arg) : res N (option Z) :=
  match a with ANum z => Ok (Some z) | AOther => Ok None | AFail k => Err k end.
Definition index_of_table (table : list (list V)) (pos : arg) (col : option arg) : res N outcome :=
  rbind (lit_arg pos) (fun op => match op with None => Ok (OScalar (error K_VALUE)) | Some p =>
  rbind (match col with
         | Some a => rbind (lit_arg a) (fun oc => match oc with None => Ok None | Some c => Ok (Some (Some c)) end)
         | None => Ok (Some None)
         end) (fun oc => match oc with None => Ok (OScalar (error K_VALUE)) | Some oc =>
  let nrows := Z.of_nat (length table) in
  let ncols := Z.of_nat (fold_right Nat.max 0%nat (map (@length V) table)) in
  let single := (nrows =? 1)%Z in
  let '(row, c) := match oc with
                   | Some c => (p, c)
                   | None => if single then (1, p)%Z else (p, 1)%Z
                   end in
  if ((row <? 0) || (c <? 0))%Z then Ok (OScalar (error K_REF))
  else if (c =? 0)%Z then
    if (row =? 0)%Z then Ok (OGrid table)
    else if (nrows <? row)%Z then Ok (OScalar (error K_REF))
    else match nth_error table (Z.to_nat (row - 1)) with
         | None => Panic
         | Some r => if (ncols =? 1)%Z then Ok (OScalar (hd empty r)) else Ok (OGrid [r])
         end
  else if (row =? 0)%Z then
    if (ncols <? c)%Z then Ok (OScalar (error K_REF))
    else let pick r := nth (Z.to_nat (c - 1)) r empty in
         if single then Ok (OScalar (pick (hd [] table))) else Ok (OGrid (map (fun r => [pick r]) table))
  else if ((nrows <? row) || (ncols <? c))%Z then Ok (OScalar (error K_REF))
  else Ok (OScalar (match nth_error table (Z.to_nat (row - 1)) with
                    | Some r => nth (Z.to_nat (c - 1)) r (error K_REF)
                    | None => error K_REF
                    end))
  end) end).

(** ** OFFSET, eval_reference 567-646 *)
Definition offset_ref (base : reft) (rows cols : arg) (height width : option arg) : res N reft :=
  rbind (index_arg rows) (fun dr => rbind (index_arg cols) (fun dc =>
  rbind (bounds base) (fun b => let '(sheet, q) := b in let '(sr, sc, er, ec) := q in
  rbind (add64 (Z.of_N sr) dr) (fun nsr => rbind (add64 (Z.of_N sc) dc) (fun nsc =>
  rbind (match height with Some a => index_arg a | None => Ok (Z.of_N er - Z.of_N sr + 1)%Z end) (fun h =>
  rbind (match width with Some a => index_arg a | None => Ok (Z.of_N ec - Z.of_N sc + 1)%Z end) (fun w =>
  if ((nsr <=? 0) || (nsc <=? 0) || (h <=? 0) || (w <=? 0))%Z then Err K_REF
  else rbind (rbind (add64 nsr h) (fun x => add64 x (-1))) (fun ner =>
       rbind (rbind (add64 nsc w) (fun x => add64 x (-1))) (fun nec =>
       Ok (if ((h =? 1) && (w =? 1))%Z then cell_ref sheet (as_u32 nsr) (as_u32 nsc)
           else range_ref sheet (as_u32 nsr) (as_u32 nsc) (as_u32 ner) (as_u32 nec))))))))))).

(** ** ROW, ROWS, COLUMN, COLUMNS of a reference *)
Definition MAX_ROWS : Z := 1048576%Z. Definition MAX_COLS : Z := 16384%Z.
Definition start_of (pick : rect -> N) (base : reft) : res N Z :=
  match view base with
  | Ok (Some q) => Ok (Z.of_N (pick q))
  | Ok None => Err K_REF
  | Err k => Err k
  | Panic => Panic
  end.
Definition row_of (base : reft) : res N Z :=
  match base with
  | RCell _ row _ _ _ => Ok (Z.of_N row)
  | RRange _ (Box (Some (sr, _)) _ _ _) => Ok (Z.of_N sr)
  | RRange _ (Box None _ None _) => Ok 1%Z
  | _ => start_of (fun q => let '(sr, _, _, _) := q in sr) base
  end.
Definition column_of (base : reft) : res N Z :=
  match base with
  | RCell _ _ col _ _ => Ok (Z.of_N col)
  | RRange _ (Box _ (Some (sc, _)) _ _) => Ok (Z.of_N sc)
  | RRange _ (Box _ None _ None) => Ok 1%Z
  | _ => start_of (fun q => let '(_, sc, _, _) := q in sc) base
  end.
Definition size_of (limit : Z) (start stop : bound) : Z :=
  match start, stop with
  | Some (s, _), Some (e, _) => if (s <=? e)%N then (Z.of_N (e - s) + 1)%Z else 1%Z
  | None, None => limit
  | Some (s, _), None => (limit - Z.of_N s + 1)%Z
  | None, Some (e, _) => Z.of_N e
  end.
Definition view_size (pick : rect -> Z) (base : reft) : res N Z :=
  match view base with
  | Ok (Some q) => Ok (pick q)
  | Ok None => Ok 0%Z
  | Err k => Err k
  | Panic => Panic
  end.
Definition rows_of (base : reft) : res N Z :=
  match base with
  | RCell _ _ _ _ _ => Ok 1%Z
  | RRange _ b => Ok (size_of MAX_ROWS (b_sr b) (b_er b))
  | _ => view_size (fun q => let '(sr, _, er, _) := q in (Z.of_N er - Z.of_N sr + 1)%Z) base
  end.
Definition columns_of (base : reft) : res N Z :=
  match base with
  | RCell _ _ _ _ _ => Ok 1%Z
  | RRange _ b => Ok (size_of MAX_COLS (b_sc b) (b_ec b))
  | _ => view_size (fun q => let '(_, sc, _, ec) := q in (Z.of_N ec - Z.of_N sc + 1)%Z) base
  end.
End Rf.

(** ** ADDRESS and INDIRECT *)
Open Scope N_scope.
Definition abs_flags (abs_num : Z) : bool * bool :=     (* column, row *)
  if (abs_num =? 2)%Z then (false, true) else if (abs_num =? 3)%Z then (true, false)
  else if (abs_num =? 4)%Z then (false, false) else (true, true).
Definition in_brackets (t : text) : text := c_lb :: t ++ [c_rb].
Definition address (row col abs_num : Z) (a1 : bool) (sheet : option text) : res N text :=
  if negb ((1 <=? row) && (row <=? 1048576))%Z then Err K_VALUE
  else if negb ((1 <=? col) && (col <=? 16384))%Z then Err K_VALUE
  else if negb ((1 <=? abs_num) && (abs_num <=? 4))%Z then Err K_VALUE
  else
    let '(ca, ra) := abs_flags abs_num in
    let rt := show_u32 (Z.to_N row) in
    let ct := show_u32 (Z.to_N col) in
    let t := if a1 then cell_text (Z.to_N row) (Z.to_N col) ra ca
             else 82 :: (if ra then rt else in_brackets rt) ++ 67 :: (if ca then ct else in_brackets ct) in
    Ok (match sheet with
        | None => t
        | Some n => if memc 32 n || memc c_bang n || memc c_sq n
                    then c_sq :: double_q n ++ c_sq :: c_bang :: t
                    else n ++ c_bang :: t
        end).

(** parser.rs:553-617; [None] is any error.  The coordinates are one-based here. *)
Definition bound_order (a b : bound) : bool :=
  match a, b with Some (x, _), Some (y, _) => x <=? y | _, _ => true end.
Definition sheet_ref (s : text) : option reft :=
  let '(spec, part) := extract_sheet s in
  match spec with
  | ShRange _ _ => None
  | _ =>
      let sheet := match spec with ShOne n => Some n | _ => None end in
      if memc c_lb part then None
      else if memc c_colon part then
        match range_box part with
        | Some b => if bound_order (b_sr b) (b_er b) && bound_order (b_sc b) (b_ec b) then Some (RRange sheet b) else None
        | None => None
        end
      else match parse_a1_components part with
           | Ok (row, col, ra, ca) => Some (RCell sheet row col ra ca)
           | _ => None
           end
  end.
Definition indirect (s : text) (a1 : bool) : res N reft :=
  let other := match parse_ref s with
               | Some (RName n) => Some (RName n)
               | Some (RTable n sp) => Some (RTable n sp)
               | _ => None
               end in
  if a1 then
    match sheet_ref s with
    | Some r => Ok r
    | None => match other with Some r => Ok r | None => Err K_REF end
    end
  else match other with Some r => Ok r | None => Err K_NIMPL end.
