(* Reading and displaying references.
   crates/formualizer-parse/src/parser.rs 255-345 (specifiers, Display),
   490-550 (to_sheet_ref_lossy), 619-923 (range parts, 3D and Excel
   references), 925-1150 (Display), 1158-1400 (sheet names, R1C1 shapes,
   tables), 1401-1540 (OpenFormula); crates/formualizer-parse/src/
   structured_ref.rs; crates/formualizer-common/src/address.rs 13-47;
   crates/formualizer-eval/src/engine/ingest_pipeline.rs 423-473 and
   engine/refs.rs 60-80 (the dependencies of one reference).

   Texts are lists of bytes.  Simplifications: [str::trim] removes ASCII
   white space only (Unicode white space is not modelled); upper-casing a
   sheet name for the reserved-word test is the ASCII one; error values are
   reduced to [None]; the arithmetic overflow in
   col_index_from_letters_1based ("MWLQKWV...", a panic in a debug build)
   counts as the error that a release build reports.  Of [TableSpecifier]
   only the forms that the parser produces are modelled (Data, Headers and
   Totals are produced as special items; Row only as the current row). *)
From Coq Require Import List Bool NArith String.
From Verif Require Import Base CoordModel LexModel.
Import ListNotations.
Open Scope N_scope.

Inductive special := IAll | IHeaders | IData | ITotals | IThisRow.

(* parser.rs 180-215 (TableSpecifier) *)
Inductive tspec :=
| SpAll
| SpRow                        (* Row(Current) *)
| SpCol (c : text)
| SpRange (a b : text)
| SpItem (i : special)
| SpComb (l : list tspec).

(* A bound: one-based index and its '$'. *)
Definition bound := option (N * bool).
(* start row, start column, end row, end column *)
Record box := Box { b_sr : bound; b_sc : bound; b_er : bound; b_ec : bound }.

(* parser.rs 225-290 (ReferenceType).  The Rust range carries eight fields
   Option<u32>, bool; an absent bound always has the flag false when it
   comes out of the parser. *)
Inductive reft :=
| RCell (sheet : option text) (row col : N) (row_abs col_abs : bool)
| RRange (sheet : option text) (b : box)
| RCell3 (first last : text) (row col : N) (row_abs col_abs : bool)
| RRange3 (first last : text) (b : box)
| RExtCell (raw book sheet : text) (row col : N) (row_abs col_abs : bool)
| RExtRange (raw book sheet : text) (b : box)
| RTable (name : text) (spec : option tspec)
| RName (n : text).

(* ---- helpers on texts ---- *)
(* char::is_whitespace on ASCII *)
Definition is_space (c : N) : bool := memc c [9; 10; 11; 12; 13; 32].
Definition trim_start (s : text) : text := drop_while is_space s.
Definition trim (s : text) : text := rev (trim_start (rev (trim_start s))).

(* find(c): the text before and after the first [c] *)
Fixpoint cut (c : N) (s : text) : option (text * text) :=
  match s with
  | [] => None
  | x :: r => if x =? c then Some ([], r)
              else match cut c r with Some (a, b) => Some (x :: a, b) | None => None end
  end.
(* rfind(c) *)
Fixpoint rcut (c : N) (s : text) : option (text * text) :=
  match s with
  | [] => None
  | x :: r => match rcut c r with
              | Some (a, b) => Some (x :: a, b)
              | None => if x =? c then Some ([], r) else None
              end
  end.
Definition starts (c : N) (s : text) : bool := match s with x :: _ => x =? c | [] => false end.
Definition ends (c : N) (s : text) : bool :=
  match s with [] => false | _ => last s 0 =? c end.
(* replace("''", "'") *)
Fixpoint undouble_sq (s : text) : text :=
  match s with
  | a :: ((b :: r) as r0) => if (a =? c_sq) && (b =? c_sq) then c_sq :: undouble_sq r else a :: undouble_sq r0
  | _ => s
  end.
(* replace('\'', "''") *)
Fixpoint double_q (s : text) : text :=
  match s with [] => [] | c :: r => if c =? c_sq then c_sq :: c_sq :: double_q r else c :: double_q r end.

(* ---- structured references, structured_ref.rs ---- *)

(* 92-120 and 330-374: content up to the closing bracket of the bracket just
   opened, and the rest. *)
Fixpoint close_at (n : nat) (s : text) : option (text * text) :=
  match s with
  | [] => None
  | c :: r =>
      if c =? c_sq then
        match r with
        | d :: r2 => match close_at n r2 with Some (a, b) => Some (c :: d :: a, b) | None => None end
        | [] => None
        end
      else if c =? c_lb then
        match close_at (S n) r with Some (a, b) => Some (c :: a, b) | None => None end
      else if c =? c_rb then
        match n with
        | O => Some ([], r)
        | S n' => match close_at n' r with Some (a, b) => Some (c :: a, b) | None => None end
        end
      else match close_at n r with Some (a, b) => Some (c :: a, b) | None => None end
  end.

(* 534-554 *)
Fixpoint unescape (s : text) : text :=
  match s with
  | [] => []
  | c :: r => if c =? c_sq then match r with d :: r2 => d :: unescape r2 | [] => [] end
              else c :: unescape r
  end.
Definition unescape_name (s : text) : text := trim (unescape s).

(* 449-489.  [compact]: tabs become spaces and runs of spaces one space. *)
Fixpoint compact (prev_space : bool) (s : text) : text :=
  match s with
  | [] => []
  | c :: r =>
      if (c =? 9) || (c =? 32) then (if prev_space then compact true r else 32 :: compact true r)
      else c :: compact false r
  end.
Definition special_token (t : text) : option special :=
  let k := map to_ascii_lower (compact false t) in
  if text_eqb k (tx "#all") then Some IAll
  else if text_eqb k (tx "#headers") then Some IHeaders
  else if text_eqb k (tx "#data") then Some IData
  else if text_eqb k (tx "#totals") then Some ITotals
  else if text_eqb k (tx "#this row") then Some IThisRow
  else None.

(* 513-530: [s] is the text between the first and the last byte; the loop
   starts at depth 1. *)
Fixpoint strip_scan (d : nat) (s : text) : bool :=
  match s with
  | [] => Nat.eqb d 1
  | c :: r =>
      if c =? c_sq then match r with _ :: r2 => strip_scan d r2 | [] => Nat.eqb d 1 end
      else if c =? c_lb then strip_scan (S d) r
      else if c =? c_rb then match d with S (S d') => strip_scan (S d') r | _ => false end
      else strip_scan d r
  end.
Definition strip_outer (s : text) : option text :=
  match s with
  | c :: ((_ :: _) as r) =>
      if (c =? c_lb) && (last r 0 =? c_rb) && strip_scan 1 (removelast r)
      then Some (removelast r) else None
  | _ => None
  end.

(* 492-511 *)
Definition at_shorthand (rest : text) : option tspec :=
  match rest with
  | [] => Some SpRow
  | _ =>
      let t := trim rest in
      let column := match strip_outer t with Some s => s | None => t end in
      match column with
      | [] => None
      | _ => Some (SpComb [SpItem IThisRow; SpCol (unescape_name column)])
      end
  end.

(* 379-403 *)
Definition token_spec (inner : text) : option tspec :=
  let t := trim inner in
  match t with
  | [] => None
  | c :: r =>
      if c =? c_hash then match special_token t with Some i => Some (SpItem i) | None => None end
      else if c =? c_at then
        match trim r with [] => Some (SpItem IThisRow) | r' => at_shorthand r' end
      else Some (SpCol (unescape_name t))
  end.

(* 405-427 *)
Definition token_range (a b : text) : option tspec :=
  let l := trim a in let r := trim b in
  match l, r with
  | [], _ | _, [] => None
  | x :: _, y :: _ =>
      if (x =? c_hash) || (x =? c_at) || (y =? c_hash) || (y =? c_at) then None
      else Some (SpRange (unescape_name l) (unescape_name r))
  end.

(* 429-441 *)
Definition column_range (l r : text) : option tspec :=
  match l, r with
  | [], _ | _, [] => None
  | _, _ => Some (SpRange (unescape_name l) (unescape_name r))
  end.

(* 286-294 *)
Definition item_ws (c : N) : bool := memc c [32; 9; 10].
Definition skip_item_ws (s : text) : text := drop_while item_ws s.

(* 299-328; the whitespace skipped in the look-ahead is given back, and then
   skipped again by the caller. *)
Definition parse_item (s0 : text) : option (tspec * text) :=
  match skip_item_ws s0 with
  | c :: s =>
      if c =? c_lb then
        match close_at 0 s with
        | None => None
        | Some (first, rest) =>
            let plain := match token_spec first with Some sp => Some (sp, rest) | None => None end in
            match skip_item_ws rest with
            | d :: r1 =>
                if d =? c_colon then
                  match skip_item_ws r1 with
                  | e :: r2 =>
                      if e =? c_lb then
                        match close_at 0 r2 with
                        | None => None
                        | Some (second, rest2) =>
                            match token_range first second with
                            | Some sp => Some (sp, rest2)
                            | None => None
                            end
                        end
                      else None
                  | [] => None
                  end
                else plain
            | [] => plain
            end
        end
      else None
  | [] => None
  end.

(* 227-262: the items; [n] bounds the number of iterations, every one of
   which consumes a bracket. *)
Fixpoint parse_items (n : nat) (s : text) : option (list tspec) :=
  match n with
  | O => None
  | S n' =>
      match parse_item s with
      | None => None
      | Some (sp, rest) =>
          match skip_item_ws rest with
          | [] => Some [sp]
          | c :: r =>
              if c =? c_comma then
                match parse_items n' (skip_item_ws r) with
                | Some l => Some (sp :: l)
                | None => None
                end
              else None
          end
      end
  end.
Definition combination (s : text) : option tspec :=
  match skip_item_ws s with
  | [] => Some SpAll
  | s' => match parse_items (List.length s') s' with
          | Some [sp] => Some sp
          | Some l => Some (SpComb l)
          | None => None
          end
  end.

(* 163-222: is there a bracket, a comma at depth 0, and what is around the
   first colon at depth 0 (the text before it is accumulated in reverse). *)
Record scan := Scan { s_bracket : bool; s_comma : bool; s_colon : option (text * text) }.
Fixpoint scan_top (d : nat) (pre : text) (s : text) : option scan :=
  match s with
  | [] => match d with O => Some (Scan false false None) | _ => None end
  | c :: r =>
      if c =? c_sq then
        match r with
        | e :: r2 => scan_top d (e :: c :: pre) r2
        | [] => None
        end
      else if c =? c_lb then
        match scan_top (S d) (c :: pre) r with
        | Some k => Some (Scan (match d with O => true | _ => s_bracket k end) (s_comma k) (s_colon k))
        | None => None
        end
      else if c =? c_rb then
        match d with O => None | S d' => scan_top d' (c :: pre) r end
      else
        match scan_top d (c :: pre) r with
        | Some k =>
            Some (match d with
                  | O => Scan (s_bracket k)
                              ((c =? c_comma) || s_comma k)
                              (if c =? c_colon then Some (rev pre, r) else s_colon k)
                  | _ => k
                  end)
        | None => None
        end
  end.

(* 123-161 *)
Definition parse_content (content : text) : option tspec :=
  let t := trim content in
  match t with
  | [] => Some SpAll
  | c :: r =>
      if c =? c_at then at_shorthand (trim r)
      else
        match scan_top 0 [] t with
        | None => None
        | Some k =>
            if s_bracket k then combination t
            else if s_comma k then None
            else match s_colon k with
                 | Some (a, b) => column_range (trim a) (trim b)
                 | None =>
                     if c =? c_hash then
                       match special_token t with Some i => Some (SpItem i) | None => None end
                     else Some (SpCol (unescape_name t))
                 end
        end
  end.

(* 24-41, 75-88; the outer option is the Result. *)
Definition full_specifier (s : text) : option (option tspec) :=
  match s with
  | [] => Some None
  | c :: r =>
      if c =? c_lb then
        match close_at 0 r with
        | Some (content, []) =>
            match parse_content content with Some sp => Some (Some sp) | None => None end
        | _ => None
        end
      else None
  end.

(* ---- parser.rs ---- *)

(* 1158-1197.  The quoted body up to the closing quote, and the rest. *)
Fixpoint quoted_body (s : text) : option (text * text) :=
  match s with
  | [] => None
  | c :: r =>
      if c =? c_sq then
        match r with
        | d :: r2 =>
            if d =? c_sq then
              match quoted_body r2 with Some (a, b) => Some (c :: d :: a, b) | None => None end
            else Some ([], r)
        | [] => Some ([], r)
        end
      else match quoted_body r with Some (a, b) => Some (c :: a, b) | None => None end
  end.
Definition bare_byte (c : N) : bool := negb (memc c [58; 33; 39; 32; 9; 10; 13]).
Definition sheet_segment (s : text) : option (text * text) :=
  match s with
  | [] => None
  | c :: r =>
      if c =? c_sq then
        match quoted_body r with Some (raw, rest) => Some (undouble_sq raw, rest) | None => None end
      else
        match span bare_byte s with
        | ([], _) => None
        | (name, rest) => Some (name, rest)
        end
  end.

Inductive sheet_spec := ShNone | ShOne (n : text) | ShRange (first last : text).

(* 1261-1279 *)
Definition sheet_fallback (s : text) : sheet_spec * text :=
  match s with
  | [] => (ShNone, s)
  | c :: r => match cut c_bang r with
              | Some (a, b) => (ShOne (c :: a), b)
              | None => (ShNone, s)
              end
  end.

(* 1202-1258 *)
Definition extract_sheet (s : text) : sheet_spec * text :=
  match sheet_segment s with
  | None => sheet_fallback s
  | Some (first, []) => sheet_fallback s
  | Some (first, c :: r1) =>
      if c =? c_colon then
        let later :=
          match cut c_bang r1 with
          | Some (_, rest) => (ShRange first [], rest)
          | None => sheet_fallback s
          end in
        match sheet_segment r1 with
        | Some (second, d :: r2) => if d =? c_bang then (ShRange first second, r2) else later
        | _ => later
        end
      else if c =? c_bang then (ShOne first, r1)
      else sheet_fallback s
  end.

(* 1289-1353 *)
Definition r1c1_bracket (s : text) : option (bool * text) :=
  match s with
  | c :: r =>
      if c =? c_lb then
        let r := match r with d :: r' => if d =? c_minus then r' else r | [] => r end in
        match span is_ascii_digit r with
        | (_ :: _, e :: r2) => if e =? c_rb then Some (true, r2) else None
        | _ => None
        end
      else Some (false, s)
  | [] => Some (false, s)
  end.
Definition r1c1_shape (s : text) : bool :=
  match s with
  | 82 :: r =>
      let '(d1, r1) := span is_ascii_digit r in
      match r1c1_bracket r1 with
      | Some (a1, 67 :: r2) =>
          let '(d2, r3) := span is_ascii_digit r2 in
          match r1c1_bracket r3 with
          | Some (a2, []) =>
              match d1 with [] => false | _ => true end || a1
              || match d2 with [] => false | _ => true end || a2
          | _ => false
          end
      | _ => false
      end
  | _ => false
  end.

(* 1361-1378 *)
Definition table_reference (s : text) : option reft :=
  match cut c_lb s with
  | None => None
  | Some (name, spec) =>
      match trim name with
      | [] => None
      | n => match full_specifier (c_lb :: spec) with
             | Some sp => Some (RTable n sp)
             | None => None
             end
      end
  end.

(* 1385-1400 *)
Definition bracketed_reference (s : text) : option reft :=
  match full_specifier s with
  | None => None
  | Some (Some (SpCol name)) => Some (RTable name (Some (SpItem IData)))
  | Some other => Some (RTable [] other)
  end.

(* An optional '$'. *)
Definition opt_dollar (s : text) : bool * text :=
  match s with c :: r => if c =? c_dollar then (true, r) else (false, s) | [] => (false, s) end.
(* 671-678, 700-712: a row number; no upper limit except that of u32. *)
Definition row_number (s : text) : option N :=
  match span is_ascii_digit s with
  | ((_ :: _) as ds, []) =>
      match parse_digits ds 0 with
      | Some r => if r =? 0 then None else Some r
      | None => None
      end
  | _ => None
  end.
(* 619-712: column bound and row bound *)
Definition range_part (p : text) : option (bound * bound) :=
  match parse_a1_components p with
  | Ok (row, col, ra, ca) => Some (Some (col, ca), Some (row, ra))
  | _ =>
      let '(ca, s1) := opt_dollar p in
      match span is_ascii_alpha s1 with
      | ((_ :: _) as letters, s2) =>
          match col_index_from_letters_1based letters with
          | Ok col =>
              match s2 with
              | [] => Some (Some (col, ca), None)
              | _ =>
                  let '(ra, s3) := opt_dollar s2 in
                  match row_number s3 with
                  | Some row => Some (Some (col, ca), Some (row, ra))
                  | None => None
                  end
              end
          | _ => None
          end
      | ([], _) =>
          match row_number s1 with
          | Some row => Some (None, Some (row, ca))
          | None => None
          end
      end
  end.
(* 735-748, 868-882 *)
Definition range_box (s : text) : option box :=
  match cut c_colon s with
  | None => None
  | Some (a, b) =>
      match range_part a, range_part b with
      | Some (sc, sr), Some (ec, er) => Some (Box sr sc er ec)
      | _, _ => None
      end
  end.

(* 714-778 *)
Definition parse_3d (first last part : text) : option reft :=
  match first, last, part with
  | [], _, _ | _, [], _ | _, _, [] => None
  | _, _, _ =>
      if memc c_lb part then None
      else if memc c_colon part then
        match range_box part with Some b => Some (RRange3 first last b) | None => None end
      else match parse_a1_components part with
           | Ok (row, col, ra, ca) => Some (RCell3 first last row col ra ca)
           | _ => None
           end
  end.

(* 841-859: the workbook token and the sheet name *)
Definition external_sheet (s : text) : option (text * text) :=
  match rcut c_lb s with
  | None => None
  | Some (pre, post) =>
      match cut c_rb post with
      | None => None
      | Some (_, []) => None
      | Some (tokn, name) => Some (pre ++ c_lb :: tokn ++ [c_rb], name)
      end
  end.

(* 780-923 *)
Definition parse_ref (s : text) : option reft :=
  if starts c_lb s && ends c_rb s && negb (memc c_bang s) then bracketed_reference s
  else
    let '(spec, part) := extract_sheet s in
    match spec with
    | ShRange first last => parse_3d first last part
    | _ =>
        let sheet := match spec with ShOne n => Some n | _ => None end in
        if memc c_lb part then
          if r1c1_shape part then Some (RName s) else table_reference part
        else
          let ext := match sheet with Some n => external_sheet n | None => None end in
          if memc c_colon part then
            match range_box part with
            | None => None
            | Some b => Some (match ext with
                              | Some (book, name) => RExtRange s book name b
                              | None => RRange sheet b
                              end)
            end
          else
            match parse_a1_components part with
            | Ok (row, col, ra, ca) =>
                Some (match ext with
                      | Some (book, name) => RExtCell s book name row col ra ca
                      | None => RCell sheet row col ra ca
                      end)
            | _ => Some (RName s)
            end
    end.

(* ---- display ---- *)

(* address.rs 13-47 *)
Definition quote_bytes : text :=
  [32; 33; 34; 35; 36; 37; 38; 39; 40; 41; 42; 43; 44; 45; 46; 47; 58; 59; 60; 61; 62; 63; 64;
   91; 92; 93; 94; 96; 123; 124; 125; 126].
Definition reserved_names : list text :=
  map tx ["TRUE"; "FALSE"; "NULL"; "REF"; "DIV"; "NAME"; "NUM"; "VALUE"; "N/A"]%string.
Definition needs_quote (n : text) : bool :=
  match n with
  | [] => false
  | c :: _ => is_ascii_digit c || existsb (fun b => memc b quote_bytes) n
              || existsb (text_eqb (map to_ascii_upper n)) reserved_names
  end.
Definition sheet_text (n : text) : text :=
  if needs_quote n then c_sq :: double_q n ++ [c_sq] else n.

(* 940-967; the table of the first 702 columns holds the same letters. *)
Definition col_text (col : N) : text :=
  match col_letters_from_1based col with Ok l => l | _ => [] end.
Definition abs_text (a : bool) : text := if a then [c_dollar] else [].
Definition cell_text (row col : N) (ra ca : bool) : text :=
  abs_text ca ++ col_text col ++ abs_text ra ++ show_u32 row.
(* 1009-1033 *)
Definition corner_text (c r : bound) : text :=
  match c, r with
  | Some (col, ca), Some (row, ra) => cell_text row col ra ca
  | Some (col, ca), None => abs_text ca ++ col_text col
  | None, Some (row, ra) => abs_text ra ++ show_u32 row
  | None, None => []
  end.
Definition box_text (b : box) : text :=
  corner_text (b_sc b) (b_sr b) ++ c_colon :: corner_text (b_ec b) (b_er b).
Definition with_sheet (sheet : option text) (t : text) : text :=
  match sheet with Some n => sheet_text n ++ c_bang :: t | None => t end.

(* 292-345 *)
Definition item_text (i : special) : text :=
  match i with
  | IAll => tx "#All" | IHeaders => tx "#Headers" | IData => tx "#Data"
  | ITotals => tx "#Totals" | IThisRow => tx "@"
  end.
Fixpoint join_comma (l : list text) : text :=
  match l with [] => [] | [x] => x | x :: r => x ++ c_comma :: join_comma r end.
Definition bracket (t : text) : text := c_lb :: t ++ [c_rb].
Fixpoint spec_text (sp : tspec) : text :=
  match sp with
  | SpAll => tx "#All"
  | SpRow => tx "@"
  | SpCol c => c
  | SpRange a b => a ++ c_colon :: b
  | SpItem i => item_text i
  | SpComb l =>
      join_comma (map (fun x => match x with
                                | SpRange a b => bracket a ++ c_colon :: bracket b
                                | _ => bracket (spec_text x)
                                end) l)
  end.

(* 969-1103 *)
Definition show_ref (r : reft) : text :=
  match r with
  | RCell sheet row col ra ca => with_sheet sheet (cell_text row col ra ca)
  | RRange sheet b => with_sheet sheet (box_text b)
  | RCell3 f l row col ra ca =>
      sheet_text f ++ c_colon :: sheet_text l ++ c_bang :: cell_text row col ra ca
  | RRange3 f l b => sheet_text f ++ c_colon :: sheet_text l ++ c_bang :: box_text b
  | RExtCell raw _ _ _ _ _ _ => raw
  | RExtRange raw _ _ _ => raw
  | RTable name None => name
  | RTable name (Some sp) =>
      name ++ bracket (match sp with
                       | SpCol c => trim c
                       | SpRange a b => trim a ++ c_colon :: trim b
                       | _ => spec_text sp
                       end)
  | RName n => n
  end.

(* ---- OpenFormula, 1401-1540 ---- *)
(* 1520-1538; [q]: inside quotes *)
Fixpoint of_separator (q : bool) (s : text) : option (text * text) :=
  match s with
  | [] => None
  | c :: r =>
      if c =? c_sq then
        match r with
        | d :: r2 =>
            if d =? c_sq then
              match of_separator q r2 with Some (a, b) => Some (c :: d :: a, b) | None => None end
            else match of_separator (negb q) r with Some (a, b) => Some (c :: a, b) | None => None end
        | [] => None
        end
      else if (c =? c_dot) && negb q then Some ([], r)
      else match of_separator q r with Some (a, b) => Some (c :: a, b) | None => None end
  end.
(* 1502-1517 *)
Definition of_sheet (s : text) : option text :=
  let w := drop_while (N.eqb c_dollar) (trim s) in
  match w with
  | c :: r =>
      if c =? c_sq then
        match r with
        | [] => None
        | _ => if ends c_sq r then Some (undouble_sq (removelast r)) else None
        end
      else Some w
  | [] => Some w
  end.
(* 1458-1500 *)
Definition of_part (p : text) : option (option text * text) :=
  let t := trim p in
  match t with
  | [] => None
  | c :: r =>
      if (c =? c_dot) && match r with [] => true | _ => false end then None
      else if c =? c_lb then None
      else
        let pair :=
          if c =? c_dot then Some (None, trim r)
          else match of_separator false t with
               | Some (a, b) =>
                   match trim b with
                   | [] => None
                   | b' => match of_sheet (trim a) with
                           | Some n => Some (Some n, b')
                           | None => None
                           end
                   end
               | None => Some (None, t)
               end in
        match pair with
        | None => None
        | Some (sh, coord) =>
            match trim (drop_while (N.eqb c_dot) coord) with
            | [] => None
            | k => Some (sh, k)
            end
        end
  end.
(* 1401-1456 *)
Definition parse_open (s : text) : option reft :=
  match s with
  | c :: ((_ :: _) as r) =>
      if (c =? c_lb) && (last r 0 =? c_rb) then
        match removelast r with
        | [] => None
        | inner =>
            let '(a, b) := match cut c_colon inner with
                           | Some (a, b) => (a, Some b) | None => (inner, None) end in
            match of_part a, match b with Some b => match of_part b with Some x => Some (Some x) | None => None end
                                        | None => Some None end with
            | Some (sh1, k1), Some e =>
                let join sh tail := parse_ref (match sh with
                                               | Some n => sheet_text n ++ [c_bang] | None => [] end ++ k1 ++ tail) in
                match e with
                | None => join sh1 []
                | Some (sh2, k2) =>
                    match sh1, sh2 with
                    | Some n, Some m => if text_eqb n m then join sh1 (c_colon :: k2) else None
                    | Some _, None => join sh1 (c_colon :: k2)
                    | None, _ => join sh2 (c_colon :: k2)
                    end
                end
            | _, _ => None
            end
        end
      else None
  | _ => None
  end.

(* from_string_with_dialect, 475-488 *)
Definition read_ref (d : dialect) (s : text) : option reft :=
  match d with
  | DExcel => parse_ref s
  | DOpen => match parse_open s with Some r => Some r | None => parse_ref s end
  end.

(* ---- the dependencies of a reference, ingest_pipeline.rs 423-473 ---- *)
Inductive dep :=
| DCell (row col : N)                 (* zero-based, as packed by Coord::from_excel *)
| DRange (sr sc er ec : option N).    (* zero-based *)
Inductive plan_error := ERef.

Definition idx (b : bound) : option N := match b with Some (i, _) => Some (i - 1) | None => None end.
(* address.rs 445-465 *)
Definition ordered (a b : bound) : bool :=
  match a, b with Some (x, _), Some (y, _) => x <=? y | _, _ => true end.
Definition range_dep (b : box) : list dep :=
  if ordered (b_sr b) (b_er b) && ordered (b_sc b) (b_ec b)
  then [DRange (idx (b_sr b)) (idx (b_sc b)) (idx (b_er b)) (idx (b_ec b))]
  else [].
(* lo..=hi *)
Definition upto (lo hi : N) : list N :=
  map (fun i => lo + N.of_nat i) (seq 0 (N.to_nat (hi + 1 - lo))).
(* CellRef::new(sheet, Coord::from_excel(row, col, true, true)) *)
Definition cell_dep (row col : N) : res plan_error dep :=
  match rcoord_new (row - 1) (col - 1) true true with
  | Ok w => Ok (DCell (rcoord_row w) (rcoord_col w))
  | _ => Panic
  end.
Fixpoint all_ok (l : list (res plan_error dep)) : res plan_error (list dep) :=
  match l with
  | [] => Ok []
  | x :: r => rbind x (fun d => rbind (all_ok r) (fun ds => Ok (d :: ds)))
  end.
(* A cell or a range of the sheet; the other references plan names, tables
   and sources and are not modelled here. *)
Definition plan_cell (row col : N) : res plan_error (list dep) := all_ok [cell_dep row col].
Definition plan_box (expand : bool) (limit : N) (b : box) : res plan_error (list dep) :=
  match b_sr b, b_sc b, b_er b, b_ec b with
  | Some (sr, _), Some (sc, _), Some (er, _), Some (ec, _) =>
      if (er <? sr) || (ec <? sc) then Err ERef
      else if expand && ((er - sr + 1) * (ec - sc + 1) <=? limit) then
        all_ok (flat_map (fun row => map (fun col => cell_dep row col) (upto sc ec)) (upto sr er))
      else Ok (range_dep b)
  | _, _, _, _ => Ok (range_dep b)
  end.
