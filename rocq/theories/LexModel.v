(* The formula tokenizer: crates/formualizer-parse/src/tokenizer.rs,
   SpanTokenizer (725-1515) and the free functions it calls (11-57, 615-723).

   A formula is the list of its bytes.  The Rust state is a byte offset plus
   the half-open interval [token_start, token_end) of the operand being
   collected; between two iterations of the main loop token_end is either
   equal to token_start or equal to the offset, so the model keeps the bytes
   of that interval ([cur]) and the bytes still to be read ([inp]).  A span
   is kept with its bytes instead of its offsets.  [out] is the list of
   spans in reverse order.  Only the strict mode (best_effort = false) is
   modelled here; error messages and positions are reduced to a kind. *)
From Coq Require Import List Bool NArith Lia Ascii String.
Import ListNotations.
Open Scope N_scope.

Definition text := list N.

(* Text constants. *)
Definition tx (s : string) : text := map N_of_ascii (list_ascii_of_string s).

Fixpoint text_eqb (a b : text) : bool :=
  match a, b with
  | [], [] => true
  | x :: a', y :: b' => (x =? y) && text_eqb a' b'
  | _, _ => false
  end.

(* TokenType and TokenSubType, tokenizer.rs 84-160. *)
Inductive ttype := TLiteral | TOperand | TFunc | TArray | TParen | TSep
                 | TPre | TInf | TPost | TWs.
Inductive tsub := SNone | SText | SNumber | SLogical | SError | SRange
                | SOpen | SClose | SArg | SRow.

Definition ttype_eqb (a b : ttype) : bool :=
  match a, b with
  | TLiteral, TLiteral | TOperand, TOperand | TFunc, TFunc | TArray, TArray
  | TParen, TParen | TSep, TSep | TPre, TPre | TInf, TInf | TPost, TPost
  | TWs, TWs => true
  | _, _ => false
  end.

Definition tsub_eqb (a b : tsub) : bool :=
  match a, b with
  | SNone, SNone | SText, SText | SNumber, SNumber | SLogical, SLogical
  | SError, SError | SRange, SRange | SOpen, SOpen | SClose, SClose
  | SArg, SArg | SRow, SRow => true
  | _, _ => false
  end.

(* TokenSpan, 440-475, with the bytes of the span. *)
Record tok := Tok { tt : ttype; tsb : tsub; tv : text }.

(* FormulaDialect: Excel or OpenFormula. *)
Inductive dialect := DExcel | DOpen.

Inductive lerr := NoMatchingOpener | UnmatchedOpening | UnterminatedString
                | UnmatchedBracket | MismatchedPair | InvalidErrorLiteral.

Inductive lres (A : Type) := LOk (a : A) | LErr (e : lerr) | LFuel.
Arguments LOk {A}. Arguments LErr {A}. Arguments LFuel {A}.

(* Byte classes. *)
Definition c_dq := 34.  Definition c_sq := 39.  Definition c_lb := 91.
Definition c_rb := 93.  Definition c_hash := 35. Definition c_colon := 58.
Definition c_lp := 40.  Definition c_rp := 41.  Definition c_lc := 123.
Definition c_rc := 125. Definition c_bang := 33. Definition c_dollar := 36.
Definition c_comma := 44. Definition c_semi := 59. Definition c_sp := 32.
Definition c_eq := 61. Definition c_lt := 60. Definition c_gt := 62.
Definition c_plus := 43. Definition c_minus := 45. Definition c_at := 64.
Definition c_pct := 37. Definition c_dot := 46.

Definition memc (c : N) (l : text) : bool := existsb (N.eqb c) l.

(* TOKEN_ENDERS, 11 and is_token_ender, 26: , ; } ) space + - * / ^ & = > < % @ *)
Definition enders : text := [44; 59; 125; 41; 32; 43; 45; 42; 47; 94; 38; 61; 62; 60; 37; 64].
Definition ender (c : N) : bool := memc c enders.

Definition is_ws (c : N) : bool := memc c [32; 9; 13; 10].
Definition is_digit (c : N) : bool := (48 <=? c) && (c <=? 57).
Definition is_alpha (c : N) : bool :=
  ((65 <=? c) && (c <=? 90)) || ((97 <=? c) && (c <=? 122)).

(* u8::to_ascii_uppercase; eq_ignore_ascii_case compares after it. *)
Definition upc (c : N) : N := if (97 <=? c) && (c <=? 122) then c - 32 else c.
Definition eq_ic (a b : text) : bool := text_eqb (map upc a) (map upc b).

(* ERROR_CODES, 46-57. *)
Definition error_codes : list text :=
  map tx ["#GETTING_DATA"; "#DIV/0!"; "#VALUE!"; "#SPILL!"; "#NAME?"; "#NULL!";
          "#CALC!"; "#NUM!"; "#REF!"; "#N/A"]%string.

Section Lex.
(* str::parse::<f64>().is_ok(), not modelled. *)
Variable is_num : text -> bool.
Variable dia : dialect.

(* operand_subtype, 624-636. *)
Definition operand_subtype (v : text) : tsub :=
  match v with
  | 34 :: _ => SText
  | 35 :: _ => SError
  | _ => if eq_ic v (tx "TRUE") || eq_ic v (tx "FALSE") then SLogical
         else if is_num v then SNumber else SRange
  end.

(* is_cell_reference_like, 638-664. *)
Fixpoint drop_while (p : N -> bool) (l : text) : text :=
  match l with
  | c :: r => if p c then drop_while p r else l
  | [] => []
  end.
Definition drop_dollar (l : text) : text :=
  match l with 36 :: r => r | _ => l end.
Definition cell_like (v : text) : bool :=
  let v1 := drop_dollar v in
  let v2 := drop_while is_alpha v1 in
  if Nat.eqb (List.length v2) (List.length v1) then false
  else
    let v3 := drop_dollar v2 in
    let v4 := drop_while is_digit v3 in
    match v4 with
    | [] => negb (Nat.eqb (List.length v3) 0)
    | _ => false
    end.

(* The part after the last '!' (str::rsplit_once), the whole text if none. *)
Fixpoint after_bang (v : text) : text :=
  match v with
  | [] => []
  | c :: r => if memc c_bang r then after_bang r
              else if c =? c_bang then r else v
  end.

(* reference_value_contains_range_colon, 666-671. *)
Definition has_range_colon (v : text) : bool := memc c_colon (after_bang v).

(* is_reference_operand_value, 673-679. *)
Definition ref_value (v : text) : bool :=
  tsub_eqb (operand_subtype v) SRange
  && (has_range_colon v || memc c_bang v || memc c_lb v || cell_like v).

(* next_starts_reference_expression, 681-691. *)
Definition starts_ref (s : text) : bool :=
  match drop_while is_ws s with
  | [] => false
  | c :: _ => memc c [40; 91; 39; 36] || is_alpha c
  end.

(* next_reference_has_sheet_qualifier, 693-723. *)
Fixpoint qual_scan (q : bool) (s : text) : bool :=
  match s with
  | [] => false
  | c :: r =>
      if c =? c_sq then
        match r with
        | c2 :: r2 => if q && (c2 =? c_sq) then qual_scan q r2 else qual_scan (negb q) r
        | [] => qual_scan (negb q) r
        end
      else if c =? c_bang then true
      else if (c =? c_colon) && negb q then false
      else if (ender c || is_ws c) && negb q then false
      else qual_scan q r
  end.
Definition next_qualified (s : text) : bool := qual_scan false (drop_while is_ws s).

(* The state of SpanTokenizer, 725-734. *)
Record lst := LS { out : list tok; stack : list ttype; cur : text; inp : text }.

Definition has_token (s : lst) : bool := match cur s with [] => false | _ => true end.

(* save_token, 786-797, followed by start_token. *)
Definition flush_out (o : list tok) (c : text) : list tok :=
  match c with [] => o | _ => Tok TOperand (operand_subtype c) c :: o end.
Definition save (s : lst) : lst := LS (flush_out (out s) (cur s)) (stack s) [] (inp s).

Definition push (t : tok) (s : lst) (rest : text) : lst :=
  LS (t :: out s) (stack s) [] rest.

(* is_scientific_notation_base, 818-846. *)
Fixpoint sci_body (dot : bool) (v : text) : bool :=
  match v with
  | [] => true
  | c :: r => if is_digit c then sci_body dot r
              else if (c =? c_dot) && negb dot then sci_body true r
              else false
  end.
Definition sci_base (v : text) : bool :=
  match v with
  | [] => false
  | [_] => false
  | f :: r =>
      let l := last r 0 in
      ((l =? 69) || (l =? 101)) && is_digit f && sci_body false (removelast r)
  end.

(* check_scientific_notation, 799-816. *)
Definition sci (s : lst) : option lst :=
  match inp s with
  | c :: ((d :: _) as r) =>
      if ((c =? c_plus) || (c =? c_minus)) && has_token s && sci_base (cur s) && is_digit d
      then Some (LS (out s) (stack s) (cur s ++ [c]) r)
      else None
  | _ => None
  end.

(* prev_non_whitespace, 1303-1308. *)
Definition prev (s : lst) : option tok :=
  find (fun t => negb (ttype_eqb (tt t) TWs)) (out s).

Definition closer (t : tok) : bool :=
  (ttype_eqb (tt t) TParen || ttype_eqb (tt t) TFunc || ttype_eqb (tt t) TArray)
  && tsub_eqb (tsb t) SClose.

(* prev_is_reference_producing, 1259-1277. *)
Definition prev_ref (s : lst) : bool :=
  match prev s with
  | Some t =>
      ttype_eqb (tt t) TPost || closer t
      || (ttype_eqb (tt t) TOperand && tsub_eqb (tsb t) SRange && ref_value (tv t))
  | None => false
  end.

(* should_emit_colon_infix, 1279-1291; [r] is the input after the colon. *)
Definition colon_infix (s : lst) (r : text) : bool :=
  if has_token s then
    if last (cur s) 0 =? c_bang then false
    else has_range_colon (cur s) || memc c_lb (cur s)
         || (memc c_bang (cur s) && next_qualified r)
  else prev_ref s.

(* should_emit_hash_postfix, 1314-1337. *)
Definition hash_postfix (s : lst) : bool :=
  if has_token s then
    if last (cur s) 0 =? c_bang then false
    else tsub_eqb (operand_subtype (cur s)) SRange
  else
    match prev s with
    | Some t => ttype_eqb (tt t) TPost || closer t
                || (ttype_eqb (tt t) TOperand && tsub_eqb (tsb t) SRange)
    | None => false
    end.

(* The loop of parse_string, 1091-1118: the bytes up to and including the
   closing delimiter, and the rest. *)
Fixpoint scan_str (d : N) (s : text) : option (text * text) :=
  match s with
  | [] => None
  | c :: r =>
      if c =? d then
        match r with
        | c2 :: r2 =>
            if c2 =? d then
              match scan_str d r2 with
              | Some (a, b) => Some (c :: c2 :: a, b)
              | None => None
              end
            else Some ([c], r)
        | [] => Some ([c], [])
        end
      else
        match scan_str d r with
        | Some (a, b) => Some (c :: a, b)
        | None => None
        end
  end.

(* parse_string, 1060-1127; [r] is the input after the delimiter [d]. *)
Definition lex_string (s : lst) (d : N) (r : text) : lres lst :=
  let dollar := (d =? c_sq) && text_eqb (cur s) [c_dollar] in
  let glue := (d =? c_sq) && has_token s && (last (cur s) 0 =? c_colon) in
  let s1 := if dollar || glue then s else save s in
  match scan_str d r with
  | None => LErr UnterminatedString
  | Some (a, rest) =>
      if d =? c_dq then
        LOk (push (Tok TOperand (operand_subtype (d :: a)) (d :: a)) s1 rest)
      else
        LOk (LS (out s1) (stack s1) (cur s1 ++ d :: a) rest)
  end.

(* The loop of parse_brackets, 1139-1166. *)
Fixpoint scan_brk (n : nat) (s : text) : option (text * text) :=
  match s with
  | [] => None
  | c :: r =>
      if c =? c_sq then
        match r with
        | c2 :: r2 =>
            match scan_brk n r2 with
            | Some (a, b) => Some (c :: c2 :: a, b)
            | None => None
            end
        | [] => None
        end
      else if c =? c_rb then
        match n with
        | O | S O => Some ([c], r)
        | S n' =>
            match scan_brk n' r with
            | Some (a, b) => Some (c :: a, b)
            | None => None
            end
        end
      else
        match scan_brk (if c =? c_lb then S n else n) r with
        | Some (a, b) => Some (c :: a, b)
        | None => None
        end
  end.

(* parse_brackets, 1129-1175. *)
Definition lex_brackets (s : lst) (r : text) : lres lst :=
  match scan_brk 1 r with
  | None => LErr UnmatchedBracket
  | Some (a, rest) => LOk (LS (out s) (stack s) (cur s ++ c_lb :: a) rest)
  end.

(* The code of ERROR_CODES that the input starts with, ignoring case. *)
Fixpoint find_code (codes : list text) (i : text) : option (text * text) :=
  match codes with
  | [] => None
  | c :: cs =>
      let v := firstn (List.length c) i in
      if eq_ic v c then Some (v, skipn (List.length c) i) else find_code cs i
  end.

(* parse_error, 1177-1253: a pending qualifier that ends in '!' is discarded. *)
Definition lex_error (s : lst) : lres lst :=
  let qualified := has_token s && (last (cur s) 0 =? c_bang) in
  if qualified && Nat.leb (List.length (cur s)) 1 then LErr InvalidErrorLiteral
  else
    let s1 := if qualified then LS (out s) (stack s) [] (inp s) else save s in
    match find_code error_codes (inp s) with
    | Some (v, rest) => LOk (push (Tok TOperand SError v) s1 rest)
    | None => LErr InvalidErrorLiteral
    end.

(* The longest run of whitespace. *)
Fixpoint take_while (p : N -> bool) (l : text) : text :=
  match l with
  | c :: r => if p c then c :: take_while p r else []
  | [] => []
  end.

(* parse_whitespace, 1220-1257. *)
Definition lex_ws (s : lst) : lres lst :=
  let s1 := save s in
  let w := take_while is_ws (inp s) in
  let rest := drop_while is_ws (inp s) in
  let ty := if memc c_sp w && prev_ref s1 && starts_ref rest then TInf else TWs in
  LOk (push (Tok ty SNone w) s1 rest).

(* parse_operator, 1354-1405. *)
Definition lex_operator (s0 : lst) (c : N) (r : text) : lres lst :=
  let s := save s0 in
  let single :=
    let ty :=
      if c =? c_at then TPre
      else if c =? c_pct then TPost
      else if (c =? c_plus) || (c =? c_minus) then
        match prev s with
        | Some t => if tsub_eqb (tsb t) SClose || ttype_eqb (tt t) TPost
                       || ttype_eqb (tt t) TOperand
                    then TInf else TPre
        | None => TPre
        end
      else TInf in
    LOk (push (Tok ty SNone [c]) s r) in
  match r with
  | d :: r2 =>
      if ((c =? c_gt) && (d =? c_eq)) || ((c =? c_lt) && (d =? c_eq))
         || ((c =? c_lt) && (d =? c_gt))
      then LOk (push (Tok TInf SNone [c; d]) s r2)
      else single
  | [] => single
  end.

(* parse_opener, 1407-1448. *)
Definition lex_opener (s : lst) (c : N) (r : text) : lres lst :=
  if c =? c_lc then
    let s1 := save s in
    LOk (LS (Tok TArray SOpen [c] :: out s1) (TArray :: stack s1) [] r)
  else if has_token s then
    LOk (LS (Tok TFunc SOpen (cur s ++ [c]) :: out s) (TFunc :: stack s) [] r)
  else
    LOk (LS (Tok TParen SOpen [c] :: out s) (TParen :: stack s) [] r).

(* parse_closer, 1450-1495. *)
Definition lex_closer (s0 : lst) (c : N) (r : text) : lres lst :=
  let s := save s0 in
  match stack s with
  | [] => LErr NoMatchingOpener
  | o :: st =>
      if c =? (if ttype_eqb o TArray then c_rc else c_rp)
      then LOk (LS (Tok o SClose [c] :: out s) st [] r)
      else LErr MismatchedPair
  end.

(* parse_separator, 1497-1540. *)
Definition lex_sep (s0 : lst) (c : N) (r : text) : lres lst :=
  let s := save s0 in
  let in_array := match stack s with TArray :: _ => true | _ => false end in
  let in_fa := match stack s with TArray :: _ | TFunc :: _ => true | _ => false end in
  let '(ty, sb) :=
    if c =? c_comma then (if in_fa then (TSep, SArg) else (TInf, SNone))
    else if in_array then (TSep, SRow)
    else match dia with
         | DOpen => if in_fa then (TSep, SArg) else (TInf, SNone)
         | DExcel => (TSep, SRow)
         end in
  LOk (push (Tok ty sb [c]) s r).

(* One iteration of the main loop of parse_with_recovery, 872-935. *)
Definition lstep (s : lst) : lres lst :=
  match inp s with
  | [] => LOk s
  | c :: r =>
      match sci s with
      | Some s' => LOk s'
      | None =>
          let s := if ender c then save s else s in
          if (c =? c_dq) || (c =? c_sq) then lex_string s c r
          else if c =? c_lb then lex_brackets s r
          else if c =? c_hash then
            if hash_postfix s
            then LOk (push (Tok TPost SNone [c]) (save s) r)
            else lex_error s
          else if is_ws c then lex_ws s
          else if c =? c_colon then
            if colon_infix s r
            then LOk (push (Tok TInf SNone [c]) (save s) r)
            else LOk (LS (out s) (stack s) (cur s ++ [c]) r)
          else if memc c [43; 45; 42; 47; 94; 38; 61; 62; 60; 37; 64] then lex_operator s c r
          else if (c =? c_lc) || (c =? c_lp) then lex_opener s c r
          else if (c =? c_rp) || (c =? c_rc) then lex_closer s c r
          else if (c =? c_semi) || (c =? c_comma) then lex_sep s c r
          else LOk (LS (out s) (stack s) (cur s ++ [c]) r)
      end
  end.

(* The loop, 872-935; every iteration consumes at least one byte. *)
Fixpoint lloop (n : nat) (s : lst) : lres lst :=
  match inp s with
  | [] => LOk s
  | _ =>
      match n with
      | O => LFuel
      | S n' =>
          match lstep s with
          | LOk s' => lloop n' s'
          | LErr e => LErr e
          | LFuel => LFuel
          end
      end
  end.

(* parse_with_recovery(false), 857-974, and tokenize_spans_with_dialect, 615-622. *)
Definition tokenize (f : text) : lres (list tok) :=
  match f with
  | [] => LOk []
  | c :: r =>
      if c =? c_eq then
        match lloop (List.length r) (LS [] [] [] r) with
        | LOk s =>
            match stack s with
            | [] => LOk (rev (out (save s)))
            | _ => LErr UnmatchedOpening
            end
        | LErr e => LErr e
        | LFuel => LFuel
        end
      else LOk [Tok TLiteral SNone f]
  end.
End Lex.
