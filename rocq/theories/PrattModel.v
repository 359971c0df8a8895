(* The formula parser and the formula printer:
   crates/formualizer-parse/src/parser.rs, Parser (2319-2945), and
   crates/formualizer-parse/src/pretty.rs (1-222).

   The source location, the volatility flag and the original text that AST
   nodes carry are left out.  Numbers and references are abstract: [pnum] is
   str::parse::<f64>, [snum] is f64's Display, [pref] is
   ReferenceType::from_string_with_dialect and [sref] is
   ReferenceType::normalise.  [upper] is str::to_uppercase. *)
From Coq Require Import List Bool NArith Lia String.
From Verif Require Import LexModel.
Import ListNotations.
Open Scope N_scope.

(* An error literal: ExcelError::from_error_string, common/error.rs 316-323. *)
Inductive elit := EKnown (v : text) | EUnknown (v : text).

(* ExcelErrorKind::try_parse, common/error.rs 63-84. *)
Definition known_errors : list text :=
  map tx ["#NULL!"; "#REF!"; "#NAME?"; "#VALUE!"; "#DIV/0!"; "#N/A"; "#NUM!"; "#ERROR!";
          "#N/IMPL!"; "#SPILL!"; "#CALC!"; "#CIRC!"; "#CANCELLED!"]%string.

Definition error_of (v : text) : elit :=
  if existsb (text_eqb (map upc v)) known_errors then EKnown (map upc v) else EUnknown v.

(* Display of ExcelError, common/error.rs 356-365. *)
Definition show_error (e : elit) : text :=
  match e with
  | EKnown v => v
  | EUnknown v => tx "#ERROR!: Unknown error code: " ++ v
  end.

Inductive pres (A : Type) := POk (a : A) | PErr | PFuel.
Arguments POk {A}. Arguments PErr {A}. Arguments PFuel {A}.

Section Pratt.
Variables num ref : Type.
Variable pnum : text -> option num.
Variable snum : num -> text.
Variable pref : text -> option ref.
Variable sref : ref -> text.
Variable upper : text -> text.

(* ASTNodeType, parser.rs 1690-1730. *)
Inductive expr :=
| ENum (n : num)
| EText (t : text)
| EBool (b : bool)
| EErr (e : elit)
| ERef (r : ref)
| EOmit
| EUn (op : text) (x : expr)
| EBin (op : text) (l r : expr)
| EFn (name : text) (args : list expr)
| ECall (f : expr) (args : list expr)
| EArr (rows : list (list expr)).

(* skip_whitespace, 2383-2389. *)
Fixpoint skip_ws (ts : list tok) : list tok :=
  match ts with
  | t :: r => if ttype_eqb (tt t) TWs then skip_ws r else ts
  | [] => []
  end.

(* semantic_span_value, 2395-2408. *)
Definition sem_value (t : tok) : text :=
  if ttype_eqb (tt t) TInf && memc c_sp (tv t) && forallb is_ws (tv t)
  then [c_sp] else tv t.

(* The table of span_precedence, 2432-2447: precedence and whether the
   operator associates to the left.  The same table is in infix_info,
   pretty.rs 23-35. *)
Definition op_prec (op : text) : N * bool :=
  if text_eqb op (tx "#") then (11, true)
  else if text_eqb op (tx ":") then (10, true)
  else if text_eqb op (tx " ") then (9, true)
  else if text_eqb op (tx ",") then (8, true)
  else if text_eqb op (tx "%") then (7, true)
  else if text_eqb op (tx "^") then (5, false)
  else if text_eqb op (tx "*") || text_eqb op (tx "/") then (4, true)
  else if text_eqb op (tx "+") || text_eqb op (tx "-") then (3, true)
  else if text_eqb op (tx "&") then (2, true)
  else if text_eqb op (tx "=") || text_eqb op (tx "<") || text_eqb op (tx ">")
          || text_eqb op (tx "<=") || text_eqb op (tx ">=") || text_eqb op (tx "<>")
       then (1, true)
  else (0, true).

(* The precedence of a prefix operator ("u" in the table). *)
Definition pre_prec : N := 6.

(* The replacement of doubled quotes in parse_operand, 2707: str::replace
   scans from the left. *)
Fixpoint undouble (s : text) : text :=
  match s with
  | c :: ((d :: r) as r') =>
      if (c =? c_dq) && (d =? c_dq) then c_dq :: undouble r else c :: undouble r'
  | s => s
  end.

(* parse_operand, 2682-2745. *)
Definition operand (sb : tsub) (v : text) : option expr :=
  match sb with
  | SNumber => match pnum v with Some n => Some (ENum n) | None => None end
  | SText =>
      Some (EText
        match v with
        | c :: ((_ :: _) as r) =>
            if (c =? c_dq) && (last r 0 =? c_dq) then undouble (removelast r) else v
        | _ => v
        end)
  | SLogical => Some (EBool (eq_ic v (tx "TRUE")))
  | SError => Some (EErr (error_of v))
  | SRange => match pref v with Some r => Some (ERef r) | None => None end
  | _ => None
  end.

Definition is_tok (ty : ttype) (sb : tsub) (t : tok) : bool :=
  ttype_eqb (tt t) ty && tsub_eqb (tsb t) sb.

(* The tests of parse_call_arguments (2803-2810) and of
   parse_function_arguments (2870-2874). *)
Definition is_sep (call : bool) (t : tok) : bool :=
  is_tok TSep SArg t || (call && ttype_eqb (tt t) TInf && text_eqb (tv t) [c_comma]).
Definition is_close (call : bool) (t : tok) : bool :=
  is_tok (if call then TParen else TFunc) SClose t.

(* The parser.  [k] is in_call_args_depth > 0.  [n] is fuel.
   - [bp]: parse_bp, 2514-2612 (parse_expression is [bp] with 0);
   - [loop]: its loop, with the left operand;
   - [prefix]: parse_prefix and parse_primary, 2614-2680, and parse_function,
     2747-2774;
   - [args]: the loops of parse_call_arguments, 2780-2844, and of
     parse_function_arguments, 2846-2906;
   - [arr]: the loop of parse_array, 2908-2945.  A Sep token of another
     subtype would make that loop spin; the tokenizer makes none. *)
Fixpoint bp (n : nat) (k : bool) (m : N) (ts : list tok) {struct n} : pres (expr * list tok) :=
  match n with
  | O => PFuel
  | S n =>
      match prefix n k ts with
      | POk (l, ts1) => loop n k m l ts1
      | PErr => PErr
      | PFuel => PFuel
      end
  end
with loop (n : nat) (k : bool) (m : N) (left : expr) (ts : list tok) {struct n}
  : pres (expr * list tok) :=
  match n with
  | O => PFuel
  | S n =>
      match skip_ws ts with
      | [] => POk (left, [])
      | t :: r =>
          if is_tok TParen SOpen t then
            match enter n true k r with
            | POk (a, r1) => loop n k m (ECall left a) r1
            | PErr => PErr
            | PFuel => PFuel
            end
          else if ttype_eqb (tt t) TPost then
            if fst (op_prec (sem_value t)) <? m then POk (left, t :: r)
            else loop n k m (EUn (sem_value t) left) r
          else if negb (ttype_eqb (tt t) TInf) then POk (left, t :: r)
          else if k && text_eqb (tv t) [c_comma] then POk (left, t :: r)
          else
            let '(p, la) := op_prec (sem_value t) in
            if p <? m then POk (left, t :: r)
            else
              match bp n k (if la then p + 1 else p) r with
              | POk (y, r1) => loop n k m (EBin (sem_value t) left y) r1
              | PErr => PErr
              | PFuel => PFuel
              end
      end
  end
with prefix (n : nat) (k : bool) (ts : list tok) {struct n} : pres (expr * list tok) :=
  match n with
  | O => PFuel
  | S n =>
      match skip_ws ts with
      | [] => PErr
      | t :: r =>
          match tt t with
          | TPre =>
              match bp n k pre_prec r with
              | POk (x, r1) => POk (EUn (sem_value t) x, r1)
              | PErr => PErr
              | PFuel => PFuel
              end
          | TOperand =>
              match operand (tsb t) (tv t) with
              | Some e => POk (e, r)
              | None => PErr
              end
          | TFunc =>
              match enter n false k r with
              | POk (a, r1) => POk (EFn (removelast (tv t)) a, r1)
              | PErr => PErr
              | PFuel => PFuel
              end
          | TParen =>
              if tsub_eqb (tsb t) SOpen then
                match bp n k 0 r with
                | POk (x, r1) =>
                    match skip_ws r1 with
                    | t2 :: r2 => if is_tok TParen SClose t2 then POk (x, r2) else PErr
                    | [] => PErr
                    end
                | PErr => PErr
                | PFuel => PFuel
                end
              else PErr
          | TArray =>
              if tsub_eqb (tsb t) SOpen then
                match skip_ws r with
                | t2 :: r2 =>
                    if is_tok TArray SClose t2 then POk (EArr [], r2)
                    else
                      match bp n k 0 (t2 :: r2) with
                      | POk (x, r1) => arr n k [] [x] r1
                      | PErr => PErr
                      | PFuel => PFuel
                      end
                | [] => PErr
                end
              else PErr
          | _ => PErr
          end
      end
  end
with enter (n : nat) (call k : bool) (ts : list tok) {struct n}
  : pres (list expr * list tok) :=
  match n with
  | O => PFuel
  | S n =>
      match skip_ws ts with
      | t :: r => if is_close call t then POk ([], r)
                  else args n call (call || k) true false [] (t :: r)
      | [] => PErr
      end
  end
with args (n : nat) (call k expect saw : bool) (acc : list expr) (ts : list tok) {struct n}
  : pres (list expr * list tok) :=
  match n with
  | O => PFuel
  | S n =>
      match skip_ws ts with
      | [] => PErr
      | t :: r =>
          if expect then
            if is_close call t then POk (if saw then acc ++ [EOmit] else acc, r)
            else if is_sep call t then args n call k true true (acc ++ [EOmit]) r
            else
              match bp n k 0 (t :: r) with
              | POk (x, r1) => args n call k false true (acc ++ [x]) r1
              | PErr => PErr
              | PFuel => PFuel
              end
          else if is_sep call t then args n call k true saw acc r
          else if is_close call t then POk (acc, r)
          else PErr
      end
  end
with arr (n : nat) (k : bool) (rows : list (list expr)) (row : list expr) (ts : list tok)
  {struct n} : pres (expr * list tok) :=
  match n with
  | O => PFuel
  | S n =>
      match skip_ws ts with
      | [] => POk (EArr rows, [])
      | t :: r =>
          if ttype_eqb (tt t) TSep then
            match tsb t with
            | SArg =>
                match bp n k 0 r with
                | POk (x, r1) => arr n k rows (row ++ [x]) r1
                | PErr => PErr
                | PFuel => PFuel
                end
            | SRow =>
                match bp n k 0 r with
                | POk (x, r1) => arr n k (rows ++ [row]) [x] r1
                | PErr => PErr
                | PFuel => PFuel
                end
            | _ => PErr
            end
          else if is_tok TArray SClose t then POk (EArr (rows ++ [row]), r)
          else PErr
      end
  end.

(* Parser::parse, 2450-2512. *)
Definition parse_tokens (ts : list tok) : pres expr :=
  match skip_ws ts with
  | [] => PErr
  | t :: r =>
      if ttype_eqb (tt t) TLiteral then
        match skip_ws r with [] => POk (EText (sem_value t)) | _ => PErr end
      else
        match bp (4 * List.length ts + 4) false 0 ts with
        | POk (e, r1) => match skip_ws r1 with [] => POk e | _ => PErr end
        | PErr => PErr
        | PFuel => PFuel
        end
  end.

Definition is_num (v : text) : bool := match pnum v with Some _ => true | None => false end.

(* parser.rs parse / Parser::new + parse: tokenise, then parse. *)
Definition parse_formula (d : dialect) (f : text) : pres expr :=
  match tokenize is_num d f with
  | LOk ts => parse_tokens ts
  | LErr _ => PErr
  | LFuel => PFuel
  end.

(* ---- the printer ---- *)

(* infix_info, pretty.rs 23-35 (its table agrees with [op_prec] on infix
   operators), and unary_precedence, 37-43. *)
Definition un_prec (op : text) : N :=
  if text_eqb op (tx "#") then 11 else if text_eqb op (tx "%") then 7 else 6.

Definition in_prec (op : text) : N * bool :=
  if text_eqb op (tx "#") || text_eqb op (tx "%") then (0, true) else op_prec op.

(* node_precedence, 45-52. *)
Definition node_prec (e : expr) : N :=
  match e with
  | EBin op _ _ => fst (in_prec op)
  | EUn op _ => un_prec op
  | _ => 10
  end.

(* child_needs_parens, 54-99. *)
Definition left_parens (op : text) (c : expr) : bool :=
  let '(p, la) := in_prec op in
  (node_prec c <? p)
  || ((node_prec c =? p) && negb la && match c with EBin _ _ _ => true | _ => false end).

Definition right_parens (op : text) (c : expr) : bool :=
  let '(p, la) := in_prec op in
  (node_prec c <? p)
  || ((node_prec c =? p)
      && match c with
         | EBin op2 _ _ =>
             if la then negb (text_eqb op2 op) || text_eqb op (tx "-") || text_eqb op (tx "/")
             else negb (text_eqb op2 op)
         | _ => false
         end).

(* unary_operand_needs_parens, 101-110. *)
Definition postfix_op (op : text) : bool := text_eqb op (tx "%") || text_eqb op (tx "#").

Definition un_parens (op : text) (c : expr) : bool :=
  match c with
  | EBin _ _ _ => postfix_op op || (node_prec c <? un_prec op)
  | _ => false
  end.

Definition wrap (b : bool) (s : text) : text := if b then c_lp :: s ++ [c_rp] else s.

(* Text literals, 145-148. *)
Fixpoint double_dq (s : text) : text :=
  match s with
  | [] => []
  | c :: r => if c =? c_dq then c_dq :: c_dq :: double_dq r else c :: double_dq r
  end.
Definition quote (s : text) : text := c_dq :: double_dq s ++ [c_dq].

(* pretty_print_arguments, 126-139: a separator and, unless the argument is
   omitted, a space before every argument but the first. *)
Definition is_omit (e : expr) : bool := match e with EOmit => true | _ => false end.
Definition rest_args (l : list (bool * text)) : text :=
  List.concat (map (fun a : bool * text =>
    let '(om, s) := a in c_comma :: (if om then [] else [c_sp]) ++ s) l).
Definition join_args (l : list (bool * text)) : text :=
  match l with [] => [] | (_, s) :: r => s ++ rest_args r end.

(* slice::join. *)
Fixpoint join (sep : text) (l : list text) : text :=
  match l with
  | [] => []
  | [s] => s
  | s :: r => s ++ sep ++ join sep r
  end.

(* pretty_print_node, 141-207.  Display of a bool is lower case. *)
Definition infix_text (op ls rs : text) : text :=
  if text_eqb op (tx ":") then ls ++ [c_colon] ++ rs
  else if text_eqb op (tx " ") then ls ++ [c_sp] ++ rs
  else if text_eqb op (tx ",") then ls ++ [c_comma; c_sp] ++ rs
  else ls ++ [c_sp] ++ op ++ [c_sp] ++ rs.

Fixpoint show (e : expr) : text :=
  match e with
  | ENum n => snum n
  | EText t => quote t
  | EBool b => if b then tx "true" else tx "false"
  | EErr e => show_error e
  | ERef r => sref r
  | EOmit => []
  | EUn op x =>
      let s := wrap (un_parens op x) (show x) in
      if postfix_op op then s ++ op else op ++ s
  | EBin op l r =>
      infix_text op (wrap (left_parens op l) (show l)) (wrap (right_parens op r) (show r))
  | EFn name a =>
      upper name ++ [c_lp] ++ join_args (map (fun x => (is_omit x, show x)) a) ++ [c_rp]
  | ECall f a =>
      wrap (match f with EFn _ _ | ECall _ _ => false | _ => true end) (show f)
      ++ [c_lp] ++ join_args (map (fun x => (is_omit x, show x)) a) ++ [c_rp]
  | EArr rows =>
      [c_lc] ++ join [c_semi; c_sp] (map (fun row => join [c_comma; c_sp] (map show row)) rows)
      ++ [c_rc]
  end.

(* canonical_formula, 209-215. *)
Definition canonical (e : expr) : text := c_eq :: show e.
End Pratt.
