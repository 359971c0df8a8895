(** Evaluation of formulas: crates/formualizer-eval/src/interpreter.rs (64-115 local
    environments, 214-258 local names, 272-332 and 335-440 references, 581-811 the
    evaluator of stored formulas, 813-918 the evaluator of syntax trees, 920-983
    references, 985-1185 unary operators and implicit intersection, 1187-1415 binary
    operators, 1417-1545 arrays, 1556-1640 comparisons, 1642-1711 offsets),
    src/coercion.rs (11-24, 82-131, 158-178), src/traits.rs (157-180 into_literal,
    403-464 argument values, 498-662 argument references), src/builtins/lambda.rs
    (17-45 names and bindings, 146-170 LET, 172-206 calls, 297-331 LAMBDA).

    What is a parameter is collected in [world]: f64 arithmetic, the number and text
    conversions, the cells and ranges of the workbook and the registered functions.
    Simplifications.  Error messages and number formats (AnnotatedScalar) are dropped.
    A stored formula is the tree it stands for, with no parameter bindings.  A
    registered function other than LET and LAMBDA is a function of what its argument
    handles show: whether the argument is left out, its value and its range.  It
    answers with a value or with one of its arguments (IF, CHOOSE, IFERROR); that an
    argument is not evaluated when it is not needed makes no difference, because
    evaluation has no effects.  Functions that return references (OFFSET, INDEX) are
    taken to return values.  The rows of an array literal have the same length.
    Cancellation and the size of the stack are left out.
    Evaluation is counted by fuel; [None] is "not enough". *)
From Verif Require Import Base Maps LookupModel BcastModel.

(** Error kinds, by their place in [ExcelErrorKind]. *)
Definition K_REF : N := 1%N.
Definition K_NAME : N := 2%N.
Definition K_VALUE : N := 3%N.
Definition K_DIV : N := 4%N.
Definition K_NUM : N := 6%N.
Definition K_NIMPL : N := 8%N.
Definition K_CALC : N := 10%N.

(** ** Values *)

(** [LiteralValue] without arrays.  A date carries its serial in the 1900 system and
    in the date system of the workbook. *)
Inductive scalar (T : Type) :=
| SNum (x : T) | SInt (z : Z) | SBool (b : bool) | SText (s : text) | SErr (e : N)
| SEmpty | SDate (s1900 s : T) | SOther.
Arguments SNum {T}. Arguments SInt {T}. Arguments SBool {T}. Arguments SText {T}.
Arguments SErr {T}. Arguments SEmpty {T}. Arguments SDate {T}. Arguments SOther {T}.

Definition grid (T : Type) := list (list (scalar T)).
(** [LiteralValue] *)
Inductive value (T : Type) := VS (s : scalar T) | VA (g : grid T).
Arguments VS {T}. Arguments VA {T}.

(** [RangeView]: the cells, where they start, and whether the range is a temporary one. *)
Record range (T : Type) := mkRange { g_tmp : bool; g_row : Z; g_col : Z; g_cells : grid T }.
Arguments mkRange {T}. Arguments g_tmp {T}. Arguments g_row {T}. Arguments g_col {T}. Arguments g_cells {T}.

(** [CalcValue] without [Callable] *)
Inductive plain (T : Type) := PScalar (v : value T) | PRange (r : range T).
Arguments PScalar {T}. Arguments PRange {T}.

(** ** Syntax *)

(** [ReferenceType]; tables, 3-D and external references are [ROther]. *)
Inductive ref :=
| RCell (sheet : option text) (row col : Z) (row_abs col_abs : bool)
| RRange (sheet : option text) (sr sc er ec : option Z) (sra sca era eca : bool)
| RName (name : text)
| ROther (k : N).

Inductive cmpop := CEq | CNe | CGt | CLt | CGe | CLe.
Inductive aop := AAdd | ASub | AMul | ADiv | APow.
Inductive binop := OArith (o : aop) | OCat | OCmp (o : cmpop) | ORange | OUnknown.
Inductive unop := UPlus | UNeg | UPct | UAt | UUnknown.

(** [ASTNodeType] *)
Inductive expr (T : Type) :=
| ELit (v : value T)
| EOmit
| ERef (r : ref)
| EUn (op : unop) (a : expr T)
| EBin (op : binop) (a b : expr T)
| EFun (name : text) (args : list (expr T))
| ECall (callee : expr T) (args : list (expr T))
| EArr (rows : list (list (expr T))).
Arguments ELit {T}. Arguments EOmit {T}. Arguments ERef {T}. Arguments EUn {T}. Arguments EBin {T}.
Arguments EFun {T}. Arguments ECall {T}. Arguments EArr {T}.

(** ** Functions of the workbook *)

(** What a handle shows of a value. *)
Inductive seen (T : Type) := SeenPlain (p : plain T) | SeenCall.
Arguments SeenPlain {T}. Arguments SeenCall {T}.
(** [ResolvedArgument] *)
Inductive resolved (T : Type) := ResRange (r : range T) | ResError (e : N) | ResValue (s : seen T).
Arguments ResRange {T}. Arguments ResError {T}. Arguments ResValue {T}.
Record arg (T : Type) := mkArg { a_omitted : bool; a_value : res N (seen T); a_range : res N (resolved T) }.
Arguments mkArg {T}. Arguments a_omitted {T}. Arguments a_value {T}. Arguments a_range {T}.
Inductive answer (T : Type) := AVal (r : res N (plain T)) | AArg (i : nat).
Arguments AVal {T}. Arguments AArg {T}.
Inductive fn (T : Type) := FLet | FLambda | FPrim (f : list (arg T) -> answer T).
Arguments FLet {T}. Arguments FLambda {T}. Arguments FPrim {T}.

Record world := {
  T : Type;
  w_arith : aop -> T -> T -> T;
  w_neg : T -> T;
  w_pct : T -> T;
  w_int : Z -> T;
  w_bool : bool -> T;
  w_zero : T;
  w_is_zero : T -> bool;
  w_is_neg : T -> bool;
  w_has_frac : T -> bool;
  w_finite : T -> bool;
  w_cmp : T -> T -> option comparison;     (* partial_cmp *)
  w_number : text -> option T;             (* parse_number_invariant *)
  w_datetime : text -> option T;           (* parse_excel_datetime_text_to_serial_for *)
  w_fold : text -> text;                   (* fold_case_invariant *)
  w_show : T -> text;
  w_show_int : Z -> text;
  w_show_err : N -> text;
  w_show_grid : grid T -> text;            (* {:?} *)
  w_show_other : text;
  w_sheet : text;
  w_here : option (Z * Z);                 (* current cell, from zero *)
  w_cell : option text -> Z -> Z -> res N (scalar T);
  w_view : ref -> res N (range T);
  w_combine : ref -> ref -> res N ref;
  w_fn : text -> option (fn T);
  w_keep : scalar T -> scalar T;           (* a cell of an owned range, read back *)
  w_nested : grid T -> scalar T            (* the same for an array *)
}.

(** [to_ascii_uppercase] *)
Definition norm (n : text) : text := map to_ascii_upper n.

Section Eval.
  Variable W : world.
  Let T := T W.

  (** ** Environments *)
  (** lambda.rs:172-177, interpreter.rs:64-80.  A frame holds one binding. *)
  Inductive binding := BVal (v : value T) | BClo (c : closure)
  with closure := Clo (ps : list text) (body : expr T) (env : list (text * binding)).
  Definition env := list (text * binding).
  Definition clo_params (c : closure) := let 'Clo ps _ _ := c in ps.

  (** [CalcValue] *)
  Inductive calc := CPlain (p : plain T) | CClo (c : closure).
  Definition scal (s : scalar T) : calc := CPlain (PScalar (VS s)).
  Definition serr (e : N) : calc := scal (SErr e).

  (** interpreter.rs:87-115 *)
  Fixpoint find (k : text) (e : env) : option binding :=
    match e with
    | [] => None
    | (k', b) :: e' => if text_eqb k k' then Some b else find k e'
    end.
  Definition lookup (e : env) (n : text) : option binding := find (norm n) e.
  Definition bind (n : text) (b : binding) (e : env) : env := (norm n, b) :: e.

  (** The parts of [Interpreter] that change while a formula is evaluated. *)
  Record interp := mkInterp { i_env : env; i_dr : Z; i_dc : Z }.
  Definition with_env (i : interp) (e : env) : interp := mkInterp e (i_dr i) (i_dc i).

  (** range_view.rs, [RangeView::get_cell], [dims] and [from_owned_rows] (short rows are filled) *)
  Definition dims (g : grid T) : nat * nat := (length g, match g with [] => 0 | row :: _ => length row end).
  Definition get (g : grid T) (r c : nat) : scalar T := nth c (nth r g []) SEmpty.
  Definition owned (rows : list (list (value T))) : range T :=
    let w := fold_right Nat.max 0 (map (@length (value T)) rows) in
    let cell v := match v with VS s => w_keep W s | VA g => w_nested W g end in
    mkRange true 0 0
      (if w =? 0 then []
       else map (fun row => map cell row ++ repeat SEmpty (w - length row)) rows).

  (** traits.rs:157-180 *)
  Definition plain_literal (p : plain T) : value T :=
    match p with
    | PScalar v => v
    | PRange r => match g_cells r with [[s]] => VS s | g => VA g end
    end.
  Definition into_literal (c : calc) : value T :=
    match c with CPlain p => plain_literal p | CClo _ => VS (SErr K_CALC) end.
  (** lambda.rs:27-45 *)
  Definition binding_of (c : calc) : binding :=
    match c with CPlain p => BVal (plain_literal p) | CClo c => BClo c end.

  (** ** Coercions *)
  (** coercion.rs:11-24 *)
  Definition to_number_strict (s : scalar T) : res N T :=
    match s with
    | SNum x => Ok x
    | SInt z => Ok (w_int W z)
    | SBool b => Ok (w_bool W b)
    | SEmpty => Ok (w_zero W)
    | SDate x _ => Ok x
    | SErr e => Err e
    | SText _ | SOther => Err K_VALUE
    end.
  (** coercion.rs:82-93 *)
  Definition to_number_lenient (s : scalar T) : res N T :=
    match s with
    | SText t => match w_number W t with Some x => Ok x | None => Err K_VALUE end
    | _ => to_number_strict s
    end.
  (** coercion.rs:102-131 *)
  Definition to_arithmetic_number (s : scalar T) : res N T :=
    match s with
    | SText t => match w_number W t with
                 | Some x => Ok x
                 | None => match w_datetime W t with Some x => Ok x | None => Err K_VALUE end
                 end
    | SDate _ y => Ok y
    | _ => to_number_strict s
    end.
  (** coercion.rs:158-178 *)
  Definition to_text (v : value T) : text :=
    match v with
    | VS (SText t) => t
    | VS (SNum x) => w_show W x
    | VS (SInt z) => w_show_int W z
    | VS (SBool b) => if b then [84; 82; 85; 69]%N else [70; 65; 76; 83; 69]%N
    | VS (SErr e) => w_show_err W e
    | VS SEmpty => []
    | VS (SDate x _) => w_show W x
    | VS SOther => w_show_other W
    | VA g => w_show_grid W g
    end.
  (** coercion.rs:181-186: infinities and NaN become #NUM!. *)
  Definition sanitized (x : T) : scalar T := if w_finite W x then SNum x else SErr K_NUM.

  (** ** Operators on single values *)
  (** interpreter.rs:1187-1203 *)
  Definition number_unary (f : T -> T) (s : scalar T) : scalar T :=
    match to_arithmetic_number s with
    | Ok x => sanitized (f x)
    | Err e => SErr e
    | Panic => SOther
    end.
  (** interpreter.rs:1005-1018 *)
  Definition unary_scalar (op : unop) (s : scalar T) : res N (scalar T) :=
    match op with
    | UPlus => Ok s
    | UNeg => Ok (number_unary (w_neg W) s)
    | UPct => Ok (number_unary (w_pct W) s)
    | _ => Err K_NIMPL
    end.
  (** interpreter.rs:1332-1415 *)
  Definition arith (o : aop) (l r : scalar T) : scalar T :=
    match to_arithmetic_number l, to_arithmetic_number r with
    | Ok a, Ok b =>
        match o with
        | ADiv => if w_is_zero W b then SErr K_DIV else sanitized (w_arith W o a b)
        | APow => if w_is_neg W a && w_has_frac W b then SErr K_NUM else sanitized (w_arith W o a b)
        | _ => sanitized (w_arith W o a b)
        end
    | Err e, _ => SErr e
    | _, Err e => SErr e
    | _, _ => SOther
    end.
  (** interpreter.rs:1612-1622 *)
  Definition holds (o : cmpop) (c : option comparison) : bool :=
    match o, c with
    | CEq, Some Eq | CGt, Some Gt | CLt, Some Lt => true
    | CNe, Some Eq => false
    | CNe, _ => true
    | CGe, Some Gt | CGe, Some Eq | CLe, Some Lt | CLe, Some Eq => true
    | _, _ => false
    end.
  (** interpreter.rs:1623-1640 *)
  Definition cmp_text (o : cmpop) (a b : text) : bool :=
    holds o (Some (text_cmp (w_fold W a) (w_fold W b))).
  (** interpreter.rs:1577-1609 *)
  Definition compared (o : cmpop) (l r : scalar T) : bool :=
    match l, r with
    | SNum a, SNum b => holds o (w_cmp W a b)
    | SInt a, SNum b => holds o (w_cmp W (w_int W a) b)
    | SNum a, SInt b => holds o (w_cmp W a (w_int W b))
    | SBool a, SBool b => holds o (w_cmp W (w_bool W a) (w_bool W b))
    | SText a, SText b => cmp_text o a b
    | a, b =>
        match to_number_lenient a, to_number_lenient b with
        | Ok x, Ok y => holds o (w_cmp W x y)
        | _, _ => cmp_text o (to_text (VS a)) (to_text (VS b))
        end
    end.
  (** interpreter.rs:1556-1610 on single values *)
  Definition compare (o : cmpop) (l r : scalar T) : scalar T :=
    match l, r with
    | SErr e, _ => SErr e
    | _, SErr e => SErr e
    | _, _ => SBool (compared o l r)
    end.

  (** ** Operators on arrays *)
  (** interpreter.rs:1417-1433 *)
  Definition map_array (f : scalar T -> res N (scalar T)) (g : grid T) : grid T :=
    map (map (fun s => match f s with Ok v => v | Err e => SErr e | Panic => SOther end)) g.
  Definition shape_of (v : value T) : shape := match v with VS _ => (1, 1) | VA g => dims g end.
  Definition at_index (v : value T) (i : nat * nat) : scalar T :=
    match v with VS s => s | VA g => get g (fst i) (snd i) end.
  (** interpreter.rs:1435-1545 *)
  Definition broadcast_apply (f : scalar T -> scalar T -> scalar T) (l r : value T) : value T :=
    match l, r with
    | VS a, VS b => VS (f a b)
    | _, _ =>
        match broadcast_shape [shape_of l; shape_of r] with
        | Ok (n, m) =>
            VA (map (fun i => map (fun j =>
                  f (at_index l (project_index (i, j) (shape_of l)))
                    (at_index r (project_index (i, j) (shape_of r)))) (seq 0 m)) (seq 0 n))
        | _ => VS (SErr K_VALUE)
        end
    end.
  (** interpreter.rs:1556-1576 *)
  Definition compare_values (o : cmpop) (l r : value T) : value T :=
    match l, r with
    | VS (SErr e), _ => VS (SErr e)
    | _, VS (SErr e) => VS (SErr e)
    | _, _ => broadcast_apply (compare o) l r
    end.
  (** interpreter.rs:992-1003 *)
  Definition unary (op : unop) (v : value T) : res N (value T) :=
    match v with
    | VA g => Ok (VA (map_array (unary_scalar op) g))
    | VS s => rbind (unary_scalar op s) (fun s => Ok (VS s))
    end.
  (** interpreter.rs:1217-1247, 1263: every operator but the colon *)
  Definition binary (op : binop) (l r : value T) : res N (value T) :=
    match op with
    | OCmp o => Ok (compare_values o l r)
    | OArith o => Ok (broadcast_apply (arith o) l r)
    | OCat => Ok (VS (SText (to_text l ++ to_text r)))
    | _ => Err K_NIMPL
    end.

  (** ** References *)
  (** interpreter.rs:1702-1711 *)
  Definition shift_axis (x delta : Z) (abs : bool) : res N Z :=
    if abs then Ok x
    else if ((x + delta <? 1) || (2 ^ 32 <=? x + delta))%Z then Err K_REF else Ok (x + delta)%Z.
  (** interpreter.rs:1692-1700 *)
  Definition shift_opt (x : option Z) (delta : Z) (abs : bool) : res N (option Z) :=
    match x with None => Ok None | Some x => rbind (shift_axis x delta abs) (fun y => Ok (Some y)) end.
  (** interpreter.rs:1642-1690 *)
  Definition relocate (r : ref) (dr dc : Z) : res N ref :=
    match r with
    | RCell s row col ra ca =>
        rbind (shift_axis row dr ra) (fun row => rbind (shift_axis col dc ca) (fun col => Ok (RCell s row col ra ca)))
    | RRange s sr sc er ec sra sca era eca =>
        rbind (shift_opt sr dr sra) (fun sr => rbind (shift_opt sc dc sca) (fun sc =>
        rbind (shift_opt er dr era) (fun er => rbind (shift_opt ec dc eca) (fun ec =>
        Ok (RRange s sr sc er ec sra sca era eca)))))
    | RName n => Ok (RName n)
    | ROther _ => Err K_REF
    end.
  (** interpreter.rs:214-227 *)
  Definition effective (i : interp) (r : ref) : res N ref :=
    if ((i_dr i =? 0) && (i_dc i =? 0))%Z then Ok r else relocate r (i_dr i) (i_dc i).
  (** interpreter.rs:229-244 *)
  Definition local_ref (i : interp) (r : ref) : option calc :=
    match r with
    | RName n => match lookup (i_env i) n with
                 | Some (BVal v) => Some (CPlain (PScalar v))
                 | Some (BClo c) => Some (CClo c)
                 | None => None
                 end
    | _ => None
    end.
  (** interpreter.rs:955-977 *)
  Definition read_ref (r : ref) : res N calc :=
    match r with
    | RCell s row col _ _ => rbind (w_cell W s row col) (fun v => Ok (scal v))
    | _ => rbind (w_view W r) (fun v => Ok (CPlain (PRange v)))
    end.
  (** interpreter.rs:920-953 *)
  Definition ref_tree (i : interp) (r : ref) : res N calc :=
    match i_env i with
    | _ :: _ =>
        rbind (effective i r) (fun r => match local_ref i r with Some c => Ok c | None => read_ref r end)
    | [] =>
        match r with
        | RCell s row col ra ca =>
            rbind (shift_axis row (i_dr i) ra) (fun row => rbind (shift_axis col (i_dc i) ca) (fun col =>
            rbind (w_cell W s row col) (fun v => Ok (scal v))))
        | _ => rbind (effective i r) read_ref
        end
    end.
  (** interpreter.rs:603-641 *)
  Definition ref_arena (i : interp) (r : ref) : res N calc :=
    let slow := rbind (effective i r) (fun r => match local_ref i r with Some c => Ok c | None => read_ref r end) in
    match i_env i, r with
    | [], RCell s row col ra ca =>
        if ((0 <? row) && (0 <? col))%Z
        then rbind (shift_axis row (i_dr i) ra) (fun row => rbind (shift_axis col (i_dc i) ca) (fun col =>
             rbind (w_cell W s row col) (fun v => Ok (scal v))))
        else slow
    | _, _ => slow
    end.

  (** ** Implicit intersection *)
  Definition here : Z * Z := match w_here W with Some p => p | None => (0, 0)%Z end.
  (** interpreter.rs:1020-1091 *)
  Definition at_range (r : range T) : scalar T :=
    let '(rows, cols) := dims (g_cells r) in
    if (rows =? 0) || (cols =? 0) then SErr K_VALUE else
    if g_tmp r then get (g_cells r) 0 0 else
    if (rows =? 1) && (cols =? 1) then get (g_cells r) 0 0 else
    let rr := (fst here - g_row r)%Z in
    let cc := (snd here - g_col r)%Z in
    let row_in := ((0 <=? rr) && (rr <? Z.of_nat rows))%Z in
    let col_in := ((0 <=? cc) && (cc <? Z.of_nat cols))%Z in
    if cols =? 1 then (if row_in then get (g_cells r) (Z.to_nat rr) 0 else SErr K_VALUE)
    else if rows =? 1 then (if col_in then get (g_cells r) 0 (Z.to_nat cc) else SErr K_VALUE)
    else if row_in && col_in then get (g_cells r) (Z.to_nat rr) (Z.to_nat cc) else SErr K_VALUE.
  Definition at_calc (c : calc) : scalar T :=
    match c with
    | CPlain (PScalar (VS s)) => s
    | CPlain (PScalar (VA g)) =>
        match g with [] | [] :: _ => SErr K_VALUE | (s :: _) :: _ => s end
    | CPlain (PRange r) => at_range r
    | CClo _ => SErr K_CALC
    end.
  Definition shown (r : res N (scalar T)) : scalar T :=
    match r with Ok s => s | Err e => SErr e | Panic => SOther end.
  (** interpreter.rs:1093-1185 *)
  Definition at_reference (r : ref) : scalar T :=
    let cr := (fst here + 1)%Z in
    let cc := (snd here + 1)%Z in
    let on s := Some (match s with Some s => s | None => w_sheet W end) in
    match r with
    | RCell s row col _ _ => shown (w_cell W (on s) row col)
    | RRange s (Some sr) (Some sc) (Some er) (Some ec) _ _ _ _ =>
        let r0 := Z.min sr er in let r1 := Z.max sr er in
        let c0 := Z.min sc ec in let c1 := Z.max sc ec in
        let row_in := ((r0 <=? cr) && (cr <=? r1))%Z in
        let col_in := ((c0 <=? cc) && (cc <=? c1))%Z in
        if (c0 =? c1)%Z then (if row_in then shown (w_cell W (on s) cr c0) else SErr K_VALUE)
        else if (r0 =? r1)%Z then (if col_in then shown (w_cell W (on s) r0 cc) else SErr K_VALUE)
        else if row_in && col_in then shown (w_cell W (on s) cr cc) else SErr K_VALUE
    | _ => match read_ref r with Ok c => at_calc c | Err e => SErr e | Panic => SOther end
    end.

  (** ** Arguments of functions *)
  (** interpreter.rs:272-311 and 335-397, without functions that return references *)
  Fixpoint as_reference (i : interp) (e : expr T) : res N ref :=
    match e with
    | ERef r => effective i r
    | EBin ORange a b =>
        rbind (as_reference i a) (fun x => rbind (as_reference i b) (fun y => w_combine W x y))
    | EFun name _ => match w_fn W name with Some _ => Err K_REF | None => Err K_NAME end
    | _ => Err K_REF
    end.
  Definition see (c : calc) : seen T := match c with CPlain p => SeenPlain p | CClo _ => SeenCall end.
  Definition rmap {A B} (f : A -> B) (r : res N A) : res N B := rbind r (fun a => Ok (f a)).
  (** traits.rs:535-662: the range of an argument.  A name is resolved in the workbook. *)
  Definition resolve (i : interp) (e : expr T) (v : res N calc) : res N (resolved T) :=
    let by_ref := Ok (match rbind (as_reference i e) (w_view W) with
                      | Ok g => ResRange g | Err k => ResError k | Panic => ResError K_REF end) in
    match e with
    | ERef _ | EBin ORange _ _ => by_ref
    | _ => rmap (fun c => match c with
                          | CPlain (PRange g) => ResRange g
                          | CPlain (PScalar (VA g)) => ResRange (owned (map (map VS) g))
                          | _ => ResValue (see c)
                          end) v
    end.
  Definition handle (i : interp) (e : expr T) (v : res N calc) : arg T :=
    mkArg (match e with EOmit => true | _ => false end) (rmap see v) (resolve i e v).
  (** An answer, given the results of the arguments. *)
  Definition settle (vs : list (res N calc)) (a : answer T) : res N calc :=
    match a with
    | AVal r => rmap CPlain r
    | AArg k => nth k vs (Err K_VALUE)
    end.

  (** ** One step of evaluation, over an evaluator [ev] of smaller fuel *)
  Section Step.
    Variable ev : interp -> expr T -> option (res N calc).

    Definition obind {A} (r : option (res N A)) {B} (f : A -> option (res N B)) : option (res N B) :=
      match r with Some (Ok a) => f a | Some (Err e) => Some (Err e) | Some Panic => Some Panic | None => None end.
    (** The literals of arguments, up to the first error. *)
    Fixpoint literals (i : interp) (es : list (expr T)) : option (res N (list (value T))) :=
      match es with
      | [] => Some (Ok [])
      | e :: es => obind (ev i e) (fun c => obind (literals i es) (fun vs => Some (Ok (into_literal c :: vs))))
      end.
    Fixpoint rows_of (i : interp) (rows : list (list (expr T))) : option (res N (list (list (value T)))) :=
      match rows with
      | [] => Some (Ok [])
      | r :: rs => obind (literals i r) (fun vs => obind (rows_of i rs) (fun vss => Some (Ok (vs :: vss))))
      end.
    (** The results of all arguments. *)
    Fixpoint results (i : interp) (es : list (expr T)) : option (list (res N calc)) :=
      match es with
      | [] => Some []
      | e :: es => match ev i e, results i es with Some r, Some rs => Some (r :: rs) | _, _ => None end
      end.

    (** lambda.rs:17-25 *)
    Definition local_name (e : expr T) : option text :=
      match e with ERef (RName n) => Some n | _ => None end.
    (** lambda.rs:156-169 *)
    Fixpoint let_go (i : interp) (e : env) (args : list (expr T)) : option (res N calc) :=
      match args with
      | [body] => ev (with_env i e) body
      | x :: a :: rest =>
          match local_name x with
          | None => Some (Ok (serr K_VALUE))
          | Some n => obind (ev (with_env i e) a) (fun c => let_go i (bind n (binding_of c) e) rest)
          end
      | [] => Some (Ok (serr K_VALUE))
      end.
    (** lambda.rs:146-170 *)
    Definition eval_let (i : interp) (args : list (expr T)) : option (res N calc) :=
      if (length args <? 3) || Nat.even (length args) then Some (Ok (serr K_VALUE))
      else let_go i (i_env i) args.

    (** lambda.rs:297-331: the parameters and the body *)
    Fixpoint lambda_parts (seen : list text) (es : list (expr T)) : option (list text * expr T) :=
      match es with
      | [] => None
      | [body] => Some ([], body)
      | e :: es =>
          match local_name e with
          | None => None
          | Some n => if existsb (text_eqb (norm n)) seen then None
                      else match lambda_parts (norm n :: seen) es with
                           | Some (ps, body) => Some (n :: ps, body)
                           | None => None
                           end
          end
      end.
    Definition eval_lambda (i : interp) (args : list (expr T)) : res N calc :=
      match lambda_parts [] args with
      | None => Ok (serr K_VALUE)
      | Some (ps, body) => Ok (CClo (Clo ps body (i_env i)))
      end.

    (** interpreter.rs:246-254 *)
    Definition local_callable (i : interp) (name : text) : option closure :=
      match lookup (i_env i) name with Some (BClo c) => Some c | _ => None end.
    (** lambda.rs:179-206 *)
    Fixpoint bind_all (ps : list text) (vs : list (value T)) (e : env) : env :=
      match ps, vs with
      | p :: ps, v :: vs => bind_all ps vs (bind p (BVal v) e)
      | _, _ => e
      end.
    Definition invoke (i : interp) (c : closure) (vs : list (value T)) : option (res N calc) :=
      let 'Clo ps body e := c in
      if length vs =? length ps then ev (with_env i (bind_all ps vs e)) body
      else Some (Ok (serr K_VALUE)).

    Definition eval_fn (i : interp) (f : fn T) (args : list (expr T)) : option (res N calc) :=
      match f with
      | FLet => eval_let i args
      | FLambda => Some (eval_lambda i args)
      | FPrim p =>
          match results i args with
          | None => None
          | Some rs => Some (settle rs (p (map (fun '(e, v) => handle i e v) (combine args rs))))
          end
      end.
  End Step.

  (** interpreter.rs:813-918, 985-1003, 1205-1330: the evaluator of syntax trees *)
  Definition tree_step (ev : interp -> expr T -> option (res N calc)) (i : interp) (e : expr T) : option (res N calc) :=
    match e with
    | ELit v => Some (Ok (CPlain (PScalar v)))
    | EOmit => Some (Ok (scal (SNum (w_zero W))))
    | ERef r => Some (ref_tree i r)
    | EUn op a =>
        match op, a with
        | UAt, ERef r => Some (rmap (fun r => scal (at_reference r)) (effective i r))
        | UAt, _ => obind (ev i a) (fun c => Some (Ok (scal (at_calc c))))
        | _, _ => obind (ev i a) (fun c => Some (rmap (fun v => CPlain (PScalar v)) (unary op (into_literal c))))
        end
    | EBin op a b =>
        obind (ev i a) (fun l => obind (ev i b) (fun r =>
          match op with
          | ORange =>
              Some (rbind (as_reference i a) (fun x => rbind (as_reference i b) (fun y =>
                match w_combine W x y with Ok _ => Err K_REF | Err k => Ok (serr k) | Panic => Panic end)))
          | _ => Some (rmap (fun v => CPlain (PScalar v)) (binary op (into_literal l) (into_literal r)))
          end))
    | EFun name args =>
        match w_fn W name with
        | Some f => eval_fn ev i f args
        | None =>
            match local_callable i name with
            | Some c => obind (literals ev i args) (fun vs => invoke ev i c vs)
            | None => Some (Ok (serr K_NAME))
            end
        end
    | ECall _ _ => Some (Err K_NIMPL)
    | EArr rows => obind (rows_of ev i rows) (fun vss => Some (Ok (CPlain (PRange (owned vss)))))
    end.
  Fixpoint teval (n : nat) (i : interp) (e : expr T) : option (res N calc) :=
    match n with O => None | S n => tree_step (teval n) i e end.

  (** interpreter.rs:581-811: the evaluator of stored formulas.  The body of a LAMBDA is
      kept as a tree and evaluated as one ([tev]). *)
  Definition arena_step (ev tev : interp -> expr T -> option (res N calc)) (i : interp) (e : expr T) : option (res N calc) :=
    match e with
    | ELit v => Some (Ok (CPlain (PScalar v)))
    | EOmit => Some (Ok (scal (SNum (w_zero W))))
    | ERef r => Some (ref_arena i r)
    | EUn op a =>
        obind (ev i a) (fun c =>
          match op, a with
          | UAt, ERef r => Some (Ok (scal (at_reference r)))
          | UAt, _ => Some (Ok (scal (at_calc c)))
          | _, _ => Some (rmap (fun v => CPlain (PScalar v)) (unary op (into_literal c)))
          end)
    | EBin op a b =>
        match op with
        | ORange =>
            Some (rbind (as_reference i a) (fun x => rbind (as_reference i b) (fun y =>
              match w_combine W x y with Ok _ => Ok (serr K_REF) | Err k => Ok (serr k) | Panic => Panic end)))
        | _ =>
            obind (ev i a) (fun l => obind (ev i b) (fun r =>
              Some (rmap (fun v => CPlain (PScalar v)) (binary op (into_literal l) (into_literal r)))))
        end
    | EFun name args =>
        match w_fn W name with
        | Some f => eval_fn ev i f args
        | None =>
            match local_callable i name with
            | Some c => obind (literals ev i args) (fun vs => invoke tev i c vs)
            | None => Some (Err K_NAME)
            end
        end
    | ECall _ _ => Some (Ok (serr K_NIMPL))
    | EArr rows => obind (rows_of ev i rows) (fun vss => Some (Ok (CPlain (PRange (owned vss)))))
    end.
  (** arena/data_store.rs:434-447: a call of an expression is stored as an error literal. *)
  Fixpoint stored (e : expr T) : expr T :=
    match e with
    | EUn op a => EUn op (stored a)
    | EBin op a b => EBin op (stored a) (stored b)
    | EFun name args => EFun name (map stored args)
    | ECall _ _ => ELit (VS (SErr K_NIMPL))
    | EArr rows => EArr (map (map stored) rows)
    | _ => e
    end.
  Fixpoint aeval (n : nat) (i : interp) (e : expr T) : option (res N calc) :=
    match n with O => None | S n => arena_step (aeval n) (teval n) i e end.
  (** Storing a formula and evaluating what is stored. *)
  Definition store_eval (n : nat) (i : interp) (e : expr T) : option (res N calc) := aeval n i (stored e).
End Eval.
