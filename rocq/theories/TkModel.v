(** Template keys of the formula plane.
    crates/formualizer-eval/src/formula_plane/template_canonical.rs 27-1558 (canonical
    templates and their keys), function_contract.rs 8-178 (function identities and their
    encoding), formula_plane/placement.rs 1156-1234 and 1707-1793 (value slots and residual
    axes).

    Simplifications.  Texts are lists of bytes.  A literal carries what is printed of it in
    a key: a number its bits, an error, a date, a time or a duration its rendering
    ([{:?}] or [to_string]), so [canonicalize_literal] is the identity apart from the reject
    reason it records.  The label sets (BTreeSet) are sorted lists without repetition in the
    derived order.  [contains_volatile], a flag of the parsed tree, is a parameter.  The
    mutable canonicalizer is written as a function that returns the expression, the labels
    it records and the literal slots, all in the order of the calls.  The 64-bit hash of a
    payload is left out: families are compared by the payload (placement.rs:986-987). *)
From Coq Require Import List Bool NArith ZArith String Decimal Hexadecimal.
From Verif Require Import Base LexModel RtModel.
Import ListNotations.
Open Scope N_scope.

(** * Literals and formulas *)

(** LiteralValue and CanonicalLiteral, template_canonical.rs:118-133. *)
Inductive lit :=
| LInt (z : Z)
| LNum (bits : N)
| LText (t : text)
| LBool (b : bool)
| LErr (t : text)
| LArr (rows : list (list lit))
| LDate (t : text)
| LDateTime (t : text)
| LTime (t : text)
| LDur (t : text)
| LEmpty
| LPending.

(** ASTNodeType (formualizer-parse/src/parser.rs); references as in [RtModel]. *)
Inductive ast :=
| ALit (v : lit)
| AOmit
| ARef (original : text) (r : reft)
| AUn (op : text) (e : ast)
| ABin (op : text) (l r : ast)
| AFn (name : text) (args : list ast)
| ACall (callee : ast) (args : list ast)
| AArr (rows : list (list ast)).

(** * Function identities, function_contract.rs *)

Inductive depsem := RecursiveArgs | DynamicDep | UnsupportedDep.                  (* 9-13 *)
Inductive evalsem := Eager | ShortCircuit.                                         (* 16-19 *)
Inductive ressem := ScalarRes | MayRef | MaySpill | MayRefSpill | UnknownRes.      (* 22-28 *)
Inductive envsem := NoEnv | LocalEnv | UnknownEnv.                                 (* 53-57 *)
Inductive ctxdep := NoCtx | PlacementDep | WorkbookMeta | LocaleDep | UnsupportedCtx. (* 60-66 *)
Inductive depclass := StaticScalar | StaticReduction | CriteriaAgg.                (* 180-188 *)
Inductive role :=                                                                  (* 191-208 *)
| ScalarValue | FiniteRange | ReductionValue | CriteriaRange | CriteriaExpr | ValueRange
| LazyBranch | LookupKey | LookupTable | LookupSel | ByReference | LocalName | LocalValue
| LambdaBody | IgnoredLit | UnsupportedRole.
Inductive arity := Exactly (n : N) | AtLeast (n : N) | OneOf (l : list N) | EvenAtLeast (n : N) | OddAtLeast (n : N).
Inductive vrange := VNone | VFixed (i : N) | VOptional (provided fallback : N).    (* 232-244 *)
Inductive argdeps :=                                                               (* 253-259 *)
| AllArgs (r : role) | Variadic (r : role) | Criteria (v : vrange) (first : N)
| LocalPairs | LambdaParams.
Record precision := Prec { p_class : depclass; p_arity : arity; p_args : argdeps }. (* 262-266 *)
Record contract := Contract {                                                      (* 69-76 *)
  k_dep : depsem; k_eval : evalsem; k_res : ressem; k_env : envsem; k_ctx : ctxdep;
  k_prec : option precision }.

(** CanonicalFunctionId, template_canonical.rs:178-186.  FunctionSemanticIdentity
    (function_contract.rs:92-99) is one whose contract is present. *)
Record fid := Fid {
  f_ns : text; f_name : text; f_gen : N; f_caps : N; f_con : option contract; f_byref : list bool }.

(** FnCaps, function.rs:19-77. *)
Definition VOLATILE : N := 2.
Definition RETURNS_REFERENCE : N := 2048.
Definition DYNAMIC_DEPENDENCY : N := 32768.
Definition LOCAL_ENVIRONMENT : N := 65536.
Definition MAY_SPILL : N := 131072.
Definition has_cap (f : fid) (c : N) : bool := negb (N.land (f_caps f) c =? 0).

Definition may_ref (r : ressem) : bool := match r with MayRef | MayRefSpill => true | _ => false end.   (* 40-45 *)
Definition may_spill (r : ressem) : bool := match r with MaySpill | MayRefSpill => true | _ => false end. (* 47-49 *)

(** [as u8] of the fieldless enums. *)
Definition dep_code (x : depsem) : N := match x with RecursiveArgs => 0 | DynamicDep => 1 | UnsupportedDep => 2 end.
Definition eval_code (x : evalsem) : N := match x with Eager => 0 | ShortCircuit => 1 end.
Definition res_code (x : ressem) : N :=
  match x with ScalarRes => 0 | MayRef => 1 | MaySpill => 2 | MayRefSpill => 3 | UnknownRes => 4 end.
Definition env_code (x : envsem) : N := match x with NoEnv => 0 | LocalEnv => 1 | UnknownEnv => 2 end.
Definition ctx_code (x : ctxdep) : N :=
  match x with NoCtx => 0 | PlacementDep => 1 | WorkbookMeta => 2 | LocaleDep => 3 | UnsupportedCtx => 4 end.
Definition class_code (x : depclass) : N := match x with StaticScalar => 0 | StaticReduction => 1 | CriteriaAgg => 2 end.
Definition role_code (x : role) : N :=
  match x with
  | ScalarValue => 0 | FiniteRange => 1 | ReductionValue => 2 | CriteriaRange => 3
  | CriteriaExpr => 4 | ValueRange => 5 | LazyBranch => 6 | LookupKey => 7 | LookupTable => 8
  | LookupSel => 9 | ByReference => 10 | LocalName => 11 | LocalValue => 12 | LambdaBody => 13
  | IgnoredLit => 14 | UnsupportedRole => 15
  end.

(** to_le_bytes: [k] bytes, the lowest first. *)
Fixpoint le (k : nat) (n : N) : list N :=
  match k with O => [] | S k => (n mod 256) :: le k (n / 256) end.
Definition len {A} (l : list A) : N := N.of_nat (List.length l).

(** encode_arity, encode_role, encode_precision, push_bytes, encode:
    function_contract.rs:102-177. *)
Definition e_arity (tag v : N) : list N := tag :: le 8 v.
Definition e_role (tag : N) (r : role) : list N := [tag; role_code r].
Definition e_rule (a : arity) : list N :=
  match a with
  | Exactly v => e_arity 0 v
  | AtLeast v => e_arity 1 v
  | OneOf l => 2 :: le 8 (len l) ++ concat (map (le 8) l)
  | EvenAtLeast v => e_arity 3 v
  | OddAtLeast v => e_arity 4 v
  end.
Definition e_vrange (v : vrange) : list N :=
  match v with
  | VNone => [0]
  | VFixed i => e_arity 1 i
  | VOptional p f => e_arity 2 p ++ le 8 f
  end.
Definition e_args (a : argdeps) : list N :=
  match a with
  | AllArgs r => e_role 0 r
  | Variadic r => e_role 1 r
  | Criteria v first => 2 :: e_vrange v ++ le 8 first
  | LocalPairs => [3]
  | LambdaParams => [4]
  end.
Definition e_prec (p : precision) : list N := class_code (p_class p) :: e_rule (p_arity p) ++ e_args (p_args p).
Definition e_bytes (t : text) : list N := le 8 (len t) ++ t.
Definition e_contract (k : contract) : list N :=
  [dep_code (k_dep k); eval_code (k_eval k); res_code (k_res k); env_code (k_env k); ctx_code (k_ctx k)] ++
  match k_prec k with Some p => 1 :: e_prec p | None => [0] end.
Definition e_flag (b : bool) : N := if b then 1 else 0.
Definition encode (f : fid) (k : contract) : list N :=
  e_bytes (f_ns f) ++ e_bytes (f_name f) ++ le 8 (f_gen f) ++ le 4 (f_caps f) ++
  e_contract k ++ le 8 (len (f_byref f)) ++ map e_flag (f_byref f).

(** * Canonical expressions, template_canonical.rs:87-115, 191-256 *)

Inductive refctx := CValue | CReference | CFnArg (f : fid) (i : N) | CCallArg (i : N).
Inductive sheetb := SCurrent | SName (n : text).
Inductive axis := XRel (off : Z) | XAbs (i : N) | XOpenStart | XOpenEnd | XWhole | XUnsupported.
Inductive unsup := UStructured | UThreeD | UExternal | USpill | UUnknown.
Inductive cref :=
| KCell (s : sheetb) (row col : axis)
| KRange (s : sheetb) (sr sc er ec : axis)
| KNamed (n : text)
| KUnsup (k : unsup) (diag : text).
Inductive cexpr :=
| ELit (v : lit)
| EOmit
| ERef (c : refctx) (r : cref)
| EUn (op : text) (e : cexpr)
| EBin (op : text) (l r : cexpr)
| EFn (f : fid) (args : list cexpr)
| ECall (callee : cexpr) (args : list cexpr)
| EArr (rows : list (list cexpr)).

(** * Labels, 258-418.  A reject reason carries a placement, a text or nothing. *)
Inductive tkind :=
| DynamicFn | UnknownFn | LocalEnvFn | VolatileFn | RefReturningFn | ArrayFn | SpillRef
| StructRef | StructCurrent | ThreeDRef | ExternalRef | OpenRange | WholeAxisRef | UnsupRef
| ContractUnsup | ContextFn.
Inductive bkind := ParserVolatile | ArrayLiteral | SpillOperator | ImplicitInter | CallExpr.
Inductive reason := RAnchor (row col : N) | RTxt (k : tkind) (t : text) | RBare (k : bkind).
Inductive flag :=
| FParserVolatile | FFunctionCall | FCurrentSheet | FExplicitSheet | FRelative | FAbsolute
| FMixed | FFiniteRange | FNamed.
Inductive event := Reject (r : reason) | Flag (f : flag).

(** The derived order: the variant first, then the fields. *)
Definition reason_ix (r : reason) : N :=
  match r with
  | RAnchor _ _ => 0
  | RTxt k _ =>
      match k with
      | DynamicFn => 1 | UnknownFn => 2 | LocalEnvFn => 3 | VolatileFn => 5 | RefReturningFn => 6
      | ArrayFn => 7 | SpillRef => 9 | StructRef => 13 | StructCurrent => 14 | ThreeDRef => 15
      | ExternalRef => 16 | OpenRange => 17 | WholeAxisRef => 18 | UnsupRef => 19
      | ContractUnsup => 20 | ContextFn => 21
      end
  | RBare k =>
      match k with
      | ParserVolatile => 4 | ArrayLiteral => 8 | SpillOperator => 10 | ImplicitInter => 11 | CallExpr => 12
      end
  end.
Fixpoint tcmp (a b : text) : comparison :=
  match a, b with
  | [], [] => Eq
  | [], _ => Lt
  | _, [] => Gt
  | x :: a, y :: b => match x ?= y with Eq => tcmp a b | c => c end
  end.
Definition rcmp (a b : reason) : comparison :=
  match reason_ix a ?= reason_ix b with
  | Eq => match a, b with
          | RAnchor r c, RAnchor r' c' => match r ?= r' with Eq => c ?= c' | o => o end
          | RTxt _ t, RTxt _ t' => tcmp t t'
          | _, _ => Eq
          end
  | o => o
  end.
Definition flag_ix (f : flag) : N :=
  match f with
  | FParserVolatile => 0 | FFunctionCall => 1 | FCurrentSheet => 2 | FExplicitSheet => 3
  | FRelative => 4 | FAbsolute => 5 | FMixed => 6 | FFiniteRange => 7 | FNamed => 8
  end.
Definition fcmp (a b : flag) : comparison := flag_ix a ?= flag_ix b.
(** BTreeSet::insert *)
Fixpoint sinsert {A} (cmp : A -> A -> comparison) (x : A) (l : list A) : list A :=
  match l with
  | [] => [x]
  | y :: r => match cmp x y with Lt => x :: l | Eq => l | Gt => y :: sinsert cmp x r end
  end.
Record labels := Labels { l_rejects : list reason; l_flags : list flag }.
Definition record_event (l : labels) (e : event) : labels :=
  match e with
  | Reject r => Labels (sinsert rcmp r (l_rejects l)) (l_flags l)
  | Flag f => Labels (l_rejects l) (sinsert fcmp f (l_flags l))
  end.
(** is_authority_supported, 292-294 *)
Definition supported (l : labels) : bool := match l_rejects l with [] => true | _ => false end.
Definition feqb (a b : flag) : bool := flag_ix a =? flag_ix b.
Definition has_flag (f : flag) (l : labels) : bool := existsb (feqb f) (l_flags l).

(** * Literal slots, 135-176, 621-637, 1042-1109 *)
Inductive slotctx :=
| SValue | SCriteriaExpr | SCriteriaRange | SReference | SByRef | SLocal | SImplicit | SCallArg | SUnknown.
Inductive lkind := KInt | KNumber | KText | KBoolean | KError | KDate | KDateTime | KTime | KDuration | KEmpty | KPending.
Definition lit_kind (v : lit) : option lkind :=                          (* 1083-1098 *)
  match v with
  | LInt _ => Some KInt | LNum _ => Some KNumber | LText _ => Some KText | LBool _ => Some KBoolean
  | LErr _ => Some KError | LArr _ => None | LDate _ => Some KDate | LDateTime _ => Some KDateTime
  | LTime _ => Some KTime | LDur _ => Some KDuration | LEmpty => Some KEmpty | LPending => Some KPending
  end.
(** A recorded literal: its context, its kind and its value.  Its identifier and its
    preorder index are its position, see [slot_id]. *)
Record slot := Slot { s_ctx : slotctx; s_kind : lkind; s_val : lit }.
Definition slot_id (i : N) : N := N.min i 65535.                         (* 628 *)

Definition role_context (r : role) : slotctx :=                          (* 1066-1080 *)
  match r with
  | CriteriaRange => SCriteriaRange
  | CriteriaExpr => SCriteriaExpr
  | ByReference => SByRef
  | LocalName | LocalValue | LambdaBody => SLocal
  | UnsupportedRole => SUnknown
  | _ => SValue
  end.
Definition v_index (v : vrange) : option N :=
  match v with VFixed i => Some i | VOptional i _ => Some i | VNone => None end.
Definition fn_slot_context (f : fid) (i : N) : slotctx :=                (* 1001-1049 *)
  if nth (N.to_nat i) (f_byref f) false || has_cap f DYNAMIC_DEPENDENCY
     || match f_con f with Some k => match k_ctx k with PlacementDep => true | _ => false end | None => false end
  then SByRef
  else match f_con f with
       | Some (Contract _ _ _ _ _ (Some p)) =>
           match p_args p with
           | AllArgs r | Variadic r => role_context r
           | LocalPairs | LambdaParams => SLocal
           | Criteria v first =>
               if match v_index v with Some j => j =? i | None => false end then SValue
               else if first <=? i then if (i - first) mod 2 =? 0 then SCriteriaRange else SCriteriaExpr
               else SValue
           end
       | _ => SValue
       end.
Definition slot_context (c : refctx) : slotctx :=                        (* 1100-1112 *)
  match c with
  | CValue => SValue | CReference => SReference | CCallArg _ => SCallArg
  | CFnArg f i => fn_slot_context f i
  end.

(** * Function names, 953-999 *)
Definition upper1 (c : N) : N := if (97 <=? c) && (c <=? 122) then c - 32 else c.
Fixpoint strip (p s : text) : option text :=
  match p, s with
  | [], _ => Some s
  | x :: p, y :: s => if x =? y then strip p s else None
  | _, [] => None
  end.
Definition strip_any (s : text) : option text :=
  match strip (tx "_XLFN.") s with
  | Some r => Some r
  | None => match strip (tx "_XLL.") s with Some r => Some r | None => strip (tx "_XLWS.") s end
  end.
Fixpoint strip_all (fuel : nat) (s : text) : text :=
  match fuel with
  | O => s
  | S fuel => match strip_any s with Some r => strip_all fuel r | None => s end
  end.
Definition normal_name (s : text) : text :=
  let u := map upper1 (trim s) in strip_all (List.length u) u.

(** * The canonicalizer *)
Section Canon.
(** The function provider: function_semantic_identity("", name, arity). *)
Variable identity : text -> N -> option fid.
(** The one-based placement. *)
Variables arow acol : N.

Definition resolve (name : text) (n : N) : fid :=                        (* 976-999 *)
  match identity name n with
  | Some f => f
  | None => Fid [] (normal_name name) 0 0 None []
  end.

Definition classify_fn (f : fid) : list event :=                         (* 805-862 *)
  let n := f_name f in
  (if has_cap f VOLATILE then [Reject (RTxt VolatileFn n)] else []) ++
  (if has_cap f DYNAMIC_DEPENDENCY then [Reject (RTxt DynamicFn n)] else []) ++
  (if has_cap f LOCAL_ENVIRONMENT then [Reject (RTxt LocalEnvFn n)] else []) ++
  (if has_cap f RETURNS_REFERENCE then [Reject (RTxt RefReturningFn n)] else []) ++
  (if has_cap f MAY_SPILL then [Reject (RTxt ArrayFn n)] else []) ++
  match f_con f with
  | None => [Reject (RTxt UnknownFn n)]
  | Some k =>
      match k_dep k with
      | RecursiveArgs => []
      | DynamicDep => [Reject (RTxt DynamicFn n)]
      | UnsupportedDep => [Reject (RTxt ContractUnsup n)]
      end ++
      match k_env k with NoEnv => [] | _ => [Reject (RTxt LocalEnvFn n)] end ++
      (if may_ref (k_res k) then [Reject (RTxt RefReturningFn n)] else []) ++
      (if may_spill (k_res k) then [Reject (RTxt ArrayFn n)] else []) ++
      match k_ctx k with NoCtx => [] | _ => [Reject (RTxt ContextFn n)] end
  end.

Definition classify_un (op : text) : list event :=                       (* 793-803 *)
  if text_eqb op (tx "#") then [Reject (RBare SpillOperator)]
  else if text_eqb op (tx "@") then [Reject (RBare ImplicitInter)]
  else [].

(** canonicalize_literal, 639-671: an array literal at any depth is a reject reason. *)
Fixpoint lit_events (v : lit) : list event :=
  match v with
  | LArr rows => Reject (RBare ArrayLiteral) :: flat_map (flat_map lit_events) rows
  | _ => []
  end.

Definition sheet_binding (s : option text) : sheetb := match s with Some n => SName n | None => SCurrent end. (* 945-950 *)
Definition sheet_event (s : option text) : event :=                      (* 864-871 *)
  Flag (match s with Some _ => FExplicitSheet | None => FCurrentSheet end).
(** axis_from_value, 912-925 *)
Definition axis_of (v anchor : N) (absolute : bool) : axis * list event :=
  if absolute then (XAbs v, [Flag FAbsolute])
  else (XRel (Z.of_N v - Z.of_N anchor), [Flag FRelative]).
(** classify_range_bounds, 873-884 *)
Definition bound_events (original : text) (a b : bound) : list event :=
  match a, b with
  | None, Some _ | Some _, None => [Reject (RTxt OpenRange original)]
  | _, _ => []
  end.
(** axis_pair_from_range, 886-910 *)
Definition axis_pair (a b : bound) (anchor : N) : (axis * axis) * list event :=
  match a, b with
  | Some (s, sa), Some (e, ea) =>
      let '(x, u) := axis_of s anchor sa in
      let '(y, v) := axis_of e anchor ea in ((x, y), u ++ v)
  | None, None => ((XWhole, XWhole), [])
  | None, Some (e, ea) => let '(y, v) := axis_of e anchor ea in ((XOpenStart, y), v)
  | Some (s, sa), None => let '(x, u) := axis_of s anchor sa in ((x, XOpenEnd), u)
  end.
Definition is_rel (x : axis) : bool := match x with XRel _ => true | _ => false end.
Definition is_abs (x : axis) : bool := match x with XAbs _ => true | _ => false end.
(** flag_mixed_anchors, 927-938 *)
Definition mixed_events (l : list axis) : list event :=
  if existsb is_abs l && existsb is_rel l then [Flag FMixed] else [].
Definition open_low (x : axis) : bool := match x with XWhole | XOpenStart => true | _ => false end.
Definition open_high (x : axis) : bool := match x with XWhole | XOpenEnd => true | _ => false end.

(** original.trim_end().ends_with('#') *)
Definition spill_text (o : text) : bool :=
  match trim_start (rev o) with c :: _ => c =? 35 | [] => false end.

(** table_has_current_row, 1114-1137 *)
Fixpoint current_row (sp : tspec) : bool :=
  match sp with
  | SpRow => true
  | SpItem IThisRow => true
  | SpComb l => existsb current_row l
  | _ => false
  end.

(** canonicalize_reference, 673-791 *)
Definition canon_ref (original : text) (r : reft) : cref * list event :=
  match r with
  | RCell sheet row col ra ca =>
      if spill_text original
      then (KUnsup USpill original, [sheet_event sheet; Reject (RTxt SpillRef original)])
      else
        let '(x, u) := axis_of row arow ra in
        let '(y, v) := axis_of col acol ca in
        (KCell (sheet_binding sheet) x y, sheet_event sheet :: u ++ v ++ mixed_events [x; y])
  | RRange sheet b =>
      if spill_text original
      then (KUnsup USpill original, [sheet_event sheet; Reject (RTxt SpillRef original)])
      else
        let '((sr, er), u) := axis_pair (b_sr b) (b_er b) arow in
        let '((sc, ec), v) := axis_pair (b_sc b) (b_ec b) acol in
        (KRange (sheet_binding sheet) sr sc er ec,
         sheet_event sheet :: bound_events original (b_sr b) (b_er b) ++
         bound_events original (b_sc b) (b_ec b) ++ u ++ v ++
         (if open_low sr || open_high er || open_low sc || open_high ec then [] else [Flag FFiniteRange]) ++
         mixed_events [sr; sc; er; ec])
  | RCell3 _ _ _ _ _ _ | RRange3 _ _ _ =>
      (KUnsup UThreeD (show_ref r), [Reject (RTxt ThreeDRef (show_ref r))])
  | RExtCell _ _ _ _ _ _ _ | RExtRange _ _ _ _ =>
      (KUnsup UExternal (show_ref r), [Reject (RTxt ExternalRef (show_ref r))])
  | RTable _ sp =>
      (KUnsup UStructured (show_ref r),
       Reject (RTxt StructRef (show_ref r)) ::
       (if match sp with Some s => current_row s | None => false end
        then [Reject (RTxt StructCurrent (show_ref r))] else []))
  | RName n => (KNamed n, [Flag FNamed])
  end.

(** record_literal_slot, 621-637 *)
Definition slot_of (v : lit) (c : refctx) : list slot :=
  match lit_kind v with Some k => [Slot (slot_context c) k v] | None => [] end.

Record out := Out { o_expr : cexpr; o_events : list event; o_slots : list slot }.

(** canonicalize_expr_inner, 513-619; [emit] is emit_literal_slots. *)
Fixpoint canon (a : ast) (c : refctx) (emit : bool) {struct a} : out :=
  match a with
  | ALit v => Out (ELit v) (lit_events v) (if emit then slot_of v c else [])
  | AOmit => Out EOmit [] []
  | ARef o r => let '(k, ev) := canon_ref o r in Out (ERef c k) ev []
  | AUn op e =>
      let x := canon e CValue true in
      Out (EUn op (o_expr x)) (classify_un op ++ o_events x) (o_slots x)
  | ABin op l r =>
      let cc := if text_eqb op (tx ":") then CReference else CValue in
      let x := canon l cc true in
      let y := canon r cc true in
      Out (EBin op (o_expr x) (o_expr y)) (o_events x ++ o_events y) (o_slots x ++ o_slots y)
  | AFn name args =>
      let f := resolve name (len args) in
      let outs := (fix go (i : N) (l : list ast) : list out :=
                     match l with [] => [] | a :: r => canon a (CFnArg f i) true :: go (i + 1) r end) 0 args in
      Out (EFn f (map o_expr outs))
          (classify_fn f ++ Flag FFunctionCall :: flat_map o_events outs)
          (flat_map o_slots outs)
  | ACall callee args =>
      let outs := (fix go (i : N) (l : list ast) : list out :=
                     match l with [] => [] | a :: r => canon a (CCallArg i) true :: go (i + 1) r end) 0 args in
      let x := canon callee CValue true in
      Out (ECall (o_expr x) (map o_expr outs))
          (Reject (RBare CallExpr) :: flat_map o_events outs ++ o_events x)
          (flat_map o_slots outs ++ o_slots x)
  | AArr rows =>
      let outs := map (map (fun a => canon a CValue false)) rows in
      Out (EArr (map (map o_expr) outs))
          (Reject (RBare ArrayLiteral) :: flat_map (flat_map o_events) outs)
          (flat_map (flat_map o_slots) outs)
  end.

Record template := Template { t_expr : cexpr; t_labels : labels; t_slots : list slot }.

(** canonicalize_template_with_provider, 434-495 *)
Definition canonicalize (volatile : bool) (a : ast) : template :=
  let x := canon a CValue true in
  let ev :=
    (if (arow =? 0) || (acol =? 0) then [Reject (RAnchor arow acol)] else []) ++
    (if volatile then [Flag FParserVolatile; Reject (RBare ParserVolatile)] else []) ++
    o_events x in
  let l := fold_left record_event ev (Labels [] []) in
  let l := if has_flag FAbsolute l && has_flag FRelative l then record_event l (Flag FMixed) else l in
  Template (o_expr x) l (o_slots x).
End Canon.

(** * Keys *)

(** to_string of an unsigned and of a signed number *)
Fixpoint uint_text (u : Decimal.uint) : text :=
  match u with
  | Decimal.Nil => []
  | Decimal.D0 r => 48 :: uint_text r | Decimal.D1 r => 49 :: uint_text r
  | Decimal.D2 r => 50 :: uint_text r | Decimal.D3 r => 51 :: uint_text r
  | Decimal.D4 r => 52 :: uint_text r | Decimal.D5 r => 53 :: uint_text r
  | Decimal.D6 r => 54 :: uint_text r | Decimal.D7 r => 55 :: uint_text r
  | Decimal.D8 r => 56 :: uint_text r | Decimal.D9 r => 57 :: uint_text r
  end.
Definition dec (n : N) : text := uint_text (N.to_uint n).
Definition zdec (z : Z) : text := if (z <? 0)%Z then 45 :: dec (Z.abs_N z) else dec (Z.abs_N z).
Definition hex1 (d : N) : N := if d <? 10 then 48 + d else 87 + d.
(** {byte:02x} *)
Definition hex2 (b : N) : text := [hex1 (b / 16); hex1 (b mod 16)].
(** {bits:016x}: the hexadecimal digits, padded with zeros to sixteen *)
Fixpoint hex_text (u : Hexadecimal.uint) : text :=
  match u with
  | Hexadecimal.Nil => []
  | Hexadecimal.D0 r => hex1 0 :: hex_text r | Hexadecimal.D1 r => hex1 1 :: hex_text r
  | Hexadecimal.D2 r => hex1 2 :: hex_text r | Hexadecimal.D3 r => hex1 3 :: hex_text r
  | Hexadecimal.D4 r => hex1 4 :: hex_text r | Hexadecimal.D5 r => hex1 5 :: hex_text r
  | Hexadecimal.D6 r => hex1 6 :: hex_text r | Hexadecimal.D7 r => hex1 7 :: hex_text r
  | Hexadecimal.D8 r => hex1 8 :: hex_text r | Hexadecimal.D9 r => hex1 9 :: hex_text r
  | Hexadecimal.Da r => hex1 10 :: hex_text r | Hexadecimal.Db r => hex1 11 :: hex_text r
  | Hexadecimal.Dc r => hex1 12 :: hex_text r | Hexadecimal.Dd r => hex1 13 :: hex_text r
  | Hexadecimal.De r => hex1 14 :: hex_text r | Hexadecimal.Df r => hex1 15 :: hex_text r
  end.
Definition hex16 (n : N) : text :=
  let u := N.to_hex_uint n in
  hex_text (Nat.iter (16 - Hexadecimal.nb_digits u) Hexadecimal.D0 u).

Definition semi : text := [59].
Definition colon : text := [58].
Definition comma : text := [44].
Definition close : text := [41].

(** write_string_key, 1537-1541 *)
Definition w_string (t : text) : text := dec (len t) ++ colon ++ t.
(** write_vec_key, 1504-1511 *)
Definition w_vec {A} (w : A -> text) (l : list A) : text :=
  dec (len l) ++ colon ++ flat_map (fun x => w x ++ comma) l.

(** write_literal_key, 1277-1328 *)
Fixpoint w_lit (v : lit) : text :=
  match v with
  | LInt z => tx "int:" ++ zdec z
  | LNum b => tx "num_bits:" ++ hex16 b
  | LText t => tx "text:" ++ w_string t
  | LBool b => if b then tx "bool:true" else tx "bool:false"
  | LErr t => tx "error:" ++ w_string t
  | LArr rows =>
      tx "lit_array(" ++ dec (len rows) ++ colon ++
      flat_map (fun row => dec (len row) ++ colon ++ flat_map (fun x => w_lit x ++ comma) row ++ semi) rows ++ close
  | LDate t => tx "date:" ++ w_string t
  | LDateTime t => tx "datetime:" ++ w_string t
  | LTime t => tx "time:" ++ w_string t
  | LDur t => tx "duration:" ++ w_string t
  | LEmpty => tx "empty"
  | LPending => tx "pending"
  end.

(** write_function_id_key, 1513-1535 *)
Definition w_fid (f : fid) : text :=
  match f_con f with
  | None => tx "unresolved:" ++ w_string (f_name f)
  | Some k => tx "semantic:" ++ flat_map hex2 (encode f k)
  end.
(** write_reference_context_key, 1330-1347 *)
Definition w_ctx (c : refctx) : text :=
  match c with
  | CValue => tx "value"
  | CReference => tx "reference"
  | CFnArg f i => tx "fn_arg:" ++ w_fid f ++ colon ++ dec i
  | CCallArg i => tx "call_arg:" ++ dec i
  end.
(** write_sheet_key, 1390-1398 *)
Definition w_sheet (s : sheetb) : text :=
  match s with SCurrent => tx "sheet:current" | SName n => tx "sheet:name:" ++ w_string n end.
(** write_axis_key, 1400-1415 *)
Definition w_axis (x : axis) : text :=
  match x with
  | XRel z => tx "rel:" ++ zdec z
  | XAbs n => tx "abs:" ++ dec n
  | XOpenStart => tx "open_start"
  | XOpenEnd => tx "open_end"
  | XWhole => tx "whole_axis"
  | XUnsupported => tx "unsupported"
  end.
(** write_unsupported_reference_kind_key, 1417-1425 *)
Definition w_unsup (k : unsup) : text :=
  match k with
  | UStructured => tx "structured_reference" | UThreeD => tx "three_d_reference"
  | UExternal => tx "external_reference" | USpill => tx "spill_reference" | UUnknown => tx "unknown"
  end.
(** write_reference_key, 1349-1388 *)
Definition w_ref (r : cref) : text :=
  match r with
  | KCell s x y => tx "cell(" ++ w_sheet s ++ semi ++ w_axis x ++ semi ++ w_axis y ++ close
  | KRange s a b c d =>
      tx "range(" ++ w_sheet s ++ semi ++ w_axis a ++ semi ++ w_axis b ++ semi ++ w_axis c ++ semi ++ w_axis d ++ close
  | KNamed n => tx "named(" ++ w_string n ++ close
  | KUnsup k t => tx "unsupported_ref(" ++ w_unsup k ++ semi ++ w_string t ++ close
  end.

(** write_expr_key, 1221-1275 *)
Fixpoint w_expr (e : cexpr) : text :=
  match e with
  | EOmit => tx "omitted"
  | ELit v => tx "lit(" ++ w_lit v ++ close
  | ERef c r => tx "ref(" ++ w_ctx c ++ semi ++ w_ref r ++ close
  | EUn op x => tx "unary(" ++ w_string op ++ semi ++ w_expr x ++ close
  | EBin op l r => tx "binary(" ++ w_string op ++ semi ++ w_expr l ++ semi ++ w_expr r ++ close
  | EFn f args =>
      tx "fn(" ++ w_fid f ++ semi ++ (dec (len args) ++ colon ++ flat_map (fun x => w_expr x ++ comma) args) ++ close
  | ECall x args =>
      tx "call(" ++ w_expr x ++ semi ++ (dec (len args) ++ colon ++ flat_map (fun x => w_expr x ++ comma) args) ++ close
  | EArr rows =>
      tx "array(" ++ dec (len rows) ++ colon ++
      flat_map (fun row => dec (len row) ++ colon ++ flat_map (fun x => w_expr x ++ comma) row ++ semi) rows ++ close
  end.

(** write_parameterized_expr_key_inner, 1144-1219: the text and the next slot (a u16 that
    saturates); [par] is parameterize_literals. *)
Definition is_array (v : lit) : bool := match v with LArr _ => true | _ => false end.
Fixpoint w_par (e : cexpr) (n : N) (par : bool) {struct e} : text * N :=
  match e with
  | EOmit => (tx "omitted", n)
  | ELit v =>
      if par && negb (is_array v) then (tx "lit_slot(" ++ dec n ++ close, N.min (n + 1) 65535)
      else (tx "lit(" ++ w_lit v ++ close, n)
  | ERef c r => (tx "ref(" ++ w_ctx c ++ semi ++ w_ref r ++ close, n)
  | EUn op x =>
      let '(t, n) := w_par x n par in (tx "unary(" ++ w_string op ++ semi ++ t ++ close, n)
  | EBin op l r =>
      let '(t, n) := w_par l n par in
      let '(u, n) := w_par r n par in
      (tx "binary(" ++ w_string op ++ semi ++ t ++ semi ++ u ++ close, n)
  | EFn f args =>
      let '(t, n) := (fix go (l : list cexpr) (n : N) : text * N :=
                        match l with
                        | [] => ([], n)
                        | x :: r => let '(t, n) := w_par x n par in
                                    let '(u, n) := go r n in (t ++ comma ++ u, n)
                        end) args n in
      (tx "fn(" ++ w_fid f ++ semi ++ (dec (len args) ++ colon ++ t) ++ close, n)
  | ECall x args =>
      let '(s, n) := w_par x n par in
      let '(t, n) := (fix go (l : list cexpr) (n : N) : text * N :=
                        match l with
                        | [] => ([], n)
                        | x :: r => let '(t, n) := w_par x n par in
                                    let '(u, n) := go r n in (t ++ comma ++ u, n)
                        end) args n in
      (tx "call(" ++ s ++ semi ++ (dec (len args) ++ colon ++ t) ++ close, n)
  | EArr rows =>
      let '(t, n) := (fix rws (l : list (list cexpr)) (n : N) : text * N :=
                        match l with
                        | [] => ([], n)
                        | row :: rest =>
                            let '(t, n) := (fix go (l : list cexpr) (n : N) : text * N :=
                                              match l with
                                              | [] => ([], n)
                                              | x :: r => let '(t, n) := w_par x n false in
                                                          let '(u, n) := go r n in (t ++ comma ++ u, n)
                                              end) row n in
                            let '(u, n) := rws rest n in
                            (dec (len row) ++ colon ++ t ++ semi ++ u, n)
                        end) rows n in
      (tx "array(" ++ dec (len rows) ++ colon ++ t ++ close, n)
  end.

(** write_reject_reason_key, 1445-1489, and write_template_flag_key, 1491-1502 *)
Definition w_tkind (k : tkind) : text :=
  match k with
  | DynamicFn => tx "dynamic_fn:" | UnknownFn => tx "unknown_fn:" | LocalEnvFn => tx "local_env_fn:"
  | VolatileFn => tx "volatile_fn:" | RefReturningFn => tx "reference_returning_fn:"
  | ArrayFn => tx "array_or_spill_fn:" | SpillRef => tx "spill_ref:" | StructRef => tx "structured_ref:"
  | StructCurrent => tx "structured_ref_current_row:" | ThreeDRef => tx "three_d_ref:"
  | ExternalRef => tx "external_ref:" | OpenRange => tx "open_range:" | WholeAxisRef => tx "whole_axis:"
  | UnsupRef => tx "unsupported_ref:" | ContractUnsup => tx "function_contract_unsupported:"
  | ContextFn => tx "context_dependent_function:"
  end.
Definition w_bkind (k : bkind) : text :=
  match k with
  | ParserVolatile => tx "parser_volatile" | ArrayLiteral => tx "array_literal"
  | SpillOperator => tx "spill_result_region_operator" | ImplicitInter => tx "implicit_intersection_operator"
  | CallExpr => tx "call_expression"
  end.
Definition w_reason (r : reason) : text :=
  match r with
  | RAnchor row col => tx "invalid_anchor:" ++ dec row ++ colon ++ dec col
  | RTxt k t => w_tkind k ++ w_string t
  | RBare k => w_bkind k
  end.
Definition w_flag (f : flag) : text :=
  match f with
  | FParserVolatile => tx "parser_volatile" | FFunctionCall => tx "function_call"
  | FCurrentSheet => tx "current_sheet" | FExplicitSheet => tx "explicit_sheet"
  | FRelative => tx "relative_axis" | FAbsolute => tx "absolute_axis" | FMixed => tx "mixed_anchors"
  | FFiniteRange => tx "finite_range" | FNamed => tx "named_reference"
  end.
(** write_labels_key, 1427-1443 *)
Definition w_labels (l : labels) : text :=
  tx "rejects[" ++ dec (len (l_rejects l)) ++ colon ++ flat_map (fun r => w_reason r ++ semi) (l_rejects l) ++
  tx "]flags[" ++ dec (len (l_flags l)) ++ colon ++ flat_map (fun f => w_flag f ++ semi) (l_flags l) ++ tx "]".

(** FormulaTemplateKey::new and new_parameterized, 49-73 *)
Definition exact_key (t : template) : text := tx "fp4a1:" ++ w_expr (t_expr t) ++ tx "|labels=" ++ w_labels (t_labels t).
Definition par_key (t : template) : text :=
  tx "fp4a1:" ++ fst (w_par (t_expr t) 0 true) ++ tx "|labels=" ++ w_labels (t_labels t).

(** * Value slots and residual axes, placement.rs *)
(** finite_relative_cell, 1215-1234 *)
Definition finite_relative (r : cref) : bool :=
  match r with
  | KCell _ x y => (is_rel x || is_abs x) && (is_rel y || is_abs y) && (is_rel x || is_rel y)
  | _ => false
  end.
Definition value_context (c : refctx) : bool :=
  match slot_context c with SValue | SCriteriaExpr => true | _ => false end.
(** value_ref_slot_descriptors, 1156-1213: the patterns, in the order of the walk. *)
Fixpoint value_slots (e : cexpr) : list cref :=
  match e with
  | ELit _ | EOmit => []
  | ERef c r => if value_context c && finite_relative r then [r] else []
  | EUn _ x => value_slots x
  | EBin _ l r => value_slots l ++ value_slots r
  | EFn _ args => flat_map value_slots args
  | ECall x args => value_slots x ++ flat_map value_slots args
  | EArr rows => flat_map (flat_map value_slots) rows
  end.
(** residual_relative_axes, 1707-1793 *)
Definition ref_axes (r : cref) : bool * bool :=
  match r with
  | KCell _ x y => (is_rel x, is_rel y)
  | KRange _ a b c d => (is_rel a || is_rel c, is_rel b || is_rel d)
  | _ => (false, false)
  end.
Definition or2 (a b : bool * bool) : bool * bool := (fst a || fst b, snd a || snd b).
Fixpoint residual (e : cexpr) : bool * bool :=
  match e with
  | ELit _ | EOmit => (false, false)
  | ERef c r => if value_context c && finite_relative r then (false, false) else ref_axes r
  | EUn _ x => residual x
  | EBin _ l r => or2 (residual l) (residual r)
  | EFn _ args => fold_right (fun x => or2 (residual x)) (false, false) args
  | ECall x args => or2 (residual x) (fold_right (fun x => or2 (residual x)) (false, false) args)
  | EArr rows => fold_right (fun row => or2 (fold_right (fun x => or2 (residual x)) (false, false) row)) (false, false) rows
  end.

(** * Evaluating a placement *)

(** The arena node of the [i]-th literal of a formula (arena/data_store.rs:88-171,
    error_arena.rs:58-81, scalar.rs:75-92, arena/ast.rs:295-320): nodes with the same content
    are one node.  Texts, booleans, errors, blanks and small integers have a content of
    their own; a number, a date, a time or a duration is pushed to the scalar arena, so its
    content is new.  (An integer beyond 27 bits is reduced or panics there.) *)
Inductive node := NShared (v : lit) | NFresh (i : N).
Definition lit_node (i : N) (v : lit) : node :=
  match v with
  | LNum _ | LDate _ | LDateTime _ | LTime _ | LDur _ | LArr _ => NFresh i
  | _ => NShared v
  end.
Definition lit_eqb (a b : lit) : bool :=
  match a, b with
  | LInt x, LInt y => Z.eqb x y
  | LNum x, LNum y => x =? y
  | LText x, LText y | LErr x, LErr y | LDate x, LDate y | LDateTime x, LDateTime y
  | LTime x, LTime y | LDur x, LDur y => text_eqb x y
  | LBool x, LBool y => Bool.eqb x y
  | LEmpty, LEmpty | LPending, LPending => true
  | _, _ => false
  end.
Definition node_eqb (a b : node) : bool :=
  match a, b with
  | NShared v, NShared w => lit_eqb v w
  | NFresh i, NFresh j => i =? j
  | _, _ => false
  end.

(** The literals a walk of the arena meets, outside of arrays. *)
Fixpoint walk_lits (a : ast) : list lit :=
  match a with
  | ALit v => if is_array v then [] else [v]
  | AOmit | ARef _ _ | AArr _ => []
  | AUn _ e => walk_lits e
  | ABin _ l r => walk_lits l ++ walk_lits r
  | AFn _ args => flat_map walk_lits args
  | ACall _ _ => []
  end.
(** build_template_slot_map, placement.rs:1658-1706: the slot of a node, the last entry
    first. *)
Fixpoint slot_entries (i : N) (l : list lit) : list (node * N) :=
  match l with
  | [] => []
  | v :: r => slot_entries (i + 1) r ++ [(lit_node i v, slot_id i)]
  end.
Definition slot_map (a : ast) : list (node * N) := slot_entries 0 (walk_lits a).
Definition slot_at (m : list (node * N)) (x : node) : option N :=
  option_map snd (find (fun e => node_eqb (fst e) x) m).
(** evaluate_arena_ast on a literal, interpreter.rs:592-604 *)
Definition bound_value (m : list (node * N)) (vals : list lit) (i : N) (v : lit) : lit :=
  match slot_at m (lit_node i v) with
  | Some s => nth (N.to_nat s) vals v
  | None => v
  end.
(** shift_axis_for_offset and relocated references, interpreter.rs:1640-1711 *)
Definition U32_MAX : N := 2 ^ 32 - 1.
Definition shift_axis (v : N) (d : Z) (absolute : bool) : option N :=
  if absolute then Some v
  else let s := (Z.of_N v + d)%Z in
       if ((s <? 1) || (Z.of_N U32_MAX <? s))%Z then None else Some (Z.to_N s).
Definition shift_bound (b : bound) (d : Z) : option bound :=
  match b with
  | None => Some None
  | Some (v, a) => match shift_axis v d a with Some w => Some (Some (w, a)) | None => None end
  end.
Definition shift_ref (dr dc : Z) (r : reft) : option reft :=
  match r with
  | RCell sh row col ra ca =>
      match shift_axis row dr ra, shift_axis col dc ca with
      | Some row, Some col => Some (RCell sh row col ra ca)
      | _, _ => None
      end
  | RRange sh b =>
      match shift_bound (b_sr b) dr, shift_bound (b_sc b) dc, shift_bound (b_er b) dr, shift_bound (b_ec b) dc with
      | Some a, Some c, Some d, Some e => Some (RRange sh (Box a c d e))
      | _, _, _, _ => None
      end
  | RName n => Some (RName n)
  | _ => None
  end.
(** The formula that the interpreter evaluates for a placement whose literals are [vals]
    (evaluate_arena_ast_with_offset): the template with each literal replaced through the
    slot map and each reference moved; [n] counts the literals.  A reference that cannot be
    moved evaluates to the error #REF!. *)
Fixpoint view (m : list (node * N)) (vals : list lit) (dr dc : Z) (a : ast) (n : N) {struct a} : ast * N :=
  match a with
  | ALit v => if is_array v then (a, n) else (ALit (bound_value m vals n v), n + 1)
  | AOmit | AArr _ | ACall _ _ => (a, n)
  | ARef o r =>
      (match shift_ref dr dc r with Some r => ARef o r | None => ALit (LErr (tx "#REF!")) end, n)
  | AUn op e => let '(x, n) := view m vals dr dc e n in (AUn op x, n)
  | ABin op l r =>
      let '(x, n) := view m vals dr dc l n in
      let '(y, n) := view m vals dr dc r n in (ABin op x y, n)
  | AFn name args =>
      let '(l, n) := (fix go (l : list ast) (n : N) : list ast * N :=
                        match l with
                        | [] => ([], n)
                        | x :: r => let '(y, n) := view m vals dr dc x n in
                                    let '(t, n) := go r n in (y :: t, n)
                        end) args n in
      (AFn name l, n)
  end.
(** The formula evaluated at [(row, col)] for a template whose origin formula [a] stands at
    [(arow, acol)]: evaluate_memo_group_value, span_eval.rs:690-743. *)
Definition evaluated (a : ast) (arow acol row col : N) (vals : list lit) : ast :=
  fst (view (slot_map a) vals (Z.of_N row - Z.of_N arow) (Z.of_N col - Z.of_N acol) a 0).
