(* Theorems about reading and displaying formulas. *)
From Coq Require Import List Bool NArith PeanoNat Lia String.
From Verif Require Import LexModel LexSpec LexProofs PrattModel PrattSpec PrattProofs PrattProofs2
  RoundSpec RoundProofs RoundProofs2 RoundProofs3.
Import ListNotations.
Open Scope N_scope.

(* ---- a concrete instance for the examples ---- *)

(* Numbers are digit strings, references are their text. *)
Definition pn (v : text) : option text :=
  match v with
  | [] => None
  | _ => if forallb is_digit v then Some v else None
  end.
Definition idt (v : text) : text := v.
Definition pf : text -> pres (expr text text) := parse_formula text text pn (@Some text) DExcel.
Definition cn : expr text text -> text := canonical text text idt idt (map upc).
Notation num_ := (ENum text text).
Notation ref_ := (ERef text text).
Notation bin_ := (EBin text text).
Notation un_ := (EUn text text).
Notation fn_ := (EFn text text).

(* What comparisons of constants evaluate to. *)
Inductive value := VNum (v : text) | VBool (b : bool).
Fixpoint value_of (e : expr text text) : option value :=
  match e with
  | ENum _ _ n => Some (VNum n)
  | EBool _ _ b => Some (VBool b)
  | EBin _ _ op l r =>
      if text_eqb op (tx "=") then
        match value_of l, value_of r with
        | Some (VNum a), Some (VNum b) => Some (VBool (text_eqb a b))
        | Some (VBool a), Some (VBool b) => Some (VBool (Bool.eqb a b))
        | Some _, Some _ => Some (VBool false)
        | _, _ => None
        end
      else None
  | _ => None
  end.

(* ---- C79: a displayed formula is the stored formula ---- *)

(* Entering =FALSE=(1=2) and then entering what is displayed for it changes
   the value from TRUE to FALSE. *)
Theorem C79_displayed_formula_refuted :
  exists f e e', pf f = POk e /\ pf (cn e) = POk e' /\
    value_of e = Some (VBool true) /\ value_of e' = Some (VBool false).
Proof.
  exists (tx "=FALSE=(1=2)"). eexists. eexists.
  split; [vm_compute; reflexivity|]. split; [vm_compute; reflexivity|].
  split; reflexivity.
Qed.
Print Assumptions C79_displayed_formula_refuted.

(* A union of two ranges as one argument is displayed as two arguments. *)
Theorem C79_union_argument_refuted :
  exists f a b c a' b' c', pf f = POk (fn_ (tx "LARGE") [a; b]) /\
    pf (cn (fn_ (tx "LARGE") [a; b])) = POk (fn_ (tx "LARGE") [a'; b'; c']) /\
    a = bin_ (tx ",") a' b' /\ b = c' /\ c = c'.
Proof.
  exists (tx "=LARGE((A1:A3,C1:C3),2)"). do 6 eexists.
  split; [vm_compute; reflexivity|]. split; [vm_compute; reflexivity|].
  repeat split; reflexivity.
Qed.
Print Assumptions C79_union_argument_refuted.

(* A formula that is accepted and whose displayed text is rejected: an
   intersection with a parenthesised name, and an error literal. *)
Theorem C79_display_unreadable_refuted :
  (exists f e, pf f = POk e /\ pf (cn e) = PErr /\
     e = bin_ (tx " ") (ref_ (tx "foo")) (ref_ (tx "B1"))) /\
  (exists f e, pf f = POk e /\ pf (cn e) = PErr /\
     e = EErr _ _ (EUnknown (tx "#GETTING_DATA"))).
Proof.
  split.
  - exists (tx "=(foo) B1"). eexists. split; [vm_compute; reflexivity|].
    split; [vm_compute; reflexivity|reflexivity].
  - exists (tx "=#GETTING_DATA"). eexists. split; [vm_compute; reflexivity|].
    split; [vm_compute; reflexivity|reflexivity].
Qed.
Print Assumptions C79_display_unreadable_refuted.

(* For every tree outside the listed exceptions ([faithful], RoundSpec.v)
   the displayed text is read back as the same tree.  What is missing: the
   exceptions themselves, for which the statement is false. *)
Theorem C79_display_round_trip_partial :
  forall num ref pnum snum pref sref upper dia (e : expr num ref),
  faithful num ref pnum snum pref sref upper dia true true e ->
  parse_formula num ref pnum pref dia (canonical num ref snum sref upper e) = POk e.
Proof. exact round_trip. Qed.
Print Assumptions C79_display_round_trip_partial.

(* References to cells, ranges and names, with or without a sheet, are read
   as one operand whatever the printer puts after them. *)
Theorem C79_reference_is_one_operand :
  forall num pnum dia t, ref_text t -> one_token num pnum dia t.
Proof. exact ref_text_one. Qed.
Print Assumptions C79_reference_is_one_operand.

Lemma ex_ref : forall t, ref_text t -> operand_subtype (is_num text pn) t = SRange ->
  ref_ok text text pn (@Some text) idt DExcel t.
Proof.
  intros t H E. split; [reflexivity|]. split; [exact E|].
  split; [apply ref_text_one; exact H|]. split; [apply ref_text_last; exact H|].
  apply ref_text_head. exact H.
Qed.

Definition ex_a1 := tx "Sheet1!A1:B7".
Definition ex_b2 := tx "'it''s'!$B$2".
Definition ex_c := tx "C3".
Definition ex_tree : expr text text :=
  bin_ (tx "-")
    (bin_ (tx "*")
       (bin_ (tx "+") (fn_ (tx "SUM") [ref_ ex_a1; EOmit _ _; un_ (tx "%") (num_ (tx "12"))])
                      (un_ (tx "-") (ref_ ex_b2)))
       (EText _ _ (tx "say ""hi""")))
    (bin_ (tx "-") (EArr _ _ [[num_ (tx "1"); num_ (tx "2")]; [EBool _ _ true; EErr _ _ (EKnown (tx "#N/A"))]])
       (bin_ (tx "^") (ref_ ex_c) (bin_ (tx "^") (num_ (tx "2")) (num_ (tx "3"))))).

Example ex_faithful : faithful text text pn idt (@Some text) idt (map upc) DExcel true true ex_tree.
Proof.
  assert (A : ref_ok text text pn (@Some text) idt DExcel ex_a1).
  { apply ex_ref; [|reflexivity].
    change ex_a1 with ((tx "Sheet1" ++ [c_bang]) ++ tx "A1" ++ c_colon :: tx "B7").
    apply rt_range; try (split; [discriminate|reflexivity]); try reflexivity.
    apply sh_word. split; [discriminate|reflexivity]. }
  assert (B : ref_ok text text pn (@Some text) idt DExcel ex_b2).
  { apply ex_ref; [|reflexivity].
    change ex_b2 with ((squote (tx "it's") ++ [c_bang]) ++ tx "$B$2").
    apply rt_plain; [split; [discriminate|reflexivity]|reflexivity|].
    apply sh_quoted. reflexivity. }
  assert (C : ref_ok text text pn (@Some text) idt DExcel ex_c).
  { apply ex_ref; [|reflexivity]. change ex_c with ([] ++ tx "C3").
    apply rt_plain; [split; [discriminate|reflexivity]|reflexivity|apply sh_none]. }
  assert (NO : forall v, pn v = Some v -> forallb plainc v = true ->
     match v with c :: _ => is_digit c = true | [] => False end -> num_ok text pn idt v).
  { intros v H1 H2 H3. split; [exact H1|]. split; [exact H2|exact H3]. }
  assert (N1 : num_ok text pn idt (tx "1")) by (apply NO; reflexivity).
  assert (N2 : num_ok text pn idt (tx "2")) by (apply NO; reflexivity).
  assert (N3 : num_ok text pn idt (tx "3")) by (apply NO; reflexivity).
  assert (N12 : num_ok text pn idt (tx "12")) by (apply NO; reflexivity).
  assert (IO : forall op, existsb (text_eqb op) infix_ops = true -> In op infix_ops).
  { intros op H. apply existsb_exists in H. destruct H as [x [H1 H2]].
    apply text_eqb_spec in H2. subst x. exact H1. }
  unfold ex_tree. cbn [faithful map all_p fold_right].
  repeat match goal with
  | |- _ /\ _ => split
  | |- In _ infix_ops => apply IO; vm_compute; reflexivity
  | |- word _ => split; [discriminate|reflexivity]
  | |- _ \/ faithful _ _ _ _ _ _ _ _ _ _ _ => right
  | |- is_omit _ _ (EOmit _ _) = true \/ _ => left; reflexivity
  | |- _ -> _ => intro
  | |- ref_ok _ _ _ _ _ _ _ => assumption
  | |- num_ok _ _ _ _ => assumption
  | |- True => exact I
  | H : tx _ = tx _ |- _ => vm_compute in H; discriminate H
  end; try (vm_compute; tauto); try discriminate; try assumption;
  try (vm_compute; repeat first [left; reflexivity | right]; fail).
  all: try (right; left; reflexivity).
  all: try (right; right; reflexivity).
  - right. exact A.
  - right. split; [discriminate|exact N12].
Qed.

Example ex_display : map Ascii.ascii_of_N (cn ex_tree) =
  list_ascii_of_string
    "=(SUM(Sheet1!A1:B7,, 12%) + -'it''s'!$B$2) * ""say """"hi"""""" - ({1, 2; true, #N/A} - C3 ^ 2 ^ 3)"%string.
Proof. vm_compute. reflexivity. Qed.

Example ex_round_trip : pf (cn ex_tree) = POk ex_tree.
Proof. apply C79_display_round_trip_partial. exact ex_faithful. Qed.

(* ---- C80: the tokens spell the formula ---- *)
Theorem C80_tokens_spell_the_formula : forall is_num dia r ts,
  tokenize is_num dia (c_eq :: r) = LOk ts -> spells r ts.
Proof. intros is_num dia r ts H. exact (proj1 (tokenize_sound is_num dia r ts H)). Qed.
Print Assumptions C80_tokens_spell_the_formula.

(* A token has the bytes its type promises. *)
Theorem C80_token_shapes : forall is_num dia r ts,
  tokenize is_num dia (c_eq :: r) = LOk ts -> Forall shape ts.
Proof. intros is_num dia r ts H. exact (proj1 (proj2 (proj2 (tokenize_sound is_num dia r ts H)))). Qed.
Print Assumptions C80_token_shapes.

(* Nothing but the sheet of an error literal is lost: =Sheet1!#REF! reads as
   one token, the error literal. *)
Theorem C80_error_qualifier_refuted : exists r ts,
  tokenize (is_num text pn) DExcel (c_eq :: r) = LOk ts /\ List.concat (map tv ts) <> r.
Proof.
  exists (tx "Sheet1!#REF!+1"). eexists. split; [vm_compute; reflexivity|]. discriminate.
Qed.
Print Assumptions C80_error_qualifier_refuted.

Example C80_example : exists ts,
  tokenize (is_num text pn) DExcel (c_eq :: tx "1E+5*SUM(A1, [Book]x!B2:C3 B3:C4)#-'a b'!c%") = LOk ts /\
  List.length ts = 16%nat.
Proof. eexists. split; vm_compute; reflexivity. Qed.

(* ---- C81: brackets match ---- *)
Theorem C81_brackets_match : forall is_num dia r ts,
  tokenize is_num dia (c_eq :: r) = LOk ts -> nest [] ts = Some [].
Proof. intros is_num dia r ts H. exact (proj1 (proj2 (tokenize_sound is_num dia r ts H))). Qed.
Print Assumptions C81_brackets_match.

Example C81_example : exists ts,
  tokenize (is_num text pn) DExcel (c_eq :: tx "SUM({1,2;3,4},(A1+B(C)))") = LOk ts /\
  List.length (filter opens ts) = 4%nat.
Proof. eexists. split; vm_compute; reflexivity. Qed.

Example C81_mismatch : tokenize (is_num text pn) DExcel (c_eq :: tx "SUM({1,2)}") = LErr MismatchedPair.
Proof. vm_compute. reflexivity. Qed.

(* ---- C82: parsing drops and reorders nothing ---- *)
Theorem C82_parts_in_order : forall num ref pnum pref dia r ts e,
  tokenize (is_num num pnum) dia (c_eq :: r) = LOk ts ->
  parse_tokens num ref pnum pref ts = POk e ->
  items num ref pnum pref ts = reading num ref e.
Proof. exact parse_reading. Qed.
Print Assumptions C82_parts_in_order.

Example C82_example : exists ts e,
  tokenize (is_num text pn) DExcel (c_eq :: tx "-2^A1%*LET(x,,1)(3)&{1;2}") = LOk ts /\
  parse_tokens text text pn (@Some text) ts = POk e /\
  List.length (reading _ _ e) = 18%nat.
Proof. eexists. eexists. split; [vm_compute; reflexivity|]. split; vm_compute; reflexivity. Qed.

(* ---- C83: reading a formula always ends ---- *)
Theorem C83_tokenizer_ends : forall is_num dia f, tokenize is_num dia f <> LFuel.
Proof. exact tokenize_total. Qed.
Print Assumptions C83_tokenizer_ends.

Theorem C83_parser_ends : forall num ref pnum pref ts, parse_tokens num ref pnum pref ts <> PFuel.
Proof. exact parse_tokens_total. Qed.
Print Assumptions C83_parser_ends.

Theorem C83_formula_ends : forall num ref pnum pref dia f, parse_formula num ref pnum pref dia f <> PFuel.
Proof.
  intros num ref pnum pref dia f. unfold parse_formula.
  pose proof (tokenize_total (is_num num pnum) dia f) as H.
  destruct (tokenize (is_num num pnum) dia f); try congruence. apply parse_tokens_total.
Qed.
Print Assumptions C83_formula_ends.

(* ---- C84: a range may end in a call ---- *)

(* Excel's A1:INDEX(...) and A1:OFFSET(...): the text before the opening
   parenthesis becomes one function name, colon and cell included. *)
Theorem C84_range_to_call_refuted : forall num ref pnum pref dia a f,
  word a -> memc c_bang a = false -> word f -> memc c_bang f = false ->
  parse_formula num ref pnum pref dia (c_eq :: a ++ c_colon :: f ++ [c_lp; c_rp])
  = POk (EFn _ _ (a ++ c_colon :: f) []).
Proof. exact call_range. Qed.
Print Assumptions C84_range_to_call_refuted.

Example C84_example : pf (tx "=A1:INDEX(A1:A9,3)") =
  POk (fn_ (tx "A1:INDEX") [ref_ (tx "A1:A9"); num_ (tx "3")]).
Proof. vm_compute. reflexivity. Qed.

(* A range whose first end is a call, a parenthesised expression or a range
   is read as a range. *)
Theorem C84_range_from_call_partial : forall num ref pnum snum pref sref upper dia (l r : expr num ref),
  let e := EBin num ref (tx ":") l r in
  faithful num ref pnum snum pref sref upper dia true true e ->
  parse_formula num ref pnum pref dia (canonical num ref snum sref upper e) = POk e.
Proof. intros. apply round_trip. assumption. Qed.
Print Assumptions C84_range_from_call_partial.

Example C84_partial_example :
  pf (tx "=INDEX(A1:A9,1):INDEX(A1:A9,3)") =
  POk (bin_ (tx ":") (fn_ (tx "INDEX") [ref_ (tx "A1:A9"); num_ (tx "1")])
                     (fn_ (tx "INDEX") [ref_ (tx "A1:A9"); num_ (tx "3")])).
Proof. vm_compute. reflexivity. Qed.

(* A union in parentheses is an argument, except that inside the arguments
   of a call on a value it is rejected. *)
Theorem C84_union_in_call_refuted :
  pf (tx "=SUM((A1,B1))") = POk (fn_ (tx "SUM") [bin_ (tx ",") (ref_ (tx "A1")) (ref_ (tx "B1"))]) /\
  pf (tx "=LAMBDA(x,x+1)(SUM((A1,B1)))") = PErr.
Proof. split; vm_compute; reflexivity. Qed.
Print Assumptions C84_union_in_call_refuted.

(* ---- C85: deep nesting ---- *)

(* There is no depth limit: for every depth of the call stack there is an
   accepted formula, a number in parentheses, on which the calls of parse_bp,
   parse_prefix and parse_primary nest deeper.  (The model's fuel counts
   nested calls here: no loop runs before the innermost parenthesis.) *)
Theorem C85_nesting_unbounded_refuted : forall num ref pnum pref v x, pnum v = Some x ->
  forall d, exists ts, parse_tokens num ref pnum pref ts = POk (ENum num ref x) /\
    bp num ref pnum pref d false 0 ts = PFuel.
Proof.
  intros num ref pnum pref v x Hv d. exists (deep d v). split; [apply deep_parses; exact Hv|].
  rewrite <- (app_nil_r (deep d v)). apply deep_stack. lia.
Qed.
Print Assumptions C85_nesting_unbounded_refuted.

Example C85_example : tokenize (is_num text pn) DExcel (tx "=(((7)))") = LOk (deep 3 (tx "7")).
Proof. vm_compute. reflexivity. Qed.

(* The depth is bounded by the length: with stack for four calls per token
   and four more, no formula exhausts it. *)
Theorem C85_depth_at_most_linear_partial : forall num ref pnum pref ts,
  bp num ref pnum pref (4 * List.length ts + 4) false 0 ts <> PFuel.
Proof.
  intros num ref pnum pref ts E.
  destruct (fuel_enough num ref pnum pref (4 * List.length ts + 4)) as [H _].
  specialize (H false 0 ts ltac:(lia)). rewrite E in H. tauto.
Qed.
Print Assumptions C85_depth_at_most_linear_partial.
