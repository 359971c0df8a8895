(* The grammar of formulas, level by level, as the table in the comment of
   crates/formualizer-parse/src/tokenizer.rs 262-275 (and Excel's
   documentation) gives it.  It does not mention the parser's functions. *)
From Coq Require Import List Bool NArith String.
From Verif Require Import LexModel PrattModel.
Import ListNotations.
Open Scope N_scope.

Section G.
Variables num ref : Type.
Variable pnum : text -> option num.
Variable pref : text -> option ref.
Notation expr := (expr num ref).

(* Weakest first: comparisons, concatenation, sums, products, powers, signs,
   percent, union, intersection, range, spill. *)
Inductive binary : N -> text -> Prop :=
| b_eq : binary 1 (tx "=") | b_lt : binary 1 (tx "<") | b_gt : binary 1 (tx ">")
| b_le : binary 1 (tx "<=") | b_ge : binary 1 (tx ">=") | b_ne : binary 1 (tx "<>")
| b_cat : binary 2 (tx "&")
| b_add : binary 3 (tx "+") | b_sub : binary 3 (tx "-")
| b_mul : binary 4 (tx "*") | b_div : binary 4 (tx "/")
| b_union : binary 8 (tx ",")
| b_meet : binary 9 (tx " ")
| b_range : binary 10 (tx ":").

Inductive postfix : N -> text -> Prop :=
| p_percent : postfix 7 (tx "%") | p_spill : postfix 11 (tx "#").

(* A token with any blanks in front of it. *)
Definition spaced (t : tok) (seg : list tok) : Prop :=
  exists w, seg = w ++ [t] /\ Forall (fun b => tt b = TWs) w.

(* [gram p ts e]: the tokens [ts] form the expression [e] of level [p].
   Level 12 is what stands on its own. *)
Inductive gram : N -> list tok -> expr -> Prop :=
| g_operand : forall t seg e, tt t = TOperand ->
    operand num ref pnum pref (tsb t) (tv t) = Some e -> spaced t seg -> gram 12 seg e
| g_parens : forall o c so sc seg e, tt o = TParen -> tsb o = SOpen -> tt c = TParen -> tsb c = SClose ->
    spaced o so -> spaced c sc -> gram 1 seg e -> gram 12 (so ++ seg ++ sc) e
| g_call0 : forall o c so sc, tt o = TFunc -> tsb o = SOpen -> tt c = TFunc -> tsb c = SClose ->
    spaced o so -> spaced c sc -> gram 12 (so ++ sc) (EFn num ref (removelast (tv o)) [])
| g_call : forall o c so sc seg l, tt o = TFunc -> tsb o = SOpen -> tt c = TFunc -> tsb c = SClose ->
    spaced o so -> spaced c sc -> glist seg l ->
    gram 12 (so ++ seg ++ sc) (EFn num ref (removelast (tv o)) l)
| g_postfix : forall p op t st seg e, postfix p op -> tt t = TPost -> sem_value t = op ->
    spaced t st -> gram p seg e -> gram p (seg ++ st) (EUn num ref op e)
| g_sign : forall t st seg e, tt t = TPre -> spaced t st -> gram 6 seg e ->
    gram 6 (st ++ seg) (EUn num ref (sem_value t) e)
| g_power : forall t st s1 s2 l r, tt t = TInf -> sem_value t = tx "^" -> spaced t st ->
    gram 6 s1 l -> gram 5 s2 r -> gram 5 (s1 ++ st ++ s2) (EBin num ref (tx "^") l r)
| g_binary : forall p op t st s1 s2 l r, binary p op -> tt t = TInf -> sem_value t = op -> spaced t st ->
    gram p s1 l -> gram (p + 1) s2 r -> gram p (s1 ++ st ++ s2) (EBin num ref op l r)
| g_up : forall p q ts e, p < q -> gram q ts e -> gram p ts e
with glist : list tok -> list expr -> Prop :=
| gl_one : forall ts e, gram 1 ts e -> glist ts [e]
| gl_more : forall ts e t st rest l, gram 1 ts e -> tt t = TSep -> tsb t = SArg -> spaced t st ->
    glist rest l -> glist (ts ++ st ++ rest) (e :: l).
End G.
