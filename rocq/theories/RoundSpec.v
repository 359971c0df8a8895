(* Which formula trees the printer renders faithfully. *)
From Coq Require Import List Bool NArith String.
From Verif Require Import LexModel PrattModel.
Import ListNotations.
Open Scope N_scope.

(* A byte that the tokenizer always adds to the operand it is collecting. *)
Definition plainc (c : N) : bool :=
  negb (ender c || is_ws c || memc c [34; 39; 91; 35; 58; 123; 40; 125; 41; 59; 44]).
Definition word (w : text) : Prop := w <> [] /\ forallb plainc w = true.

(* What the printer may put after an operand. *)
Definition follow (rest : text) : bool :=
  match drop_while (N.eqb c_hash) rest with
  | [] => true
  | c :: _ => memc c [32; 44; 41; 125; 59; 37; 58]
  end.

Section R.
Variables num ref : Type.
Variable pnum : text -> option num.
Variable snum : num -> text.
Variable pref : text -> option ref.
Variable sref : ref -> text.
Variable upper : text -> text.
Variable dia : dialect.
Notation expr := (expr num ref).
Notation is_num := (is_num num pnum).
Notation show := (show num ref snum sref upper).
Notation left_parens := (left_parens num ref).
Notation right_parens := (right_parens num ref).
Notation un_parens := (un_parens num ref).

(* Iterations of the tokenizer's loop. *)
Inductive reach : lst -> lst -> Prop :=
| reach_refl s : reach s s
| reach_step s s1 s2 :
    inp s <> [] -> lstep is_num dia s = LOk s1 -> reach s1 s2 -> reach s s2.

(* The text [t] is read as one operand, whatever the printer puts after it. *)
Definition one_token (t : text) : Prop :=
  forall o st rest, follow rest = true -> reach (LS o st [] (t ++ rest)) (LS o st t rest).

(* A number whose printed text is read back as the same number. *)
Definition num_ok (n : num) : Prop :=
  pnum (snum n) = Some n /\ forallb plainc (snum n) = true /\
  match snum n with c :: _ => is_digit c = true | [] => False end.

(* A reference whose printed text is read back as the same reference. *)
Definition ref_ok (r : ref) : Prop :=
  pref (sref r) = Some r /\ operand_subtype is_num (sref r) = SRange /\
  one_token (sref r) /\ last (sref r) 0 <> c_bang /\
  match sref r with c :: _ => is_ws c = false | [] => False end.

Definition infix_ops : list text :=
  map tx [":"; " "; ","; "^"; "*"; "/"; "+"; "-"; "&"; "="; "<"; ">"; "<="; ">="; "<>"]%string.
Definition prefix_ops : list text := map tx ["+"; "-"; "@"]%string.

(* The text of the tree ends in something that a following ':' (or space)
   takes as the end of a reference. *)
Fixpoint tail_ref (colon : bool) (e : expr) : bool :=
  match e with
  | EFn _ _ _ _ | ECall _ _ _ _ | EArr _ _ _ => true
  | ERef _ _ r =>
      if colon then has_range_colon (sref r) || memc c_lb (sref r)
      else ref_value is_num (sref r)
  | EUn _ _ op _ => postfix_op op
  | EBin _ _ op _ r => right_parens op r || tail_ref colon r
  | _ => false
  end.

Definition all_p (l : list Prop) : Prop := fold_right and True l.

(* [faithful u g e]: [e] is printed so that it is read back as [e].
   [u]: a union may stand here; [g]: a union may stand here in parentheses
   (not inside the argument list of a call on a value).
   - the right operand of an operator that associates to the left is not the
     same operator again, except for - and /;
   - a postfix operator is not applied to a prefix operator, and '#' only to
     a reference, a call, an array or a parenthesised expression;
   - a union stands where a comma is not a separator;
   - ':' follows something other than a plain reference, and the operands of
     an intersection look like references to the tokenizer;
   - error literals have a kind of their own, function names are words that
     are already upper case, argument lists are not a single omitted one. *)
Fixpoint faithful (u g : bool) (e : expr) : Prop :=
  match e with
  | ENum _ _ n => num_ok n
  | EText _ _ _ => True
  | EBool _ _ _ => True
  | EErr _ _ (EKnown v) => In v error_codes /\ In v known_errors
  | EErr _ _ (EUnknown _) => False
  | ERef _ _ r => ref_ok r
  | EOmit _ _ => False
  | EUn _ _ op x =>
      (if postfix_op op then
         match x with
         | EUn _ _ op2 _ => postfix_op op2 = true /\ (op = tx "#" -> op2 = tx "#")
         | ENum _ _ _ | EText _ _ _ | EBool _ _ _ | EErr _ _ _ => op <> tx "#"
         | _ => True
         end
       else In op prefix_ops)
      /\ faithful (if un_parens op x then g else u) g x
  | EBin _ _ op l r =>
      In op infix_ops
      /\ match r with
         | EBin _ _ op2 _ _ => op2 = op -> op = tx "-" \/ op = tx "/" \/ op = tx "^"
         | _ => True
         end
      /\ (op = tx "," -> u = true)
      /\ (op = tx ":" -> left_parens op l = true \/ tail_ref true l = true)
      /\ (op = tx " " ->
            (left_parens op l = true \/ tail_ref false l = true)
            /\ starts_ref (wrap (right_parens op r) (show r)) = true)
      /\ faithful (if left_parens op l then g else u) g l
      /\ faithful (if right_parens op r then g else u) g r
  | EFn _ _ name a =>
      word name /\ upper name = name /\ a <> [EOmit _ _]
      /\ all_p (map (fun x => is_omit _ _ x = true \/ faithful false g x) a)
  | ECall _ _ f a =>
      match f with
      | EFn _ _ _ _ | ECall _ _ _ _ => faithful u g f
      | _ => faithful g g f
      end
      /\ a <> [EOmit _ _]
      /\ all_p (map (fun x => is_omit _ _ x = true \/ faithful false false x) a)
  | EArr _ _ rows =>
      all_p (map (fun row => row <> [] /\ all_p (map (faithful false g) row)) rows)
  end.
End R.
