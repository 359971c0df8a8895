(* Reading a formula tree from left to right. *)
From Coq Require Import List Bool NArith String.
From Verif Require Import LexModel PrattModel.
Import ListNotations.
Open Scope N_scope.

Section S.
Variables num ref : Type.
Variable pnum : text -> option num.
Variable pref : text -> option ref.
Notation expr := (expr num ref).

(* The parts of a formula that carry meaning: literals and references,
   operators, function names, commas, row separators and array braces.
   Parentheses and spaces are not among them. *)
Inductive item := ILeaf (e : expr) | IOp (op : text) | IName (name : text)
                | IComma | ISemi | ILB | IRB.

Definition op_item (op : text) : item := if text_eqb op [c_comma] then IComma else IOp op.

(* The parts that the tokens spell. *)
Definition tok_items (t : tok) : list item :=
  match tt t with
  | TOperand => match operand num ref pnum pref (tsb t) (tv t) with
                | Some e => [ILeaf e] | None => [] end
  | TPre | TPost | TInf => [op_item (sem_value t)]
  | TFunc => match tsb t with SOpen => [IName (removelast (tv t))] | _ => [] end
  | TArray => match tsb t with SOpen => [ILB] | SClose => [IRB] | _ => [] end
  | TSep => match tsb t with SRow => [ISemi] | _ => [IComma] end
  | _ => []
  end.
Definition items (ts : list tok) : list item := flat_map tok_items ts.

Fixpoint sepby (i : item) (l : list (list item)) : list item :=
  match l with
  | [] => []
  | [x] => x
  | x :: r => x ++ i :: sepby i r
  end.

(* The parts of a tree, from left to right. *)
Fixpoint reading (e : expr) : list item :=
  match e with
  | EOmit _ _ => []
  | EUn _ _ op x =>
      if postfix_op op then reading x ++ [op_item op] else op_item op :: reading x
  | EBin _ _ op l r => reading l ++ op_item op :: reading r
  | EFn _ _ name a => IName name :: sepby IComma (map reading a)
  | ECall _ _ f a => reading f ++ sepby IComma (map reading a)
  | EArr _ _ rows =>
      ILB :: sepby ISemi (map (fun row => sepby IComma (map reading row)) rows) ++ [IRB]
  | e => [ILeaf e]
  end.
End S.
