(* What a token list has to do with the formula it was read from. *)
From Coq Require Import List Bool NArith.
From Verif Require Import LexModel.
Import ListNotations.
Open Scope N_scope.

(* [spells s ts]: the values of the tokens, in order, are the text [s],
   except that a sheet qualifier "name!" may stand directly before an error
   literal without belonging to a token. *)
Inductive spells : text -> list tok -> Prop :=
| spells_nil : spells [] []
| spells_tok s ts t : spells s ts -> spells (s ++ tv t) (ts ++ [t])
| spells_err s ts t q :
    spells s ts -> tt t = TOperand -> tsb t = SError -> q <> [] ->
    spells (s ++ (q ++ [c_bang]) ++ tv t) (ts ++ [t]).

(* Brackets: reading the tokens from left to right with the stack of the
   open ones. *)
Definition bracket (t : tok) : bool :=
  match tt t with TFunc | TParen | TArray => true | _ => false end.
Definition opens (t : tok) : bool :=
  bracket t && match tsb t with SOpen => true | _ => false end.
Definition closes (t : tok) : bool :=
  bracket t && match tsb t with SClose => true | _ => false end.

Fixpoint nest (st : list ttype) (ts : list tok) : option (list ttype) :=
  match ts with
  | [] => Some st
  | t :: r =>
      if opens t then nest (tt t :: st) r
      else if closes t then
        match st with
        | o :: st' => if ttype_eqb o (tt t) then nest st' r else None
        | [] => None
        end
      else nest st r
  end.

(* The shape of a token: which bytes it may consist of. *)
Definition shape (t : tok) : Prop :=
  match tt t, tsb t with
  | TFunc, SOpen => exists name, name <> [] /\ tv t = name ++ [c_lp]
  | TParen, SOpen => tv t = [c_lp]
  | TArray, SOpen => tv t = [c_lc]
  | TFunc, SClose => tv t = [c_rp]
  | TParen, SClose => tv t = [c_rp]
  | TArray, SClose => tv t = [c_rc]
  | TSep, SArg => tv t = [c_comma] \/ tv t = [c_semi]
  | TSep, SRow => tv t = [c_semi]
  | TOperand, SText => exists a, tv t = c_dq :: a
  | TOperand, SNumber | TOperand, SLogical | TOperand, SError | TOperand, SRange => tv t <> []
  | TPre, SNone => tv t = [c_plus] \/ tv t = [c_minus] \/ tv t = [c_at]
  | TPost, SNone => tv t = [c_pct] \/ tv t = [c_hash]
  | TInf, SNone => tv t <> []
  | TWs, SNone => tv t <> [] /\ forallb is_ws (tv t) = true
  | TLiteral, SNone => True
  | _, _ => False
  end.
