(* How a formula written without blanks and brackets falls into operands and
   operators, and which blanks and colons are reference operators. *)
From Coq Require Import List Bool NArith String.
From Verif Require Import LexModel RoundSpec.
Import ListNotations.
Open Scope N_scope.

Definition digits (d : text) : Prop := forallb is_digit d = true.

(* 12E, 1.5e, 3.E: a number that waits for its exponent. *)
Definition mantissa (w : text) : Prop :=
  exists a b e, a <> [] /\ digits a /\ (b = [] \/ exists f, b = c_dot :: f /\ digits f)
    /\ (e = 69 \/ e = 101) /\ w = a ++ b ++ [e].

(* The sign [o] between [w] and [v] is the sign of an exponent. *)
Definition exponent (w o v : text) : Prop :=
  mantissa w /\ (o = tx "+" \/ o = tx "-") /\ exists d r, v = d :: r /\ is_digit d = true.

Definition ops : list text :=
  map tx ["^"; "*"; "/"; "+"; "-"; "&"; "="; "<"; ">"; "<="; ">="; "<>"]%string.

Section S.
Variable is_num : text -> bool.
Definition operand_tok (w : text) : tok := Tok TOperand (operand_subtype is_num w) w.

Inductive reads : text -> list (text * text) -> list tok -> Prop :=
| r_last w : reads w [] [operand_tok w]
| r_op w o v l ts : ~ exponent w o v -> reads v l ts ->
    reads w ((o, v) :: l) (operand_tok w :: Tok TInf SNone o :: ts)
| r_exp w o v l ts : exponent w o v -> reads (w ++ o ++ v) l ts -> reads w ((o, v) :: l) ts.
End S.

Definition spell (l : list (text * text)) : text := flat_map (fun p => fst p ++ snd p) l.

(* $A$1, B7, $C3, D$4. *)
Definition dollar (d : text) : Prop := d = [] \/ d = [c_dollar].
Definition cell (v : text) : Prop :=
  exists d l e n, dollar d /\ dollar e /\ l <> [] /\ forallb is_alpha l = true /\ n <> [] /\ digits n
    /\ v = d ++ l ++ e ++ n.

(* A sheet name in apostrophes, with the apostrophes of the name doubled. *)
Fixpoint apos (s : text) : text :=
  match s with c :: r => if c =? c_sq then c :: c :: apos r else c :: apos r | [] => [] end.
Definition quoted (s : text) : text := c_sq :: apos s ++ [c_sq].
