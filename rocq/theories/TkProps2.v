(** Further theorems of C124 and C127: what supported formulas look like and
    which cells a placement reads. *)
From Coq Require Import List Bool NArith ZArith String Lia ZifyN ZifyNat ZifyBool.
From Verif Require Import Base LexModel RtModel TkModel TkSpec SvModel TkSpec2 TkProofs4 TkProofs7.
Import ListNotations.
Open Scope N_scope.

(** A supported formula has no spill or intersection operator, no array, no
    call of a value, only plain references and only functions that depend on
    nothing but their arguments, at any depth. *)
Theorem C124_supported_shape : forall ident a b vol x,
  supported (t_labels (canonicalize ident a b vol x)) = true -> vol = false /\ a <> 0 /\ b <> 0 /\ shape ident x.
Proof.
  intros ident a b vol x H. destruct (supported_quiet _ _ _ _ _ H) as (Q & V & A & B).
  split; [exact V |]. split; [exact A |]. split; [exact B |]. exact (quiet_shape _ _ _ _ _ _ Q).
Qed.
Print Assumptions C124_supported_shape.

(** A reference of the template, seen at a placement, is the place that the
    reference copied from the template's formula to the placement names. *)
Theorem C127_references : forall o r r' a b p q, plain_ref o r ->
  ref_copy (Z.of_N p - Z.of_N a) (Z.of_N q - Z.of_N b) r r' ->
  Some (fix_ref (fst (canon_ref a b o r)) (p, q)) = named_place r'.
Proof. exact fix_canon. Qed.
Print Assumptions C127_references.
(** [A$1] in B1 and the same reference filled two rows down and one column right. *)
Example C127_references_example :
  plain_ref (tx "A$1") (RCell None 1 1 true false) /\
  ref_copy 2 1 (RCell None 1 1 true false) (RCell None 1 2 true false) /\
  fix_ref (fst (canon_ref 1 2 (tx "A$1") (RCell None 1 1 true false))) (3, 3) = DCell SCurrent (At 1) (At 2).
Proof. split; [reflexivity |]. split; [constructor; reflexivity | reflexivity]. Qed.
