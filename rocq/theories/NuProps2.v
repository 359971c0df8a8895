(** More about C135: the second argument of ROMAN. *)
From Coq Require Import String ZArith List Bool Lia.
From Verif Require Import Base Maps NuModel.
Import ListNotations.
Local Open Scope Z_scope.

(** TRUE, nothing and an empty cell ask for the classic form, FALSE for form 4, and a number
    for the form it truncates to; an error is passed on, and any other value is refused. *)
Theorem C135_form_kinds : forall i2f pn v,
  (forall f, f = Some (LBool true) \/ f = Some LEmpty \/ f = Some (LInt 0) -> f_roman i2f pn v f = f_roman i2f pn v None) /\
  f_roman i2f pn v (Some (LBool false)) = f_roman i2f pn v (Some (LInt 4)) /\
  (forall x, f_roman i2f pn v (Some (LNum x)) = f_roman i2f pn v (Some (LInt (as_i64 x)))) /\
  (forall x, coerce_num i2f pn v = inl x -> 1 <= as_i64 x <= 3999 ->
     (forall e, f_roman i2f pn v (Some (LErr e)) = OErr e) /\
     (forall s, f_roman i2f pn v (Some (LText s)) = OErr EValue) /\
     (forall z, z < 0 \/ 4 < z -> f_roman i2f pn v (Some (LInt z)) = OErr EValue)).
Proof.
  intros i2f pn v. split; [|split; [|split]].
  - intros f [E|[E|E]]; subst f; reflexivity.
  - reflexivity.
  - reflexivity.
  - intros x C R. unfold f_roman. rewrite C. cbv zeta.
    replace ((0 <=? as_i64 x) && (as_i64 x <=? 3999)) with true by (symmetry; apply andb_true_iff; split; apply Z.leb_le; lia).
    replace (as_i64 x =? 0) with false by (symmetry; apply Z.eqb_neq; lia).
    repeat split; intros; cbn [roman_form]; try reflexivity.
    replace ((0 <=? z) && (z <=? 4)) with false; [reflexivity|]. symmetry. apply andb_false_iff. rewrite !Z.leb_gt. lia.
Qed.
Print Assumptions C135_form_kinds.
(** ROMAN(499, TRUE) is classic; a form given as a text is refused. *)
Example C135_form_kinds_example : forall i2f pn, as_i64 (i2f 499) = 499 ->
  f_roman i2f pn (LInt 499) (Some (LBool true)) = OText (tx "CDXCIX") /\
  f_roman i2f pn (LInt 499) (Some (LText (tx "4"))) = OErr EValue.
Proof. intros i2f pn H. unfold f_roman. cbn [coerce_num]. rewrite H. split; reflexivity. Qed.
