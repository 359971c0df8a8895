(** Evaluation of formulas (C166, C168, C172): operands that are ranges or functions, unary
    operators on arrays, functions that answer with one of their arguments, and implicit
    intersection of a range that an expression gives. *)
From Verif Require Import Base Maps LookupModel LookupSpec LookupProofs BcastModel EvModel EvSpec EvProofs1 EvProofs2 EvProofs3 EvProofs4 EvProofs5 EvProofs6 EvProps.

(** ** C166 *)
(** A range of one cell is that cell as an operand, any other range is the array of its cells, and
    a function is #CALC!. *)
Definition operand (W : world) (c : calc W) (v : value (T W)) : Prop :=
  match c with
  | CPlain _ (PScalar u) => v = u
  | CPlain _ (PRange r) =>
      (exists s, g_cells r = [[s]] /\ v = VS s) \/ ((forall s, g_cells r <> [[s]]) /\ v = VA (g_cells r))
  | CClo _ _ => v = VS (SErr K_CALC)
  end.
Lemma operand_ok : forall W c, operand W c (into_literal W c).
Proof.
  intros W [[u|[tmp r0 c0 g]]|c]; cbn; auto.
  destruct g as [|[|s [|t row]] [|row2 g]]; try (right; split; [discriminate|reflexivity]). left. now exists s.
Qed.
Lemma operand_unique : forall W c v u, operand W c v -> operand W c u -> v = u.
Proof.
  intros W [[w|r]|c] v u; cbn; try congruence.
  intros [(s & E & ->)|[N ->]] [(t & F & ->)|[M ->]]; auto; [congruence|now apply M in E|now apply N in F].
Qed.
Theorem C166_operand_values : forall (W : world) i op a b ca cb va vb, op <> ORange ->
  tree_result W i a (Ok ca) -> tree_result W i b (Ok cb) -> operand W ca va -> operand W cb vb ->
  tree_result W i (EBin op a b)
    (match binary W op va vb with Ok v => Ok (CPlain W (PScalar v)) | Err e => Err e | Panic => Panic end).
Proof.
  intros W i op a b ca cb va vb HO HA HB Va Vb.
  rewrite (operand_unique W ca va _ Va (operand_ok W ca)), (operand_unique W cb vb _ Vb (operand_ok W cb)).
  destruct (C166_evaluated W i op a b (Ok ca) HO HA) as [_ H]. destruct (H ca (Ok cb) eq_refl HB) as [_ K]. exact (K cb eq_refl).
Qed.
Theorem C166_unary_value : forall (W : world) i op a ca va, op <> UAt -> tree_result W i a (Ok ca) -> operand W ca va ->
  tree_result W i (EUn op a)
    (match unary W op va with Ok v => Ok (CPlain W (PScalar v)) | Err e => Err e | Panic => Panic end).
Proof.
  intros W i op a ca va HO HA Va. rewrite (operand_unique W ca va _ Va (operand_ok W ca)).
  destruct (result_at W i a _ HA) as [n H]. exists (S n). cbn [teval tree_step]. rewrite (H n (Nat.le_refl n)). cbn [obind].
  destruct op; try congruence; reflexivity.
Qed.
(** A unary operator works on each cell; an error is the error of the cell. *)
Theorem C166_unary_any_cells : forall (W : world) op (g : grid (T W)), exists f,
  unary W op (VA g) = Ok (VA (map (map f) g)) /\
  (forall s, unary W op (VS s) = Ok (VS (f s)) \/ exists e, unary W op (VS s) = Err e /\ f s = SErr e).
Proof.
  intros W op g. eexists. split; [unfold unary, map_array; reflexivity|]. intros s. cbn beta. unfold unary.
  destruct op; cbn [unary_scalar rbind]; auto; right; eexists; split; reflexivity.
Qed.
Example C166_operand_ex : operand zworld (CPlain zworld (PRange (mkRange false 0 0 [[SNum 1%Z; SNum 2%Z]]))) (VA [[SNum 1%Z; SNum 2%Z]]) /\
  operand zworld (CPlain zworld (PRange (mkRange false 0 0 [[SNum 1%Z]]))) (VS (SNum 1%Z)) /\
  tree_result zworld z0 (ELit (VS (SNum 1%Z))) (Ok (CPlain zworld (PScalar (VS (SNum 1%Z))))).
Proof.
  split; [|split].
  - right. split; [discriminate|reflexivity].
  - left. eexists. split; reflexivity.
  - exists 1%nat. reflexivity.
Qed.

(** ** C168: a function that answers with one of its arguments gives the value of that argument *)
Theorem C168_chosen_argument : forall (W : world) i name p args rs k,
  w_fn W name = Some (FPrim p) -> Forall2 (tree_result W i) args rs ->
  p (map (fun '(e, v) => handle W i e v) (combine args rs)) = AArg k -> k < length args ->
  exists r, nth_error rs k = Some r /\ tree_result W i (EFun name args) r.
Proof.
  intros W i name p args rs k HN HF HP HK.
  assert (R : exists n, results W (teval W n) i args = Some rs).
  { clear HP HK. induction HF as [|e r es rs HE HF IH]; [exists 0; reflexivity|].
    destruct IH as [n IH]. destruct (result_at W i e r HE) as [m H]. exists (max n m). cbn [results].
    rewrite (H (max n m) (Nat.le_max_r n m)).
    rewrite (results_mono W (teval W n) (teval W (max n m)) (teval_le W n (max n m) (Nat.le_max_l n m)) i es rs IH). reflexivity. }
  assert (L : length rs = length args) by (clear - HF; induction HF; cbn; auto).
  destruct R as [n R]. destruct (nth_error rs k) as [r|] eqn:E; [|apply nth_error_None in E; lia].
  exists r. split; [reflexivity|]. exists (S n). cbn [teval tree_step]. rewrite HN. unfold eval_fn. rewrite R, HP. cbn [settle].
  now rewrite (nth_error_nth rs k _ E).
Qed.

(** ** C172: a range that an expression gives is cut down to the cell beside the formula *)
Theorem C172_expressions : forall (W : world) i a r, (forall x, a <> ERef x) ->
  tree_result W i a (Ok (CPlain W (PRange r))) -> tree_result W i (EUn UAt a) (Ok (scal W (at_range W r))).
Proof.
  intros W i a r HA H. destruct (result_at W i a _ H) as [n K]. exists (S n). cbn [teval tree_step].
  destruct a; try (rewrite (K n (Nat.le_refl n)); reflexivity). now destruct (HA r0).
Qed.
Example C168_C172_ex :
  w_fn zworld tIF = Some (FPrim if_fn) /\
  tree_result zworld z0 (EFun tIF [ELit (VS (SBool false)); num 4; num 5]) (Ok (scal zworld (SNum 5%Z))) /\
  tree_result zworld z0 (EArr [[num 7; num 8]]) (Ok (CPlain zworld (PRange (mkRange true 0 0 [[SNum 7%Z; SNum 8%Z]])))).
Proof. split; [reflexivity|]. split; exists 4; reflexivity. Qed.
Print Assumptions C166_operand_values.
Print Assumptions C166_unary_value.
Print Assumptions C166_unary_any_cells.
Print Assumptions C168_chosen_argument.
Print Assumptions C172_expressions.
