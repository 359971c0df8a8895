(** Claims C166-C172 about the evaluation of formulas. *)
From Verif Require Import Base Maps LookupModel LookupSpec LookupProofs BcastModel EvModel EvSpec EvProofs1 EvProofs2 EvProofs3 EvProofs4 EvProofs5 EvProofs6.

(** ** C166: operators *)

Theorem C166_cells :
  forall (W : world) o (l r : value (T W)),
    1 <= height W l -> 1 <= width W l -> 1 <= height W r -> 1 <= width W r ->
    (forall s t, l = VS s -> r = VS t -> binary W (OArith o) l r = Ok (VS (arith W o s t))) /\
    ((exists g, l = VA g) \/ (exists g, r = VA g) ->
     (meets (height W l) (height W r) /\ meets (width W l) (width W r) ->
      exists g, binary W (OArith o) l r = Ok (VA g) /\ length g = Nat.max (height W l) (height W r) /\
        (forall row, In row g -> length row = Nat.max (width W l) (width W r)) /\
        (forall i j, i < Nat.max (height W l) (height W r) -> j < Nat.max (width W l) (width W r) ->
          nth j (nth i g []) SEmpty = arith W o (operand_cell W l i j) (operand_cell W r i j))) /\
     (~ (meets (height W l) (height W r) /\ meets (width W l) (width W r)) ->
      binary W (OArith o) l r = Ok (VS (SErr K_VALUE)))).
Proof.
  intros W o l r H1 H2 H3 H4. destruct (broadcast_spec W (arith W o) l r H1 H2 H3 H4) as [HA HB]. cbn [binary].
  split; [intros s t -> ->; reflexivity|]. intros HX. destruct (HB HX) as [HC HD]. split.
  - intros HM. destruct (HC HM) as [g [HG HR]]. exists g. split; [now rewrite HG|exact HR].
  - intros HM. now rewrite (HD HM).
Qed.

Theorem C166_compared_cells :
  forall (W : world) o (l r : value (T W)),
    1 <= height W l -> 1 <= width W l -> 1 <= height W r -> 1 <= width W r ->
    (forall e, l <> VS (SErr e)) -> (forall e, r <> VS (SErr e)) ->
    (exists g, l = VA g) \/ (exists g, r = VA g) ->
    (meets (height W l) (height W r) /\ meets (width W l) (width W r) ->
      exists g, binary W (OCmp o) l r = Ok (VA g) /\ length g = Nat.max (height W l) (height W r) /\
        (forall row, In row g -> length row = Nat.max (width W l) (width W r)) /\
        (forall i j, i < Nat.max (height W l) (height W r) -> j < Nat.max (width W l) (width W r) ->
          nth j (nth i g []) SEmpty = compare W o (operand_cell W l i j) (operand_cell W r i j))) /\
    (~ (meets (height W l) (height W r) /\ meets (width W l) (width W r)) ->
      binary W (OCmp o) l r = Ok (VS (SErr K_VALUE))).
Proof.
  intros W o l r H1 H2 H3 H4 HL HR HX. destruct (broadcast_spec W (compare W o) l r H1 H2 H3 H4) as [HA HB]. cbn [binary].
  assert (HQ : compare_values W o l r = broadcast_apply W (compare W o) l r).
  { destruct l as [[]|], r as [[]|]; try reflexivity; exfalso; first [now eapply HL|now eapply HR]. }
  rewrite HQ. destruct (HB HX) as [HC HD]. split.
  - intros HM. destruct (HC HM) as [g [HG HK]]. exists g. split; [now rewrite HG|exact HK].
  - intros HM. now rewrite (HD HM).
Qed.

(** What counts as which number. *)
Theorem C166_operands :
  forall (W : world) o (s : scalar (T W)),
    (forall b, arith W o (SBool b) s = arith W o (SNum (w_bool W b)) s /\ arith W o s (SBool b) = arith W o s (SNum (w_bool W b))) /\
    (forall z, arith W o (SInt z) s = arith W o (SNum (w_int W z)) s /\ arith W o s (SInt z) = arith W o s (SNum (w_int W z))) /\
    (arith W o SEmpty s = arith W o (SNum (w_zero W)) s /\ arith W o s SEmpty = arith W o s (SNum (w_zero W))) /\
    (forall u v, arith W o (SDate u v) s = arith W o (SNum v) s /\ arith W o s (SDate u v) = arith W o s (SNum v)) /\
    (forall t x, w_number W t = Some x -> arith W o (SText t) s = arith W o (SNum x) s /\ arith W o s (SText t) = arith W o s (SNum x)) /\
    (forall t x, w_number W t = None -> w_datetime W t = Some x ->
       arith W o (SText t) s = arith W o (SNum x) s /\ arith W o s (SText t) = arith W o s (SNum x)) /\
    (forall t, w_number W t = None -> w_datetime W t = None ->
       arith W o (SText t) s = SErr K_VALUE /\ (forall x, arith W o (SNum x) (SText t) = SErr K_VALUE)).
Proof.
  intros W o s. unfold arith. cbn. repeat split; intros; try reflexivity; try (now rewrite H); now rewrite H, H0.
Qed.

(** Numbers: the result is the number computed, if it is finite. *)
Theorem C166_numbers :
  forall (W : world) (a b : T W),
    (forall o, o = AAdd \/ o = ASub \/ o = AMul ->
       arith W o (SNum a) (SNum b) = if w_finite W (w_arith W o a b) then SNum (w_arith W o a b) else SErr K_NUM) /\
    (arith W ADiv (SNum a) (SNum b) =
       if w_is_zero W b then SErr K_DIV
       else if w_finite W (w_arith W ADiv a b) then SNum (w_arith W ADiv a b) else SErr K_NUM) /\
    (arith W APow (SNum a) (SNum b) =
       if w_is_neg W a && w_has_frac W b then SErr K_NUM
       else if w_finite W (w_arith W APow a b) then SNum (w_arith W APow a b) else SErr K_NUM) /\
    (forall s : scalar (T W), unary_scalar W UPlus s = Ok s) /\
    unary_scalar W UNeg (SNum a) = Ok (if w_finite W (w_neg W a) then SNum (w_neg W a) else SErr K_NUM) /\
    unary_scalar W UPct (SNum a) = Ok (if w_finite W (w_pct W a) then SNum (w_pct W a) else SErr K_NUM).
Proof. intros W a b. repeat split; try reflexivity. intros o [->|[->| ->]]; reflexivity. Qed.

(** Arithmetic gives a finite number or an error, and the first error wins. *)
Theorem C166_result :
  forall (W : world) o (l r : scalar (T W)),
    (exists x, arith W o l r = SNum x /\ w_finite W x = true) \/ is_err W (arith W o l r).
Proof.
  intros W o l r. unfold arith, is_err, sanitized.
  destruct (arith_number_cases W l) as [[x Hx]|[e Hx]]; rewrite Hx;
    destruct (arith_number_cases W r) as [[y Hy]|[f Hy]]; rewrite ?Hy; eauto.
  destruct o; try (destruct (w_finite W _) eqn:E; [left|right]; eauto; fail).
  - destruct (w_is_zero W y); [right; eauto|]. destruct (w_finite W (w_arith W ADiv x y)) eqn:E; [left|right]; eauto.
  - destruct (w_is_neg W x && w_has_frac W y); [right; eauto|]. destruct (w_finite W (w_arith W APow x y)) eqn:E; [left|right]; eauto.
Qed.

Theorem C166_errors :
  forall (W : world) e (s : scalar (T W)),
    (forall o, binary W (OArith o) (VS (SErr e)) (VS s) = Ok (VS (SErr e))) /\
    (forall o, binary W (OCmp o) (VS (SErr e)) (VS s) = Ok (VS (SErr e))) /\
    (forall o x, binary W (OArith o) (VS (SNum x)) (VS (SErr e)) = Ok (VS (SErr e))) /\
    (forall o, (forall d, s <> SErr d) -> binary W (OCmp o) (VS s) (VS (SErr e)) = Ok (VS (SErr e))) /\
    (forall op, op = UPlus \/ op = UNeg \/ op = UPct -> unary W op (VS (SErr e)) = Ok (VS (SErr e))).
Proof.
  intros W e s. split; [reflexivity|]. split; [reflexivity|]. split; [reflexivity|]. split.
  - intros o H. cbn. destruct s; try reflexivity. exfalso. eapply H. reflexivity.
  - intros op [->|[->| ->]]; reflexivity.
Qed.

(** [&] is the exception: an error becomes the text it is shown as. *)
Theorem C166_errors_refuted :
  ~ (forall (W : world) op e (s : scalar (T W)), op <> ORange -> op <> OUnknown ->
       binary W op (VS (SErr e)) (VS s) = Ok (VS (SErr e))).
Proof. intros H. specialize (H zworld OCat K_DIV SEmpty ltac:(discriminate) ltac:(discriminate)). discriminate. Qed.
Theorem C166_concat :
  forall (W : world) (l r : value (T W)), exists t u, binary W OCat l r = Ok (VS (SText (t ++ u))) /\
    (forall a, l = VS (SText a) -> t = a) /\ (forall a, r = VS (SText a) -> u = a) /\
    (forall e, l = VS (SErr e) -> t = w_show_err W e) /\ (l = VS SEmpty -> t = []) /\ (r = VS SEmpty -> u = []).
Proof.
  intros W l r. exists (to_text W l), (to_text W r). split; [reflexivity|].
  repeat split; intros; subst; reflexivity.
Qed.
(** ... and an array is not taken cell by cell. *)
Theorem C166_concat_cells_refuted :
  ~ (forall (W : world) (g : grid (T W)) s, exists h, binary W OCat (VA g) (VS s) = Ok (VA h)).
Proof. intros H. destruct (H zworld [[SEmpty]] SEmpty) as [h Q]. discriminate. Qed.

(** In a formula: the operands first, the left one before the right one. *)
Theorem C166_evaluated :
  forall (W : world) i op (a b : expr (T W)) ra, op <> ORange -> tree_result W i a ra ->
    (forall e, ra = Err e -> tree_result W i (EBin op a b) (Err e)) /\
    (forall c rb, ra = Ok c -> tree_result W i b rb ->
       (forall e, rb = Err e -> tree_result W i (EBin op a b) (Err e)) /\
       (forall d, rb = Ok d -> tree_result W i (EBin op a b)
          (match binary W op (into_literal W c) (into_literal W d) with
           | Ok v => Ok (CPlain W (PScalar v)) | Err e => Err e | Panic => Panic end))).
Proof.
  intros W i op a b ra HO HA. destruct (result_at W i a ra HA) as [n0 H0]. split.
  - intros e ->. exists (S n0). cbn [teval tree_step]. rewrite (H0 n0 ltac:(lia)). reflexivity.
  - intros c rb -> HB. destruct (result_at W i b rb HB) as [n1 H1]. split.
    + intros e ->. exists (S (max n0 n1)). cbn [teval tree_step]. rewrite (H0 (max n0 n1) ltac:(lia)). cbn [obind].
      rewrite (H1 (max n0 n1) ltac:(lia)). reflexivity.
    + intros d ->. exists (S (max n0 n1)). cbn [teval tree_step]. rewrite (H0 (max n0 n1) ltac:(lia)). cbn [obind].
      rewrite (H1 (max n0 n1) ltac:(lia)). cbn [obind]. destruct op; try congruence; reflexivity.
Qed.

Example C166_example :
  binary zworld (OArith AAdd) (VA [[SNum 1%Z; SNum 2%Z]]) (VA [[SNum 10%Z]; [SText [57]%N]; [SErr K_REF]]) =
  Ok (VA [[SNum 11%Z; SNum 12%Z]; [SNum 10%Z; SNum 11%Z]; [SErr K_REF; SErr K_REF]]).
Proof. reflexivity. Qed.
Print Assumptions C166_cells.
Print Assumptions C166_compared_cells.
Print Assumptions C166_operands.
Print Assumptions C166_numbers.
Print Assumptions C166_result.
Print Assumptions C166_errors.
Print Assumptions C166_errors_refuted.
Print Assumptions C166_concat.
Print Assumptions C166_concat_cells_refuted.
Print Assumptions C166_evaluated.

(** ** C167: comparisons *)

(** Two values that are no errors stand in one relation, and every comparison tells it. *)
Theorem C167_consistent :
  forall (W : world), (forall x y, w_cmp W x y <> None) -> forall (l r : scalar (T W)), ~ is_err W l -> ~ is_err W r ->
    exists c, forall o, compare W o l r = SBool (says o c).
Proof.
  intros W HT l r HL HR. destruct (compared_total W HT l r) as [c HC]. exists c. intros o.
  rewrite <- HC. unfold compare, is_err in *. destruct l, r; try reflexivity; exfalso; eauto.
Qed.
(** With NaN about, [<>] is still the opposite of [=]. *)
Theorem C167_unequal :
  forall (W : world) (l r : scalar (T W)) b, compare W CEq l r = SBool b -> compare W CNe l r = SBool (negb b).
Proof.
  intros W l r b H. destruct (compared_order W l r) as [c HC].
  assert (HX : compare W CEq l r = SBool (compared W CEq l r) /\ compare W CNe l r = SBool (compared W CNe l r)).
  { unfold compare in *. destruct l, r; auto; discriminate. }
  destruct HX as [H1 H2]. rewrite H1 in H. inversion H. rewrite H2, !HC. now destruct c as [[]|].
Qed.
Theorem C167_mirrored :
  forall (W : world), (forall x y, w_cmp W y x = option_map CompOpp (w_cmp W x y)) ->
    forall (l r : scalar (T W)), ~ is_err W l -> ~ is_err W r ->
      compare W CGt r l = compare W CLt l r /\ compare W CGe r l = compare W CLe l r /\
      compare W CEq r l = compare W CEq l r /\ compare W CNe r l = compare W CNe l r.
Proof.
  intros W HA l r HL HR.
  assert (HX : forall o l r, ~ is_err W l -> ~ is_err W r -> compare W o l r = SBool (compared W o l r)).
  { intros o x y H1 H2. unfold compare, is_err in *. destruct x, y; auto; exfalso; eauto. }
  rewrite !HX by auto.
  rewrite <- (compared_flip W HA CLt l r), <- (compared_flip W HA CLe l r), <- (compared_flip W HA CEq l r), <- (compared_flip W HA CNe l r).
  auto.
Qed.
(** Which way two values are compared. *)
Theorem C167_texts :
  forall (W : world) (a b : text),
    (compare W CEq (SText a : scalar (T W)) (SText b) = SBool true <-> w_fold W a = w_fold W b) /\
    (compare W CLt (SText a : scalar (T W)) (SText b) = SBool true <-> text_lt (w_fold W a) (w_fold W b)).
Proof.
  intros W a b. unfold compare, compared, cmp_text. split; split; intros H.
  - apply text_cmp_eq. destruct (text_cmp (w_fold W a) (w_fold W b)); cbn in H; congruence.
  - apply text_cmp_eq in H. now rewrite H.
  - apply text_cmp_lt. destruct (text_cmp (w_fold W a) (w_fold W b)); cbn in H; congruence.
  - apply text_cmp_lt in H. now rewrite H.
Qed.
Theorem C167_numbers :
  forall (W : world) o (x y : T W),
    compare W o (SNum x) (SNum y) = SBool (holds o (w_cmp W x y)) /\
    (forall t, w_number W t = Some y ->
       compare W o (SNum x) (SText t) = SBool (holds o (w_cmp W x y)) /\
       compare W o (SText t) (SNum x) = SBool (holds o (w_cmp W y x))) /\
    (forall z, compare W o (SNum x) (SInt z) = SBool (holds o (w_cmp W x (w_int W z)))) /\
    (forall b, compare W o (SNum x) (SBool b) = SBool (holds o (w_cmp W x (w_bool W b)))) /\
    compare W o (SNum x) SEmpty = SBool (holds o (w_cmp W x (w_zero W))).
Proof.
  intros W o x y. repeat split; try reflexivity; cbn; rewrite H; reflexivity.
Qed.
(** It is no order. *)
Theorem C167_order_refuted :
  ~ (forall (W : world), (forall x y, w_cmp W x y <> None) -> forall (a b c : scalar (T W)),
       compare W CLt a b = SBool true -> compare W CLt b c = SBool true -> compare W CLt a c = SBool true).
Proof.
  intros H. specialize (H zworld ltac:(discriminate) (SText [49; 48]%N) (SText [57]%N) (SNum 10%Z)).
  specialize (H eq_refl eq_refl). discriminate.
Qed.
(** Values that are equal need not have the difference zero. *)
Theorem C167_difference_refuted :
  ~ (forall (W : world) (a b : scalar (T W)), (forall x, w_arith W ASub x x = w_zero W) ->
       compare W CEq a b = SBool true -> arith W ASub a b = SNum (w_zero W)).
Proof.
  intros H. specialize (H zworld (SDate 1462%Z 0%Z) (SNum 1462%Z) Z.sub_diag eq_refl). discriminate.
Qed.
Example C167_example :
  compare zworld CLt (SText [97]%N) (SText [66]%N) = SBool true /\ compare zworld CGe (SNum 3%Z) (SText [51]%N) = SBool true /\
  (forall x y, w_cmp zworld x y <> None) /\ (forall x y, w_cmp zworld y x = option_map CompOpp (w_cmp zworld x y)).
Proof.
  repeat split; try discriminate. intros x y. cbn. f_equal. apply Z.compare_antisym.
Qed.
Print Assumptions C167_consistent.
Print Assumptions C167_unequal.
Print Assumptions C167_mirrored.
Print Assumptions C167_texts.
Print Assumptions C167_numbers.
Print Assumptions C167_order_refuted.
Print Assumptions C167_difference_refuted.

(** ** C168: local names *)

Theorem C168_coincidence :
  forall (W : world) n e env1 env2 dr dc, placed W e = true ->
    (forall k, occurs W k e = true -> like_o W (find W k env1) (find W k env2)) ->
    like W (teval W n (mkInterp W env1 dr dc) e) (teval W n (mkInterp W env2 dr dc) e).
Proof. exact like_eval. Qed.
Theorem C168_closed :
  forall (W : world) n e env1 env2 dr dc, placed W e = true -> (forall k, occurs W k e = false) ->
    like W (teval W n (mkInterp W env1 dr dc) e) (teval W n (mkInterp W env2 dr dc) e).
Proof. intros W n e env1 env2 dr dc HP HO. apply like_eval; auto. intros k HK. rewrite HO in HK. discriminate. Qed.
(** The value of a name is usable again. *)
Theorem C168_usable :
  forall (W : world) i e c x, placed W e = true -> usable W (i_env W i) -> tree_result W i e (Ok c) ->
    usable W (bind W x (binding_of W c) (i_env W i)).
Proof.
  intros W [env dr dc] e c x HP HU [n HE] k. pose proof (like_eval W n e env env dr dc HP (fun k _ => HU k)) as HL.
  rewrite HE in HL. unfold bind. cbn [i_env find]. destruct (text_eqb k (norm x)); [|apply HU].
  constructor. inversion HL; subst; cbn; auto. constructor.
Qed.
Theorem C168_unused :
  forall (W : world) i lt x a b c r, w_fn W lt = Some FLet -> placed W b = true -> usable W (i_env W i) ->
    occurs W (norm x) b = false -> tree_result W i a (Ok c) -> tree_result W i b r ->
    exists s, tree_result W i (EFun lt [name_ref W x; a; b]) s /\ like W (Some r) (Some s).
Proof. intros W i lt x a b c r H1 H2 H3 H4 H5 H6. eapply let_unused; eauto. Qed.
(** A name stands for its value, and the innermost binding counts. *)
Theorem C168_bound :
  forall (W : world) i x y v, norm x = norm y ->
    tree_result W (with_env W i (bind W x (BVal W v) (i_env W i))) (name_ref W y) (Ok (CPlain W (PScalar v))).
Proof.
  intros W i x y v HN. exists 1. cbn [teval tree_step name_ref]. rewrite ref_tree_name. cbn [with_env i_env]. unfold bind. cbn [find].
  rewrite <- HN. assert (HT : text_eqb (norm x) (norm x) = true) by now apply teq. now rewrite HT.
Qed.
(** Naming a value and calling a function on it are the same. *)
Theorem C168_beta :
  forall (W : world) i lt lm x f a b p r, w_fn W lt = Some FLet -> w_fn W lm = Some FLambda -> w_fn W f = None ->
    placed W a = true -> usable W (i_env W i) -> occurs W (norm f) a = false ->
    tree_result W i a (Ok (CPlain W p)) ->
    (tree_result W i (EFun lt [name_ref W x; a; b]) r <->
     tree_result W i (EFun lt [name_ref W f; EFun lm [name_ref W x; b]; EFun f [a]]) r).
Proof. intros W i lt lm x f a b p r H1 H2 H3 H4 H5 H6 H7. eapply let_beta; eauto. Qed.
(** ... unless the function has the name of a registered one, *)
Theorem C168_registered_refuted :
  ~ (forall (W : world) i lt lm x f a b p r, w_fn W lt = Some FLet -> w_fn W lm = Some FLambda ->
    placed W a = true -> usable W (i_env W i) -> occurs W (norm f) a = false ->
    tree_result W i a (Ok (CPlain W p)) ->
    (tree_result W i (EFun lt [name_ref W x; a; b]) r <->
     tree_result W i (EFun lt [name_ref W f; EFun lm [name_ref W x; b]; EFun f [a]]) r)).
Proof.
  intros H.
  specialize (H zworld z0 tLET tLAMBDA [120]%N tSUM (num 5) (EBin (OArith AAdd) (nm 120) (num 1)) (PScalar (VS (SNum 5%Z)))
    (Ok (scal zworld (SNum 6%Z))) eq_refl eq_refl eq_refl (fun _ => like_none zworld) eq_refl).
  destruct H as [H _]; [now exists 1|].
  assert (HL : tree_result zworld z0 (EFun tLET [name_ref zworld [120]%N; num 5; EBin (OArith AAdd) (nm 120) (num 1)]) (Ok (scal zworld (SNum 6%Z))))
    by (exists 5; reflexivity).
  apply H in HL. destruct HL as [n HL]. apply (teval_le zworld n (max n 5) ltac:(lia)) in HL.
  assert (HK : teval zworld 5 z0 (EFun tLET [name_ref zworld tSUM; EFun tLAMBDA [name_ref zworld [120]%N; EBin (OArith AAdd) (nm 120) (num 1)]; EFun tSUM [num 5]]) =
               Some (Ok (scal zworld (SNum 5%Z)))) by reflexivity.
  apply (teval_le zworld 5 (max n 5) ltac:(lia)) in HK. pose proof (eq_trans (eq_sym HK) HL) as HQ. discriminate HQ.
Qed.
(** ... or the argument is itself a function, *)
Theorem C168_passed_refuted :
  ~ (forall (W : world) i lt lm x f a b c r, w_fn W lt = Some FLet -> w_fn W lm = Some FLambda -> w_fn W f = None ->
    placed W a = true -> usable W (i_env W i) -> occurs W (norm f) a = false ->
    tree_result W i a (Ok c) ->
    (tree_result W i (EFun lt [name_ref W x; a; b]) r <->
     tree_result W i (EFun lt [name_ref W f; EFun lm [name_ref W x; b]; EFun f [a]]) r)).
Proof.
  intros H.
  specialize (H zworld z0 tLET tLAMBDA [103]%N [102]%N (EFun tLAMBDA [nm 121; nm 121]) (EFun [103]%N [num 3])
    (CClo zworld (Clo zworld [[121]%N] (nm 121) [])) (Ok (scal zworld (SNum 3%Z)))
    eq_refl eq_refl eq_refl eq_refl (fun _ => like_none zworld) eq_refl).
  destruct H as [H _]; [exists 2; reflexivity|].
  assert (HL : tree_result zworld z0 (EFun tLET [name_ref zworld [103]%N; EFun tLAMBDA [nm 121; nm 121]; EFun [103]%N [num 3]]) (Ok (scal zworld (SNum 3%Z))))
    by (exists 7; reflexivity).
  apply H in HL. destruct HL as [n HL]. apply (teval_le zworld n (max n 7) ltac:(lia)) in HL.
  assert (HK : teval zworld 7 z0 (EFun tLET [name_ref zworld [102]%N; EFun tLAMBDA [name_ref zworld [103]%N; EFun [103]%N [num 3]]; EFun [102]%N [EFun tLAMBDA [nm 121; nm 121]]]) =
               Some (Ok (serr zworld K_NAME))) by reflexivity.
  apply (teval_le zworld 7 (max n 7) ltac:(lia)) in HK. pose proof (eq_trans (eq_sym HK) HL) as HQ. discriminate HQ.
Qed.
(** ... and a name does not stand for its value under [@] or as a range. *)
Theorem C168_at_refuted :
  ~ (forall (W : world) i lt x (v : scalar (T W)), w_fn W lt = Some FLet ->
       tree_result W i (EFun lt [name_ref W x; ELit (VS v); EUn UAt (name_ref W x)]) (Ok (scal W v))).
Proof.
  intros H. specialize (H zworld z0 tLET [120]%N (SNum 5%Z) eq_refl). destruct H as [n H].
  apply (teval_le zworld n (max n 5) ltac:(lia)) in H.
  assert (HK : teval zworld 5 z0 (EFun tLET [name_ref zworld [120]%N; ELit (VS (SNum 5%Z)); EUn UAt (name_ref zworld [120]%N)]) =
               Some (Ok (serr zworld K_NAME))) by reflexivity.
  apply (teval_le zworld 5 (max n 5) ltac:(lia)) in HK. pose proof (eq_trans (eq_sym HK) H) as HQ. discriminate HQ.
Qed.
Theorem C168_range_refuted :
  ~ (forall (W : world) i lt x f g (r : res N (calc W)), w_fn W lt = Some FLet -> w_fn W f <> None ->
       tree_result W i (EFun f [ELit (VA g)]) r -> tree_result W i (EFun lt [name_ref W x; ELit (VA g); EFun f [name_ref W x]]) r).
Proof.
  intros H. specialize (H zworld z0 tLET [120]%N tSUM [[SNum 1%Z; SNum 2%Z; SNum 3%Z]] (Ok (scal zworld (SNum 6%Z))) eq_refl ltac:(discriminate)).
  destruct H as [n H]; [exists 3; reflexivity|].
  apply (teval_le zworld n (max n 5) ltac:(lia)) in H.
  assert (HK : teval zworld 5 z0 (EFun tLET [name_ref zworld [120]%N; ELit (VA [[SNum 1%Z; SNum 2%Z; SNum 3%Z]]); EFun tSUM [name_ref zworld [120]%N]]) =
               Some (Ok (serr zworld K_NAME))) by reflexivity.
  apply (teval_le zworld 5 (max n 5) ltac:(lia)) in HK. pose proof (eq_trans (eq_sym HK) H) as HQ. discriminate HQ.
Qed.
(** A function keeps the names of the place where it was written:
    LET(x,1,f,LAMBDA(y,x+y),x,10,f(2)) is 3. *)
Example C168_example :
  tree_result zworld z0 (EFun tLET [nm 120; num 1; nm 102; EFun tLAMBDA [nm 121; EBin (OArith AAdd) (nm 120) (nm 121)];
    nm 120; num 10; EFun [102]%N [num 2]]) (Ok (scal zworld (SNum 3%Z))).
Proof. exists 6. reflexivity. Qed.
Print Assumptions C168_coincidence.
Print Assumptions C168_closed.
Print Assumptions C168_usable.
Print Assumptions C168_unused.
Print Assumptions C168_bound.
Print Assumptions C168_beta.
Print Assumptions C168_registered_refuted.
Print Assumptions C168_passed_refuted.
Print Assumptions C168_at_refuted.
Print Assumptions C168_range_refuted.

(** ** C169: every evaluation ends *)

Theorem C169_tree :
  forall (W : world) i e, exists r, tree_result W i e r /\ (forall s, tree_result W i e s -> s = r).
Proof.
  intros W i e. destruct (teval_total W i e) as [n [r H]]. exists r. split; [exists n; now apply H|].
  intros s HS. eapply result_unique; eauto. exists n. now apply H.
Qed.
Theorem C169_stored :
  forall (W : world) i e, exists r, stored_result W i e r /\ (forall s, stored_result W i e s -> s = r).
Proof.
  intros W i e. destruct (aeval_total W i (stored W e)) as [n [r H]]. exists r. split; [exists n; now apply H|].
  intros s HS. eapply stored_unique; eauto. exists n. now apply H.
Qed.
Theorem C169_more_fuel :
  forall (W : world) n m i e r, n <= m -> (teval W n i e = Some r -> teval W m i e = Some r) /\ (aeval W n i e = Some r -> aeval W m i e = Some r).
Proof. intros W n m i e r H. split; [apply teval_le|apply aeval_le]; auto. Qed.
(** A function calling itself by name, as in LET(f,LAMBDA(x,f(x)),f(1)), finds no function. *)
Example C169_example :
  tree_result zworld z0 (EFun tLET [nm 102; EFun tLAMBDA [nm 120; EFun [102]%N [nm 120]]; EFun [102]%N [num 1]]) (Ok (serr zworld K_NAME)).
Proof. exists 6. reflexivity. Qed.
Print Assumptions C169_tree.
Print Assumptions C169_stored.
Print Assumptions C169_more_fuel.

(** ** C170: the two evaluators *)

Theorem C170_same :
  forall (W : world) still fs i e r, no_call W e = true -> fits W still fs e = true ->
    (forall f, In f fs -> exists c, find W f (i_env W i) = Some (BClo W c)) ->
    (still = true -> i_dr W i = 0%Z /\ i_dc W i = 0%Z) ->
    (tree_result W i e r <-> stored_result W i e r).
Proof.
  intros W still fs i e r HN HF HC HS.
  assert (HA : forall r, stored_result W i e r -> tree_result W i e r).
  { intros s [n H]. exists n. unfold store_eval in H. rewrite stored_same in H by auto. eapply arena_agrees; eauto. }
  split; [|apply HA]. intros HT. destruct (C169_stored W i e) as [s [HSt _]].
  assert (s = r) by (eapply result_unique; eauto). now subst.
Qed.
(** They differ on a function that is not registered, *)
Theorem C170_unknown_refuted :
  ~ (forall (W : world) i e r, no_call W e = true -> tree_result W i e r -> stored_result W i e r).
Proof.
  intros H. specialize (H zworld z0 (EBin OCat (num 1) (EFun [70]%N [])) (Ok (scal zworld (SText [48; 35; 33]%N))) eq_refl).
  destruct H as [n H]; [exists 3; reflexivity|]. unfold store_eval in H. apply (aeval_le zworld n (max n 5) ltac:(lia)) in H.
  assert (HK : aeval zworld 5 z0 (stored zworld (EBin OCat (num 1) (EFun [70]%N []))) = Some (Err K_NAME)) by reflexivity.
  apply (aeval_le zworld 5 (max n 5) ltac:(lia)) in HK. pose proof (eq_trans (eq_sym HK) H) as HQ. discriminate HQ.
Qed.
(** ... on a colon, *)
Theorem C170_colon_refuted :
  ~ (forall (W : world) i (a b : expr (T W)) r, placed W a = true -> placed W b = true ->
       tree_result W i (EBin ORange a b) r -> stored_result W i (EBin ORange a b) r).
Proof.
  intros H. specialize (H zworld z0 (cellref 1 1) (cellref 2 2) (Err K_REF) eq_refl eq_refl).
  destruct H as [n H]; [exists 3; reflexivity|]. unfold store_eval in H. apply (aeval_le zworld n (max n 5) ltac:(lia)) in H.
  assert (HK : aeval zworld 5 z0 (stored zworld (EBin ORange (cellref 1 1) (cellref 2 2))) = Some (Ok (serr zworld K_REF))) by reflexivity.
  apply (aeval_le zworld 5 (max n 5) ltac:(lia)) in HK. pose proof (eq_trans (eq_sym HK) H) as HQ. discriminate HQ.
Qed.
(** ... and on the call of an expression, LAMBDA(x,x)(41), which is #N/IMPL! either way
    but an error of the evaluation in one and a value in the other. *)
Theorem C170_call_refuted :
  ~ (forall (W : world) i c args r, tree_result W i (ECall c args) r -> stored_result W i (ECall c args) r).
Proof.
  intros H. specialize (H zworld z0 (EFun tLAMBDA [nm 120; nm 120]) [num 41] (Err K_NIMPL)).
  destruct H as [n H]; [exists 1; reflexivity|]. unfold store_eval in H. apply (aeval_le zworld n (max n 1) ltac:(lia)) in H.
  assert (HK : aeval zworld 1 z0 (stored zworld (ECall (EFun tLAMBDA [nm 120; nm 120]) [num 41])) = Some (Ok (serr zworld K_NIMPL))) by reflexivity.
  apply (aeval_le zworld 1 (max n 1) ltac:(lia)) in HK. pose proof (eq_trans (eq_sym HK) H) as HQ. discriminate HQ.
Qed.
(** No call of an expression gives a number. *)
Theorem C170_call :
  forall (W : world) i c args, tree_result W i (ECall c args) (Err K_NIMPL) /\ stored_result W i (ECall c args) (Ok (serr W K_NIMPL)).
Proof. intros W i c args. split; exists 1; reflexivity. Qed.
Example C170_example :
  let e := EFun tLET [nm 102; EFun tLAMBDA [nm 120; EBin (OArith AMul) (nm 120) (num 2)];
             EFun tIF [EBin (OCmp CGt) (EFun [102]%N [cellref 1 1]) (num 5); EUn UAt (ERef (RRange None (Some 1%Z) (Some 1%Z) (Some 9%Z) (Some 1%Z) false false false false)); EFun tSUM [cellref 3 3]]] in
  no_call zworld e = true /\ fits zworld true [] e = true /\ tree_result zworld z0 e (Ok (scal zworld (SNum 201%Z))).
Proof. repeat split; try reflexivity. exists 9. reflexivity. Qed.
Print Assumptions C170_same.
Print Assumptions C170_unknown_refuted.
Print Assumptions C170_colon_refuted.
Print Assumptions C170_call_refuted.
Print Assumptions C170_call.

(** ** C171: evaluation with an offset *)

Theorem C171_moved :
  forall (W : world) n e e' env1 env2 dr dc, moved W dr dc e e' ->
    (forall k, shift_o W dr dc (find W k env1) (find W k env2)) ->
    shifted W dr dc (teval W n (mkInterp W env1 dr dc) e) (teval W n (mkInterp W env2 0 0) e').
Proof. exact moved_eval. Qed.
(** The stored formula of a template, evaluated for one of its cells, against the formula
    written in that cell. *)
Theorem C171_template :
  forall (W : world) e e' dr dc p, moved W dr dc e e' ->
    no_call W e = true -> no_call W e' = true -> fits W false [] e = true -> fits W false [] e' = true ->
    (stored_result W (mkInterp W [] dr dc) e (Ok (CPlain W p)) <-> stored_result W (mkInterp W [] 0 0) e' (Ok (CPlain W p))) /\
    (forall k, stored_result W (mkInterp W [] dr dc) e (Err k) <-> stored_result W (mkInterp W [] 0 0) e' (Err k)).
Proof.
  intros W e e' dr dc p HM HN HN' HF HF'.
  assert (HX : forall i e r, no_call W e = true -> fits W false [] e = true -> (tree_result W i e r <-> stored_result W i e r)).
  { intros i x r H1 H2. apply (C170_same W false [] i x r H1 H2); [intros f []|discriminate]. }
  assert (HS : forall n, shifted W dr dc (teval W n (mkInterp W [] dr dc) e) (teval W n (mkInterp W [] 0 0) e')).
  { intros n. apply moved_eval; auto. intros k. constructor. }
  split.
  - rewrite <- !HX by auto. split; intros [n H]; exists n; specialize (HS n); rewrite H in HS; inversion HS; reflexivity.
  - intros k. rewrite <- !HX by auto. split; intros [n H]; exists n; specialize (HS n); rewrite H in HS; inversion HS; reflexivity.
Qed.
(** A stored formula with [@] is not moved. *)
Theorem C171_at_refuted :
  ~ (forall (W : world) e e' dr dc r, moved W dr dc e e' -> placed W e = true -> no_call W e = true ->
       stored_result W (mkInterp W [] dr dc) e (Ok (CPlain W r)) -> stored_result W (mkInterp W [] 0 0) e' (Ok (CPlain W r))).
Proof.
  intros H.
  specialize (H zworld (EUn UAt (cellref 1 1)) (EUn UAt (cellref 2 1)) 1%Z 0%Z (PScalar (VS (SNum 101%Z)))).
  destruct H as [n H].
  - constructor. constructor. reflexivity.
  - reflexivity.
  - reflexivity.
  - exists 3. reflexivity.
  - unfold store_eval in H. apply (aeval_le zworld n (max n 5) ltac:(lia)) in H.
    assert (HK : aeval zworld 5 (mkInterp zworld [] 0 0) (stored zworld (EUn UAt (cellref 2 1))) = Some (Ok (scal zworld (SNum 201%Z)))) by reflexivity.
    apply (aeval_le zworld 5 (max n 5) ltac:(lia)) in HK. pose proof (eq_trans (eq_sym HK) H) as HQ. discriminate HQ.
Qed.
Example C171_example :
  let e := EFun tLET [nm 120; cellref 1 1; EFun tSUM [EBin (OArith AAdd) (nm 120) (ERef (RCell None 1 2 true false))]] in
  let e' := EFun tLET [nm 120; cellref 4 3; EFun tSUM [EBin (OArith AAdd) (nm 120) (ERef (RCell None 1 4 true false))]] in
  moved zworld 3 2 e e' /\ fits zworld false [] e = true /\
  stored_result zworld (mkInterp zworld [] 3 2) e (Ok (scal zworld (SNum 507%Z))).
Proof.
  cbv zeta. split; [|split; [reflexivity|exists 9; reflexivity]].
  repeat constructor.
Qed.
Print Assumptions C171_moved.
Print Assumptions C171_template.
Print Assumptions C171_at_refuted.

(** ** C172: implicit intersection *)

(** The formula stands in the cell [here] (counted from zero). *)
Theorem C172_reference :
  forall (W : world) s sr sc er ec a1 a2 a3 a4, ~ (sr = er /\ sc = ec) ->
    (forall cell, crosses (Z.min sr er) (Z.min sc ec) (Z.max sr er) (Z.max sc ec) (fst (here W) + 1, snd (here W) + 1)%Z cell ->
      at_reference W (RRange s (Some sr) (Some sc) (Some er) (Some ec) a1 a2 a3 a4) =
      shown W (w_cell W (Some (match s with Some s => s | None => w_sheet W end)) (fst cell) (snd cell))) /\
    ((forall cell, ~ crosses (Z.min sr er) (Z.min sc ec) (Z.max sr er) (Z.max sc ec) (fst (here W) + 1, snd (here W) + 1)%Z cell) ->
      at_reference W (RRange s (Some sr) (Some sc) (Some er) (Some ec) a1 a2 a3 a4) = SErr K_VALUE).
Proof. exact at_rect. Qed.
Theorem C172_range :
  forall (W : world) (r : range (T W)), g_tmp r = false ->
    (forall cell, crosses (g_row r) (g_col r) (g_row r + Z.of_nat (height W (VA (g_cells r))) - 1) (g_col r + Z.of_nat (width W (VA (g_cells r))) - 1) (here W) cell ->
      at_range W r = nth (Z.to_nat (snd cell - g_col r)) (nth (Z.to_nat (fst cell - g_row r)) (g_cells r) []) SEmpty) /\
    ((forall cell, ~ crosses (g_row r) (g_col r) (g_row r + Z.of_nat (height W (VA (g_cells r))) - 1) (g_col r + Z.of_nat (width W (VA (g_cells r))) - 1) (here W) cell) ->
      at_range W r = SErr K_VALUE).
Proof. exact at_view. Qed.
(** At most one cell is meant. *)
Theorem C172_one_cell :
  forall r0 c0 r1 c1 p x y, crosses r0 c0 r1 c1 p x -> crosses r0 c0 r1 c1 p y -> x = y.
Proof.
  intros r0 c0 r1 c1 p [x1 x2] [y1 y2]. unfold crosses. cbn [fst snd]. intros [A1 [A2 [A3 A4]]] [B1 [B2 [B3 B4]]].
  assert (x1 = y1) by (destruct (Z.eq_dec r0 r1); [lia|rewrite A3, B3 by lia; reflexivity]).
  assert (x2 = y2) by (destruct (Z.eq_dec c0 c1); [lia|rewrite A4, B4 by lia; reflexivity]). congruence.
Qed.
(** A temporary array or an array constant gives its first cell, a function an error. *)
Theorem C172_arrays :
  forall (W : world) (s : scalar (T W)) row g r0 c0 c,
    at_calc W (CPlain W (PRange (mkRange true r0 c0 ((s :: row) :: g)))) = s /\
    at_calc W (CPlain W (PScalar (VA ((s :: row) :: g)))) = s /\
    at_calc W (CPlain W (PScalar (VS s))) = s /\ at_calc W (CClo W c) = SErr K_CALC.
Proof. repeat split; reflexivity. Qed.
(** A range of one cell away from the formula's row is refused when it is written as a
    reference. *)
Theorem C172_single_refuted :
  ~ (forall (W : world) s r c a1 a2 a3 a4,
      at_reference W (RRange s (Some r) (Some c) (Some r) (Some c) a1 a2 a3 a4) =
      shown W (w_cell W (Some (match s with Some s => s | None => w_sheet W end)) r c)).
Proof. intros H. specialize (H zworld None 7%Z 7%Z false false false false). discriminate. Qed.
Example C172_example :
  at_reference zworld (RRange None (Some 9%Z) (Some 5%Z) (Some 1%Z) (Some 5%Z) false false false false) = SNum 205%Z /\
  crosses 1 5 9 5 (2, 3)%Z (2, 5)%Z /\
  at_reference zworld (RRange None (Some 5%Z) (Some 5%Z) (Some 9%Z) (Some 5%Z) false false false false) = SErr K_VALUE.
Proof. split; [reflexivity|]. split; [unfold crosses; cbn [fst snd]; repeat split; lia|reflexivity]. Qed.
Print Assumptions C172_reference.
Print Assumptions C172_range.
Print Assumptions C172_one_cell.
Print Assumptions C172_arrays.
Print Assumptions C172_single_refuted.
