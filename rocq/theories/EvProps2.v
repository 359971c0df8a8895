(** More about operators, LET and LAMBDA (C166, C168). *)
From Verif Require Import Base Maps LookupModel LookupSpec LookupProofs BcastModel EvModel EvSpec EvProofs1 EvProofs2 EvProofs3 EvProofs4 EvProofs5 EvProofs6.

(** ** Unary operators and array literals *)

Theorem C166_unary_cells :
  forall (W : world) op (g : grid (T W)), op = UPlus \/ op = UNeg \/ op = UPct ->
    exists h, unary W op (VA g) = Ok (VA h) /\
      Forall2 (Forall2 (fun s t => unary W op (VS s) = Ok (VS t))) g h.
Proof.
  intros W op g HO. eexists. split; [reflexivity|]. unfold map_array.
  induction g as [|row g IH]; constructor; auto. induction row as [|s row IHr]; constructor; auto.
  destruct HO as [->|[->| ->]]; reflexivity.
Qed.
Theorem C166_array_literal :
  forall (W : world) i w (g : grid (T W)), 1 <= w -> (forall row, In row g -> length row = w) ->
    tree_result W i (EArr (map (map (fun s => ELit (VS s))) g)) (Ok (CPlain W (PRange (mkRange true 0 0 (map (map (w_keep W)) g))))).
Proof.
  intros W i w g HW HG. exists 2. change (tree_step W (teval W 1) i (EArr (map (map (fun s => ELit (VS s))) g)) = 
    Some (Ok (CPlain W (PRange (mkRange true 0 0 (map (map (w_keep W)) g)))))). cbn [tree_step].
  assert (HL : forall row, literals W (teval W 1) i (map (fun s => ELit (VS s)) row) = Some (Ok (map VS row))).
  { induction row as [|s row IH]; [reflexivity|]. cbn [map literals]. rewrite IH. reflexivity. }
  assert (HR : rows_of W (teval W 1) i (map (map (fun s => ELit (VS s))) g) = Some (Ok (map (map VS) g))).
  { clear HG. induction g as [|row g IH]; [reflexivity|]. cbn [map rows_of]. rewrite HL. cbn [obind]. rewrite IH. reflexivity. }
  rewrite HR. cbn [obind]. do 4 f_equal. unfold owned.
  destruct g as [|row0 g0]; [reflexivity|].
  assert (HM : fold_right Nat.max 0 (map (@length (value (T W))) (map (map VS) (row0 :: g0))) = w).
  { clear HR. revert row0 HG. induction g0 as [|r1 g1 IH]; intros row0 HG; cbn [map fold_right]; rewrite map_length, (HG row0 (or_introl eq_refl)).
    - lia.
    - specialize (IH r1 (fun r Hr => HG r (or_intror Hr))). cbn [map fold_right] in IH. rewrite IH. lia. }
  rewrite HM. replace (w =? 0) with false by lia. f_equal. rewrite map_map. apply map_ext_in. intros row Hrow.
  rewrite map_length, (HG row Hrow), Nat.sub_diag, app_nil_r, map_map. reflexivity.
Qed.
Example C166_more_example :
  unary zworld UNeg (VA [[SNum 1%Z; SErr K_REF]; [SText [120]%N; SBool true]]) = Ok (VA [[SNum (-1)%Z; SErr K_REF]; [SErr K_VALUE; SNum (-1)%Z]]) /\
  tree_result zworld z0 (EArr [[num 1; num 2]; [num 3; num 4]]) (Ok (CPlain zworld (PRange (mkRange true 0 0 [[SNum 1; SNum 2]; [SNum 3; SNum 4]]%Z)))).
Proof. split; [reflexivity|]. exists 2. reflexivity. Qed.
Print Assumptions C166_unary_cells.
Print Assumptions C166_array_literal.

(** ** LET with several names is LET inside LET *)

Lemma let_go_with : forall W ev i e' args e, let_go W ev (with_env W i e') e args = let_go W ev i e args.
Proof.
  intros W ev i e' args. induction args as [|x|x a rest IH] using list_ind_two; intros e; try reflexivity.
  cbn [let_go]. destruct rest as [|y rest].
  - destruct (local_name W x); reflexivity.
  - destruct (local_name W x); [|reflexivity]. change (with_env W (with_env W i e') e) with (with_env W i e).
    destruct (ev (with_env W i e) a) as [[c| |]|]; cbn [obind]; try reflexivity. apply IH.
Qed.
Theorem C168_nested :
  forall (W : world) i lt x a rest r, w_fn W lt = Some FLet -> 3 <= length rest -> Nat.odd (length rest) = true ->
    (tree_result W i (EFun lt (name_ref W x :: a :: rest)) r <-> tree_result W i (EFun lt [name_ref W x; a; EFun lt rest]) r).
Proof.
  intros W i lt x a rest r HL H3 HO.
  assert (HE : Nat.even (length rest) = false) by now rewrite <- Nat.negb_odd, HO.
  assert (HB : forall n c, teval W (S n) (with_env W i (bind W x (binding_of W c) (i_env W i))) (EFun lt rest) =
                           let_go W (teval W n) i (bind W x (binding_of W c) (i_env W i)) rest).
  { intros n c. cbn [teval tree_step]. rewrite HL. cbn [eval_fn]. unfold eval_let. rewrite HE.
    replace (length rest <? 3) with false by lia. cbn [orb]. rewrite let_go_with. reflexivity. }
  assert (HA : forall n, teval W (S n) i (EFun lt (name_ref W x :: a :: rest)) =
             obind (teval W n i a) (fun c => let_go W (teval W n) i (bind W x (binding_of W c) (i_env W i)) rest)).
  { intros n. cbn [teval tree_step]. rewrite HL. cbn [eval_fn]. unfold eval_let. cbn [length].
    replace (S (S (length rest)) <? 3) with false by lia. cbn [Nat.even orb]. rewrite HE.
    destruct rest as [|y rest]; [cbn in H3; lia|]. cbn [let_go local_name name_ref].
    destruct i as [e dr dc]; reflexivity. }
  split; intros [n H].
  - exists (S (S n)). rewrite let_step by auto.
    apply (teval_le W n (S n) ltac:(lia)) in H. rewrite HA in H.
    destruct (teval W n i a) as [[c|e|]|] eqn:E; cbn [obind] in H; [| | |discriminate];
      rewrite (teval_le W n (S n) ltac:(lia) _ _ _ E); cbn [obind]; auto. now rewrite HB.
  - apply (teval_le W n (S (S n)) ltac:(lia)) in H. rewrite let_step in H by auto. exists (S (S n)). rewrite HA.
    destruct (teval W (S n) i a) as [[c|e|]|] eqn:E; cbn [obind] in *; auto.
    rewrite <- HB. now apply (teval_le W (S n) (S (S n)) ltac:(lia)).
Qed.
(** An error of evaluation ends it; otherwise the value is bound and the rest evaluated. *)
Theorem C168_let :
  forall (W : world) i lt x a b ra r, w_fn W lt = Some FLet -> tree_result W i a ra ->
    (forall e, ra = Err e -> tree_result W i (EFun lt [name_ref W x; a; b]) (Err e)) /\
    (forall c, ra = Ok c -> (tree_result W i (EFun lt [name_ref W x; a; b]) r <->
       tree_result W (with_env W i (bind W x (binding_of W c) (i_env W i))) b r)).
Proof.
  intros W i lt x a b ra r HL HA. split.
  - intros e ->. destruct HA as [n HA]. exists (S n). rewrite let_step by auto. now rewrite HA.
  - intros c ->. now apply let_result.
Qed.
Theorem C168_let_refused :
  forall (W : world) i lt args, w_fn W lt = Some FLet ->
    (length args < 3 \/ Nat.even (length args) = true -> tree_result W i (EFun lt args) (Ok (serr W K_VALUE))) /\
    (forall x a b, (forall n, x <> name_ref W n) -> args = [x; a; b] -> tree_result W i (EFun lt args) (Ok (serr W K_VALUE))).
Proof.
  intros W i lt args HL. split.
  - intros H. exists 1. cbn [teval tree_step]. rewrite HL. cbn [eval_fn]. unfold eval_let.
    destruct H as [H|H]; [replace (length args <? 3) with true by lia; reflexivity|]. rewrite H, orb_true_r. reflexivity.
  - intros x a b HX ->. exists 1. cbn [teval tree_step]. rewrite HL. cbn [eval_fn]. unfold eval_let. cbn [length Nat.even orb Nat.ltb Nat.leb let_go].
    destruct (local_name W x) as [n|] eqn:E; [|reflexivity]. exfalso. apply (HX n).
    unfold local_name, name_ref in *. destruct x as [ | |[]| | | | | ]; try discriminate. now inversion E.
Qed.
Print Assumptions C168_nested.
Print Assumptions C168_let.
Print Assumptions C168_let_refused.

(** ** LAMBDA and calls *)

Lemma lambda_good : forall (W : world) ps seen body, NoDup (map norm ps) -> (forall p, In p ps -> ~ In (norm p) seen) ->
  lambda_parts W seen (map (name_ref W) ps ++ [body]) = Some (ps, body).
Proof.
  intros W ps. induction ps as [|p ps IH]; intros seen body HN HS; [reflexivity|].
  assert (HC : lambda_parts W seen (map (name_ref W) (p :: ps) ++ [body]) =
    if existsb (text_eqb (norm p)) seen then None
    else match lambda_parts W (norm p :: seen) (map (name_ref W) ps ++ [body]) with Some (qs, b) => Some (p :: qs, b) | None => None end).
  { destruct ps; reflexivity. }
  rewrite HC. inversion HN; subst.
  destruct (existsb (text_eqb (norm p)) seen) eqn:E.
  - exfalso. apply existsb_exists in E. destruct E as [q [Hq Eq]]. apply teq in Eq. subst. now apply (HS p (or_introl eq_refl)).
  - rewrite IH; auto. intros q Hq [Hs|Hs]; [|apply (HS q (or_intror Hq) Hs)]. apply H1. rewrite Hs. now apply in_map.
Qed.
Lemma lambda_bad : forall (W : world) ps seen body, ~ (NoDup (map norm ps) /\ (forall p, In p ps -> ~ In (norm p) seen)) ->
  lambda_parts W seen (map (name_ref W) ps ++ [body]) = None.
Proof.
  intros W ps. induction ps as [|p ps IH]; intros seen body HN.
  - exfalso. apply HN. split; [constructor|intros p []].
  - assert (HC : lambda_parts W seen (map (name_ref W) (p :: ps) ++ [body]) =
      if existsb (text_eqb (norm p)) seen then None
      else match lambda_parts W (norm p :: seen) (map (name_ref W) ps ++ [body]) with Some (qs, b) => Some (p :: qs, b) | None => None end).
    { destruct ps; reflexivity. }
    rewrite HC. destruct (existsb (text_eqb (norm p)) seen) eqn:E; [reflexivity|].
    rewrite IH; [reflexivity|]. intros [H1 H2]. apply HN. split.
    + cbn. constructor; auto. intros HI. apply in_map_iff in HI. destruct HI as [q [Hq HI]]. apply (H2 q HI). now left.
    + intros q [<-|Hq] Hs.
      * assert (existsb (text_eqb (norm p)) seen = true); [|congruence]. apply existsb_exists. exists (norm p). split; auto. now apply teq.
      * apply (H2 q Hq). now right.
Qed.
(** LAMBDA makes a function of its parameters, which must be different names. *)
Theorem C168_lambda :
  forall (W : world) i lm ps body, w_fn W lm = Some FLambda ->
    (NoDup (map norm ps) -> tree_result W i (EFun lm (map (name_ref W) ps ++ [body])) (Ok (CClo W (Clo W ps body (i_env W i))))) /\
    (~ NoDup (map norm ps) -> tree_result W i (EFun lm (map (name_ref W) ps ++ [body])) (Ok (serr W K_VALUE))).
Proof.
  intros W i lm ps body HM. split; intros HN; exists 1; cbn [teval tree_step]; rewrite HM; cbn [eval_fn]; unfold eval_lambda.
  - rewrite lambda_good; auto.
  - rewrite lambda_bad; auto. now intros [H _].
Qed.
(** Calling a function evaluates its body with the parameters bound where it was made. *)
Theorem C168_call :
  forall (W : world) i f args vs ps body env0, w_fn W f = None ->
    find W (norm f) (i_env W i) = Some (BClo W (Clo W ps body env0)) ->
    Forall2 (fun a v => exists c, tree_result W i a (Ok c) /\ into_literal W c = v) args vs ->
    (length args = length ps -> forall r,
       (tree_result W i (EFun f args) r <->
        tree_result W (with_env W i (fold_left (fun e pv => bind W (fst pv) (BVal W (snd pv)) e) (combine ps vs) env0)) body r)) /\
    (length args <> length ps -> tree_result W i (EFun f args) (Ok (serr W K_VALUE))).
Proof.
  intros W i f args vs ps body env0 HF HC HV.
  assert (HL : exists n0, forall m, n0 <= m -> literals W (teval W m) i args = Some (Ok vs)).
  { clear HC HF. induction HV as [|a v args vs [c [HA Hc]] HV [n1 IH]].
    - exists 0. reflexivity.
    - destruct (result_at W i a _ HA) as [n0 H0]. exists (max n0 n1). intros m Hm. cbn [literals].
      rewrite (H0 m ltac:(lia)). cbn [obind]. rewrite (IH m ltac:(lia)). cbn [obind]. now rewrite Hc. }
  destruct HL as [n0 HL]. assert (HN : length args = length vs) by (clear - HV; induction HV; cbn; auto).
  assert (HB : forall e, bind_all W ps vs e = fold_left (fun e pv => bind W (fst pv) (BVal W (snd pv)) e) (combine ps vs) e).
  { clear. revert vs. induction ps as [|p ps IH]; intros vs e; [reflexivity|]. destruct vs as [|v vs]; [reflexivity|]. cbn. apply IH. }
  assert (HS : forall m, n0 <= m -> teval W (S m) i (EFun f args) =
            if length vs =? length ps then teval W m (with_env W i (bind_all W ps vs env0)) body else Some (Ok (serr W K_VALUE))).
  { intros m Hm. cbn [teval tree_step]. rewrite HF. unfold local_callable, lookup. rewrite HC. rewrite (HL m Hm). reflexivity. }
  split.
  - intros HE r. rewrite <- HB. split; intros [n H].
    + apply (teval_le W n (S (max n n0)) ltac:(lia)) in H. rewrite HS in H by lia. replace (length vs =? length ps) with true in H by lia. now exists (max n n0).
    + exists (S (max n n0)). rewrite HS by lia. replace (length vs =? length ps) with true by lia. now apply (teval_le W n (max n n0) ltac:(lia)).
  - intros HE. exists (S n0). rewrite HS by lia. now replace (length vs =? length ps) with false by lia.
Qed.
(** LET(f,LAMBDA(x,y,x-y),f(7,2)), and the same with one argument or a repeated name. *)
Example C168_more_example :
  let fn ps := EFun tLAMBDA (map (name_ref zworld) ps ++ [EBin (OArith ASub) (nm 120) (nm 121)]) in
  let f args ps := EFun tLET [nm 102; fn ps; EFun [102]%N args] in
  tree_result zworld z0 (f [num 7; num 2] [[120]; [121]]%N) (Ok (scal zworld (SNum 5%Z))) /\
  tree_result zworld z0 (f [num 7] [[120]; [121]]%N) (Ok (serr zworld K_VALUE)) /\
  tree_result zworld z0 (fn [[120]; [88]]%N) (Ok (serr zworld K_VALUE)) /\
  tree_result zworld z0 (EFun tLET [nm 120; num 1; nm 121; EBin (OArith AAdd) (nm 120) (num 1); EBin (OArith AMul) (nm 121) (nm 121)])
    (Ok (scal zworld (SNum 4%Z))).
Proof. cbv zeta. repeat split; exists 9; reflexivity. Qed.
Print Assumptions C168_lambda.
Print Assumptions C168_call.
