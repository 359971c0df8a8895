(** The two evaluators on the formulas where they agree. *)
From Verif Require Import Base Maps LookupModel BcastModel EvModel EvSpec EvProofs1 EvProofs2 EvProofs3.

Section Agree.
  Variable W : world.
  Notation T := (T W).

  Lemma stored_same : forall e, no_call W e = true -> stored W e = e.
  Proof.
    assert (HL : forall l, Forall (fun e => no_call W e = true -> stored W e = e) l -> forallb (no_call W) l = true -> map (stored W) l = l).
    { intros l HF. induction HF as [|x l HX HF IH]; cbn; auto. intros H. apply andb_true_iff in H. destruct H. f_equal; auto. }
    induction e as [v| |r|op a IHa|op a b IHa IHb|name args IH|c args|rows IH] using expr_ind2; cbn [no_call stored]; intros H; auto.
    - f_equal; auto.
    - apply andb_true_iff in H. destruct H. f_equal; auto.
    - f_equal; auto.
    - discriminate.
    - f_equal. induction IH as [|row rows HR HRS IHr]; cbn in *; auto. apply andb_true_iff in H. destruct H. f_equal; auto.
  Qed.

  Lemma ref_agree : forall i r, placed_ref r = true -> ref_arena W i r = ref_tree W i r.
  Proof.
    intros i r HP. unfold ref_arena, ref_tree. destruct (i_env W i) as [|b e] eqn:EE; [|reflexivity].
    assert (HL : forall x, local_ref W i x = None).
    { intros x. unfold local_ref, lookup. rewrite EE. now destruct x. }
    destruct r as [s row col ra ca| | |].
    2-4: destruct (effective W i _) as [x|k0|]; cbn [rbind]; auto; now rewrite HL.
    cbn [placed_ref] in HP. rewrite !andb_true_iff, !Z.leb_le, !Z.ltb_lt in HP.
    destruct (Z.ltb_spec 0 row); [|lia]. destruct (Z.ltb_spec 0 col); [|lia]. reflexivity.
  Qed.

  Definition can_call (fs : list text) (e : env W) : Prop := forall f, In f fs -> exists c, find W f e = Some (BClo W c).
  Definition at_rest (still : bool) (i : interp W) : Prop := still = true -> i_dr W i = 0%Z /\ i_dc W i = 0%Z.

  Lemma existsb_teq : forall k l, existsb (text_eqb k) l = true -> In k l.
  Proof. intros k l H. apply existsb_exists in H. destruct H as [x [HI HE]]. apply teq in HE. now subst. Qed.

  Section Step.
    Variables a t : evaluator W.
    Variable still : bool.
    Hypothesis HB : forall fs i e r, fits W still fs e = true -> can_call fs (i_env W i) -> at_rest still i ->
      a i e = Some r -> t i e = Some r.
    Lemma literals_agree : forall fs i, can_call fs (i_env W i) -> at_rest still i -> forall es r, forallb (fits W still fs) es = true ->
      literals W a i es = Some r -> literals W t i es = Some r.
    Proof.
      intros fs i HC HS. induction es as [|e es IH]; intros r HF; cbn; auto. cbn in HF. apply andb_true_iff in HF. destruct HF as [H1 H2].
      apply obind_mono; [intros v; now apply (HB fs)|]. intros v s. apply obind_mono; auto.
    Qed.
    Lemma rows_agree : forall fs i, can_call fs (i_env W i) -> at_rest still i -> forall es r, forallb (forallb (fits W still fs)) es = true ->
      rows_of W a i es = Some r -> rows_of W t i es = Some r.
    Proof.
      intros fs i HC HS. induction es as [|e es IH]; intros r HF; cbn; auto. cbn in HF. apply andb_true_iff in HF. destruct HF as [H1 H2].
      apply obind_mono; [intros v; now apply (literals_agree fs)|]. intros v s. apply obind_mono; auto.
    Qed.
    Lemma results_agree : forall fs i, can_call fs (i_env W i) -> at_rest still i -> forall es r,
      (forall e, In e es -> fits W still fs e = true) -> results W a i es = Some r -> results W t i es = Some r.
    Proof.
      intros fs i HC HS. induction es as [|e es IH]; intros r HF; cbn; auto.
      destruct (a i e) as [x|] eqn:E; [|discriminate].
      rewrite (HB fs _ _ _ (HF e (or_introl eq_refl)) HC HS E).
      destruct (results W a i es) as [l|]; [|discriminate]. rewrite (IH l); auto. intros e' HI. apply HF. now right.
    Qed.
  End Step.

  Lemma lambda_result : forall n i e c, is_lambda W e = true -> aeval W n i e = Some (Ok c) -> exists d, c = CClo W d.
  Proof.
    intros [|n] i e c HL HE; [discriminate|]. destruct e as [ | | | | |name args| | ]; try discriminate.
    cbn [is_lambda] in HL. cbn [aeval arena_step] in HE. destruct (w_fn W name) as [[| |f]|]; try discriminate.
    cbn [eval_fn] in HE. unfold eval_lambda in HE. destruct (lambda_parts W [] args) as [[ps body]|]; [|discriminate].
    inversion HE. eauto.
  Qed.

  Theorem arena_agrees : forall n still fs i e r, fits W still fs e = true -> can_call fs (i_env W i) -> at_rest still i ->
    aeval W n i e = Some r -> teval W n i e = Some r.
  Proof.
    induction n as [|n IH]; intros still fs i e r HF HC HS; [discriminate|]. cbn [aeval teval].
    assert (HB : forall fs i e r, fits W still fs e = true -> can_call fs (i_env W i) -> at_rest still i ->
      aeval W n i e = Some r -> teval W n i e = Some r) by (intros fs' i' e' r' X1 X2 X3; now apply (IH still fs')).
    destruct e as [v| |x|op x|op x y|name args|c args|rows]; cbn [arena_step tree_step]; auto.
    - cbn [fits] in HF. rewrite (ref_agree i x HF). auto.
    - assert (HG : fits W still fs x = true \/ exists r0, x = ERef r0 /\ op = UAt).
      { destruct op; auto. destruct x; eauto. }
      destruct HG as [HG|[r0 [-> ->]]].
      + assert (HX : forall v, aeval W n i x = Some v -> teval W n i x = Some v) by (intros v; now apply (HB fs)).
        destruct op; try (apply obind_mono; auto; fail).
        destruct x; try (apply obind_mono; auto; fail).
        cbn [fits] in HF. rewrite !andb_true_iff in HF. destruct HF as [[Hst HP] HOK].
        destruct (aeval W n i (ERef r0)) as [v|] eqn:EA; [|discriminate].
        destruct n as [|m]; [discriminate|]. cbn [aeval arena_step] in EA. inversion EA as [HV]. clear EA.
        destruct (HS Hst) as [D1 D2].
        assert (HEF : effective W i r0 = Ok r0) by (unfold effective; now rewrite D1, D2).
        rewrite HEF. cbn [rmap rbind]. 
        assert (HV' : exists c, v = Ok c).
        { rewrite ref_agree in HV by auto. destruct (is_name r0) eqn:EN.
          - destruct r0; try discriminate. rewrite ref_tree_name in HV.
            destruct (find W (norm name) (i_env W i)) as [[u|d]|]; subst; eauto.
            destruct (read_ref W (RName name)); try discriminate. eauto.
          - rewrite (ref_tree_other W i r0 EN) in HV by (now apply fast_placed).
            unfold slow in HV. replace (eff W (off W i) r0) with (effective W i r0) in HV by reflexivity.
            rewrite HEF in HV. cbn [rbind] in HV. destruct (read_ref W r0); try discriminate. eauto. }
        destruct HV' as [c ->]. rewrite HV. cbn [obind]. auto.
      + cbn [fits] in HF. rewrite !andb_true_iff in HF. destruct HF as [[Hst HP] HOK].
        destruct (aeval W n i (ERef r0)) as [v|] eqn:EA; [|discriminate].
        destruct n as [|m]; [discriminate|]. cbn [aeval arena_step] in EA. inversion EA as [HV]. clear EA.
        destruct (HS Hst) as [D1 D2].
        assert (HEF : effective W i r0 = Ok r0) by (unfold effective; now rewrite D1, D2).
        rewrite HEF. cbn [rmap rbind]. 
        assert (HV' : exists c, v = Ok c).
        { rewrite ref_agree in HV by auto. destruct (is_name r0) eqn:EN.
          - destruct r0; try discriminate. rewrite ref_tree_name in HV.
            destruct (find W (norm name) (i_env W i)) as [[u|d]|]; subst; eauto.
            destruct (read_ref W (RName name)); try discriminate. eauto.
          - rewrite (ref_tree_other W i r0 EN) in HV by (now apply fast_placed).
            unfold slow in HV. replace (eff W (off W i) r0) with (effective W i r0) in HV by reflexivity.
            rewrite HEF in HV. cbn [rbind] in HV. destruct (read_ref W r0); try discriminate. eauto. }
        destruct HV' as [c ->]. rewrite HV. cbn [obind]. auto.
    - assert (HX : fits W still fs x = true /\ fits W still fs y = true /\ op <> ORange).
      { destruct op; cbn [fits] in HF; try discriminate; apply andb_true_iff in HF; destruct HF; repeat split; auto; discriminate. }
      destruct HX as [H1 [H2 H3]].
      destruct op; try congruence; apply obind_mono; try (intros v; now apply (HB fs));
        intros v s; (apply obind_mono; [intros v'; now apply (HB fs)|auto]).
    - cbn [fits] in HF. destruct (w_fn W name) as [[| |f]|] eqn:EF; cbn [eval_fn].
      + unfold eval_let. destruct ((length args <? 3) || Nat.even (length args)); auto.
        assert (HGo : forall l fs e r, (fix go (fs : list text) (l : list (expr T)) : bool :=
            match l with
            | [] => true
            | [b] => fits W still fs b
            | x :: a :: rest =>
                match local_name W x with
                | Some n =>
                    let fs' := filter (fun f => negb (text_eqb (norm n) f)) fs in
                    fits W still fs a && go (if is_lambda W a then norm n :: fs' else fs') rest
                | None => true
                end
            end) fs l = true -> can_call fs e ->
            let_go W (aeval W n) i e l = Some r -> let_go W (teval W n) i e l = Some r).
        { induction l as [|b|x a l IHl] using list_ind_two; intros fs0 e r0 H0 HC0; cbn [let_go]; auto.
          - apply (HB fs0); auto.
          - destruct (local_name W x) as [m|] eqn:EN; auto. cbv zeta in H0. apply andb_true_iff in H0. destruct H0 as [HA HR].
            destruct (aeval W n (with_env W i e) a) as [v|] eqn:EA; [|discriminate].
            rewrite (HB fs0 (with_env W i e) a v HA HC0 HS EA).
            destruct v as [c|k|]; cbn [obind]; auto. intros HG. eapply IHl; [exact HR| |exact HG].
            assert (HD : can_call (filter (fun f => negb (text_eqb (norm m) f)) fs0) (bind W m (binding_of W c) e)).
            { intros f HI. apply filter_In in HI. destruct HI as [HI HN]. unfold bind. cbn [find].
              destruct (text_eqb f (norm m)) eqn:ET; [|now apply HC0].
              apply teq in ET. subst. assert (text_eqb (norm m) (norm m) = true) by now apply teq. rewrite H in HN. discriminate. }
            destruct (is_lambda W a) eqn:EL; auto.
            destruct (lambda_result n _ a c EL EA) as [d ->].
            intros f [<-|HI]; [|now apply HD]. unfold bind. cbn [find binding_of].
            assert (HT : text_eqb (norm m) (norm m) = true) by now apply teq. rewrite HT. eauto. }
        apply HGo with (fs := fs); auto.
      + auto.
      + destruct (results W (aeval W n) i args) as [l|] eqn:ER; [|discriminate].
        rewrite (results_agree (aeval W n) (teval W n) still HB fs i HC HS args l); auto.
        intros e HI. rewrite forallb_forall in HF. specialize (HF e HI). cbn beta in HF.
        destruct e; auto. destruct op; auto. 
      + apply andb_true_iff in HF. destruct HF as [HN HF]. apply existsb_teq in HN.
        destruct (HC _ HN) as [c HFc]. unfold local_callable, lookup. rewrite HFc.
        apply obind_mono; [intros v; now apply (literals_agree _ _ still HB fs)|]. auto.
    - discriminate.
    - cbn [fits] in HF. apply obind_mono; [intros v; now apply (rows_agree _ _ still HB fs)|auto].
  Qed.
End Agree.
