(** The two uses of lockstep: the same formula in two environments, and a formula
    evaluated with an offset beside the formula moved by it. *)
From Verif Require Import Base Maps LookupModel BcastModel EvModel EvSpec EvProofs1.

Section ExprInd.
  Variable T : Type.
  Variable Q : expr T -> Prop.
  Hypothesis HLit : forall v, Q (ELit v).
  Hypothesis HOmit : Q EOmit.
  Hypothesis HRef : forall r, Q (ERef r).
  Hypothesis HUn : forall op a, Q a -> Q (EUn op a).
  Hypothesis HBin : forall op a b, Q a -> Q b -> Q (EBin op a b).
  Hypothesis HFun : forall name args, Forall Q args -> Q (EFun name args).
  Hypothesis HCall : forall c args, Q (ECall c args).
  Hypothesis HArr : forall rows, Forall (Forall Q) rows -> Q (EArr rows).
  Fixpoint expr_ind2 (e : expr T) : Q e :=
    match e with
    | ELit v => HLit v
    | EOmit => HOmit
    | ERef r => HRef r
    | EUn op a => HUn op a (expr_ind2 a)
    | EBin op a b => HBin op a b (expr_ind2 a) (expr_ind2 b)
    | EFun name args => HFun name args ((fix go l : Forall Q l := match l with [] => Forall_nil Q | x :: l => Forall_cons x (expr_ind2 x) (go l) end) args)
    | ECall c args => HCall c args
    | EArr rows => HArr rows
        ((fix gos ls : Forall (Forall Q) ls := match ls with [] => Forall_nil (Forall Q) | l :: ls => Forall_cons l
            ((fix go l : Forall Q l := match l with [] => Forall_nil Q | x :: l => Forall_cons x (expr_ind2 x) (go l) end) l) (gos ls) end) rows)
    end.
End ExprInd.

Lemma list_ind_two : forall (A : Type) (P : list A -> Prop), P [] -> (forall a, P [a]) ->
  (forall a b l, P l -> P (a :: b :: l)) -> forall l, P l.
Proof.
  intros A P H0 H1 H2. fix IH 1. intros [|a [|b l]]; [exact H0|apply H1|apply H2, IH].
Qed.

Scheme bsim_m := Minimality for bsim Sort Prop with osim_m := Minimality for osim Sort Prop.
Scheme like_m := Minimality for like_b Sort Prop with like_om := Minimality for like_o Sort Prop.
Scheme shift_m := Minimality for shift_b Sort Prop with shift_om := Minimality for shift_o Sort Prop.

Section Uses.
  Variable W : world.
  Notation T := (T W).

  Lemma shift_axis_again : forall x d a y, shift_axis x d a = Ok y -> shift_axis y 0 a = Ok y.
  Proof.
    intros x d a y. unfold shift_axis. destruct a; auto.
    destruct ((x + d <? 1) || (2 ^ 32 <=? x + d))%Z eqn:E; intros Q; inversion Q; subst.
    rewrite Z.add_0_r. now rewrite E.
  Qed.
  Lemma shift_opt_again : forall x d a y, shift_opt x d a = Ok y -> shift_opt y 0 a = Ok y.
  Proof.
    intros [x|] d a y; cbn; [|intros Q; now inversion Q].
    destruct (shift_axis x d a) as [z|e|] eqn:E; cbn [rbind]; intros Q; inversion Q; subst. cbn.
    now rewrite (shift_axis_again _ _ _ _ E).
  Qed.
  Lemma relocate_again : forall r dr dc r', relocate r dr dc = Ok r' -> relocate r' 0 0 = Ok r'.
  Proof.
    intros r dr dc r'. destruct r as [s row col ra ca|s sr sc er ec sra sca era eca|n|k]; cbn [relocate].
    - destruct (shift_axis row dr ra) eqn:E1; cbn [rbind]; try discriminate.
      destruct (shift_axis col dc ca) eqn:E2; cbn [rbind]; try discriminate. intros Q. inversion Q. cbn [relocate].
      now rewrite (shift_axis_again _ _ _ _ E1), (shift_axis_again _ _ _ _ E2).
    - destruct (shift_opt sr dr sra) eqn:E1; cbn [rbind]; try discriminate.
      destruct (shift_opt sc dc sca) eqn:E2; cbn [rbind]; try discriminate.
      destruct (shift_opt er dr era) eqn:E3; cbn [rbind]; try discriminate.
      destruct (shift_opt ec dc eca) eqn:E4; cbn [rbind]; try discriminate. intros Q. inversion Q. cbn [relocate].
      now rewrite (shift_opt_again _ _ _ _ E1), (shift_opt_again _ _ _ _ E2), (shift_opt_again _ _ _ _ E3), (shift_opt_again _ _ _ _ E4).
    - intros Q. inversion Q. reflexivity.
    - discriminate.
  Qed.
  Lemma shift_zero : forall x a y, shift_axis x 0 a = Ok y -> y = x.
  Proof.
    intros x a y. unfold shift_axis. rewrite Z.add_0_r. destruct a; [congruence|].
    destruct ((x <? 1) || (2 ^ 32 <=? x))%Z; congruence.
  Qed.
  Lemma shift_opt_zero : forall x a y, shift_opt x 0 a = Ok y -> y = x.
  Proof.
    intros [x|] a y; cbn; [|congruence]. destruct (shift_axis x 0 a) eqn:E; cbn [rbind]; try discriminate.
    apply shift_zero in E. congruence.
  Qed.
  Lemma relocate_zero : forall r r', relocate r 0 0 = Ok r' -> r' = r.
  Proof.
    intros r r'. destruct r as [s row col ra ca|s sr sc er ec sra sca era eca|n|k]; cbn [relocate].
    - destruct (shift_axis row 0 ra) eqn:E1; cbn [rbind]; try discriminate.
      destruct (shift_axis col 0 ca) eqn:E2; cbn [rbind]; try discriminate.
      apply shift_zero in E1, E2. congruence.
    - destruct (shift_opt sr 0 sra) eqn:E1; cbn [rbind]; try discriminate.
      destruct (shift_opt sc 0 sca) eqn:E2; cbn [rbind]; try discriminate.
      destruct (shift_opt er 0 era) eqn:E3; cbn [rbind]; try discriminate.
      destruct (shift_opt ec 0 eca) eqn:E4; cbn [rbind]; try discriminate.
      apply shift_opt_zero in E1, E2, E3, E4. congruence.
    - congruence.
    - discriminate.
  Qed.
  Lemma eff_relocate : forall d r r', relocate r (fst d) (snd d) = Ok r' -> eff W d r = Ok r'.
  Proof.
    intros [dr dc] r r' H. unfold eff, effective. cbn [i_dr i_dc fst snd] in *.
    destruct ((dr =? 0)%Z && (dc =? 0)%Z) eqn:E; auto.
    apply andb_true_iff in E. destruct E as [E1 E2]. apply Z.eqb_eq in E1, E2. subst.
    apply relocate_zero in H. now subst.
  Qed.
  (** The short path for cells. *)
  Lemma fast_relocated : forall d r r', is_name r = false -> relocate r (fst d) (snd d) = Ok r' ->
    ref_tree W (mkInterp W [] (fst d) (snd d)) r = slow W d r.
  Proof.
    intros d r r' HN H. unfold slow. rewrite (eff_relocate d r r' H). cbn [rbind].
    destruct r as [s row col ra ca| | |]; unfold ref_tree; cbn [i_env i_dr i_dc].
    2-4: pose proof (eff_relocate d _ r' H) as HQ; unfold eff in HQ; rewrite HQ; reflexivity.
    cbn [relocate] in H. destruct (shift_axis row (fst d) ra) as [row'|e|]; cbn [rbind] in *; try discriminate.
    destruct (shift_axis col (snd d) ca) as [col'|e|]; cbn [rbind] in *; try discriminate. inversion H. reflexivity.
  Qed.
  Lemma fast_placed : forall d r, is_name r = false -> placed_ref r = true ->
    ref_tree W (mkInterp W [] (fst d) (snd d)) r = slow W d r.
  Proof.
    intros d r HN HP. unfold slow.
    destruct r as [s row col ra ca| | |]; try reflexivity.
    unfold ref_tree; cbn [i_env i_dr i_dc]. unfold eff, effective; cbn [i_dr i_dc].
    destruct ((fst d =? 0)%Z && (snd d =? 0)%Z) eqn:E; cbn [rbind].
    - apply andb_true_iff in E. destruct E as [E1 E2]. apply Z.eqb_eq in E1, E2. rewrite E1, E2.
      cbn [placed_ref] in HP. rewrite !andb_true_iff, !Z.leb_le, !Z.ltb_lt in HP.
      assert (HS : forall x a, (1 <= x < 2 ^ 32)%Z -> shift_axis x 0 a = Ok x).
      { intros x a Hx. unfold shift_axis. destruct a; auto. rewrite Z.add_0_r.
        destruct (Z.ltb_spec x 1); [lia|]. destruct (Z.leb_spec (2 ^ 32) x); [lia|]. reflexivity. }
      rewrite !HS by lia. reflexivity.
    - cbn [relocate]. destruct (shift_axis row (fst d) ra); cbn [rbind]; auto.
      destruct (shift_axis col (snd d) ca); reflexivity.
  Qed.

  (** ** The same formula in two environments *)
  Section Like.
    Variable d : Z * Z.
    Definition Yl (P : scope) (a b : expr T) : Prop := a = b /\ placed W a = true /\ (forall k, occurs W k a = true -> P k).

    Lemma esim_refl : forall e (P : scope), placed W e = true -> (forall k, occurs W k e = true -> P k) -> esim W d d Yl P e e.
    Proof.
      induction e as [v| |r|op a IHa|op a b IHa IHb|name args IH|c args|rows IH] using expr_ind2; intros P HP HO.
      - constructor.
      - constructor.
      - constructor.
        + destruct (is_name r) eqn:E; [destruct r; try discriminate; constructor|].
          apply rs_other; auto; now apply fast_placed.
        + intros n ->. apply HO. cbn. now apply teq.
      - constructor. apply IHa; auto.
      - cbn in HP. apply andb_true_iff in HP. destruct HP as [HA HB].
        constructor; [apply IHa|apply IHb]; auto; intros k HK; apply HO; cbn; rewrite HK, ?orb_true_r; reflexivity.
      - cbn [placed] in HP.
        assert (HF : forall P : scope, (forall k, existsb (occurs W k) args = true -> P k) -> Forall2 (esim W d d Yl P) args args).
        { clear HO P. intros P HO. clear name. induction IH as [|x l HX HL IHl]; constructor; cbn in HP; apply andb_true_iff in HP; destruct HP as [H1 H2].
          - apply HX; auto. intros k HK. apply HO. cbn. now rewrite HK.
          - apply IHl; auto. intros k HK. apply HO. cbn. now rewrite HK, orb_true_r. }
        destruct (w_fn W name) as [[| |f]|] eqn:EF.
        + eapply es_let; eauto. cbn [occurs] in HO. rewrite EF in HO. clear HF.
          revert P IH HP HO. induction args as [|b|x a l IHl] using list_ind_two; intros P IH HP HO.
          * constructor.
          * inversion IH as [|u v HX HL]; subst. cbn in HP. rewrite andb_true_r in HP. constructor. auto.
          * inversion IH as [|u v HX HL]; subst. inversion HL as [|u v HA HM]; subst.
            cbn in HP. rewrite !andb_true_iff in HP. destruct HP as [HP1 [HP2 HP3]].
            destruct (local_name W x) as [n|] eqn:EN; [|apply ls_bad; auto].
            apply ls_pair with (n := n); auto.
            -- apply HA; auto. intros k HK. apply HO. now rewrite HK.
            -- apply IHl; auto. intros k HK. unfold plus. destruct (text_eqb k (norm n)) eqn:E; [right; now apply teq|].
               left. apply HO. rewrite E. cbn [negb andb]. rewrite HK. now rewrite orb_true_r.
        + eapply es_lambda; eauto. cbn [occurs] in HO. rewrite EF in HO. clear HF.
          revert P IH HP HO. induction args as [|x l IHl]; intros P IH HP HO; [constructor|].
          inversion IH as [|u v HX HL]; subst. cbn in HP. apply andb_true_iff in HP. destruct HP as [HP1 HP2].
          destruct l as [|y l].
          * constructor; auto. split; [reflexivity|]. split; auto.
          * destruct (local_name W x) as [n|] eqn:EN; [|apply ms_bad; auto].
            apply ms_param with (n := n); auto. apply IHl; auto.
            intros k HK. unfold plus. destruct (text_eqb k (norm n)) eqn:E; [right; now apply teq|].
            left. apply HO. rewrite E. exact HK.
        + eapply es_prim; eauto. apply HF. cbn [occurs] in HO. now rewrite EF in HO.
        + eapply es_local; eauto.
          * apply HO. cbn [occurs]. rewrite EF. apply orb_true_iff. left. now apply teq.
          * apply HF. intros k HK. apply HO. cbn [occurs]. rewrite EF, HK. apply orb_true_r.
      - constructor.
      - constructor. cbn [placed] in HP. cbn [occurs] in HO.
        induction IH as [|row rows HR HRS IHr]; constructor; cbn in HP; apply andb_true_iff in HP; destruct HP as [H1 H2].
        + assert (HO' : forall k, existsb (occurs W k) row = true -> P k) by (intros k HK; apply HO; cbn; now rewrite HK).
          clear - HR H1 HO'. induction HR as [|x l HX HL IHl]; constructor; cbn in H1; apply andb_true_iff in H1; destruct H1 as [HA HB].
          * apply HX; auto. intros k HK. apply HO'. cbn. now rewrite HK.
          * apply IHl; auto. intros k HK. apply HO'. cbn. now rewrite HK, orb_true_r.
        + apply IHr; auto. intros k HK. apply HO. cbn. now rewrite HK, orb_true_r.
    Qed.

    Lemma like_bsim : forall a b, like_b W a b -> bsim W d d Yl a b.
    Proof.
      apply (like_m W (bsim W d d Yl) (osim W d d Yl)).
      - constructor.
      - intros ps body e1 e2 HP HE IH.
        apply bs_clo with (P := fun k => occurs W k body = true); auto.
        + apply esim_refl; auto.
        + split; auto.
      - constructor.
      - intros a b _ H. now constructor.
    Qed.
    Lemma like_osim : forall a b, like_o W a b -> osim W d d Yl a b.
    Proof. intros a b [|x y H]; constructor. now apply like_bsim. Qed.
    Lemma bsim_like : forall a b, bsim W d d Yl a b -> like_b W a b.
    Proof.
      apply (bsim_m W d d Yl (like_b W) (like_o W)).
      - constructor.
      - intros P ps b1 b2 e1 e2 HE [-> [HP HO]] HK IH. constructor; auto.
      - constructor.
      - intros a b _ H. now constructor.
    Qed.
    Lemma rrel_like : forall a b, rrel (csim W d d Yl) a b -> like W a b.
    Proof.
      intros a b [|x y HW]; [constructor|]. destruct HW as [c1 c2 HC| |]; try constructor.
      destruct HC; constructor. now apply bsim_like.
    Qed.
  End Like.

  Theorem like_eval : forall n e env1 env2 dr dc, placed W e = true ->
    (forall k, occurs W k e = true -> like_o W (find W k env1) (find W k env2)) ->
    like W (teval W n (mkInterp W env1 dr dc) e) (teval W n (mkInterp W env2 dr dc) e).
  Proof.
    intros n e env1 env2 dr dc HP HE. apply (rrel_like (dr, dc)).
    apply (sim W (dr, dc) (dr, dc) (Yl) n (fun k => occurs W k e = true)); auto.
    - intros k HK. now apply like_osim, HE.
    - now apply esim_refl.
  Qed.

  (** ** A formula with an offset and the moved formula without *)
  Section Move.
    Variables dr dc : Z.
    Definition Ym (P : scope) (a b : expr T) : Prop := moved W dr dc a b /\ (forall k, P k).

    Lemma moved_name : forall a b, moved W dr dc a b -> local_name W a = local_name W b.
    Proof.
      intros a b H. destruct H as [ | |r r' HR| | | | | ]; auto.
      unfold moved_ref in HR. destruct r as [s row col ra ca|s sr sc er ec sra sca era eca|m|k]; cbn [relocate] in HR.
      - destruct (shift_axis row dr ra); cbn [rbind] in HR; try discriminate.
        destruct (shift_axis col dc ca); cbn [rbind] in HR; try discriminate. now inversion HR.
      - destruct (shift_opt sr dr sra); cbn [rbind] in HR; try discriminate.
        destruct (shift_opt sc dc sca); cbn [rbind] in HR; try discriminate.
        destruct (shift_opt er dr era); cbn [rbind] in HR; try discriminate.
        destruct (shift_opt ec dc eca); cbn [rbind] in HR; try discriminate. now inversion HR.
      - now inversion HR.
      - discriminate.
    Qed.
    Lemma moved_is_name : forall r r', relocate r dr dc = Ok r' -> is_name r = is_name r'.
    Proof.
      intros r r' H. pose proof (moved_name (ERef r) (ERef r') (mv_ref W dr dc r r' H)) as HN.
      cbn in HN. destruct r, r'; cbn in *; congruence.
    Qed.
    Lemma rsim_moved : forall r r', relocate r dr dc = Ok r' -> rsim W (dr, dc) (0, 0)%Z r r'.
    Proof.
      intros r r' H. pose proof (moved_is_name r r' H) as HN. pose proof (relocate_again _ _ _ _ H) as HA.
      destruct (is_name r) eqn:E.
      - destruct r; try discriminate. cbn in H. inversion H. constructor.
      - apply rs_other; auto.
        + rewrite (eff_relocate (dr, dc) r r' H). now rewrite (eff_relocate (0, 0)%Z r' r' HA).
        + now apply (fast_relocated (dr, dc) r r').
        + now apply (fast_relocated (0, 0)%Z r' r').
    Qed.

    Lemma esim_moved : forall e e' (P : scope), (forall k, P k) -> moved W dr dc e e' -> esim W (dr, dc) (0, 0)%Z Ym P e e'.
    Proof.
      induction e as [v| |r|op a IHa|op a b IHa IHb|name args IH|c args|rows IH] using expr_ind2; intros e' P HP HM;
        inversion HM as [ | |r0 r' HR Q1 Q2|op0 a0 a' HA Q1 Q2|op0 a0 a' b0 b' HA HB Q1 Q2|nm l l' HL Q1 Q2|c0 l c' l' Q1 Q2|l l' HL Q1 Q2]; subst.
      - constructor.
      - constructor.
      - constructor; auto. now apply rsim_moved.
      - constructor; auto.
      - constructor; auto.
      - assert (HF : Forall2 (esim W (dr, dc) (0, 0)%Z Ym P) args l').
        { clear HM name. revert l' HL. induction IH as [|x l HX HXS IHl]; intros l' HL; inversion HL; subst; constructor; auto. }
        destruct (w_fn W name) as [[| |f]|] eqn:EF.
        + eapply es_let; eauto. clear HF HM EF. revert P HP l' IH HL.
          induction args as [|b|x a l IHl] using list_ind_two; intros P HP l' IH HL.
          * inversion HL; subst. constructor.
          * inversion HL as [|u v w z HU HV]; subst. inversion HV; subst. inversion IH; subst. constructor. auto.
          * inversion HL as [|u v w z HU HV]; subst. inversion HV as [|u2 v2 w2 z2 HU2 HV2]; subst.
            inversion IH as [|u3 v3 HX HXS]; subst. inversion HXS as [|u4 v4 HA HAS]; subst.
            pose proof (moved_name _ _ HU) as HN.
            destruct (local_name W x) as [n|] eqn:EN.
            -- apply ls_pair with (n := n); auto. apply IHl; auto. intros k. left. auto.
            -- apply ls_bad; auto. clear - HV2. induction HV2; cbn; congruence.
        + eapply es_lambda; eauto. clear HF HM EF. revert P HP l' IH HL.
          induction args as [|x l IHl]; intros P HP l' IH HL; inversion HL as [|u v w z HU HV]; subst; [constructor|].
          inversion IH as [|u3 v3 HX HXS]; subst.
          destruct l as [|y l]; inversion HV as [|u2 v2 w2 z2 HU2 HV2]; subst.
          * constructor; auto. split; auto.
          * pose proof (moved_name _ _ HU) as HN. destruct (local_name W x) as [n|] eqn:EN.
            -- apply ms_param with (n := n); auto. apply IHl; auto. intros k. left. auto.
            -- apply ms_bad; auto.
        + eapply es_prim; eauto.
        + eapply es_local; eauto.
      - constructor.
      - constructor. clear HM. revert l' HL. induction IH as [|x l HX HXS IHl]; intros l' HL; inversion HL as [|u v w z HU HV]; subst; constructor; auto.
        clear - HX HU HP. revert v HU. induction HX as [|y l HY HYS IHm]; intros v HU; inversion HU; subst; constructor; auto.
    Qed.

    Lemma shift_bsim : forall a b, shift_b W dr dc a b -> bsim W (dr, dc) (0, 0)%Z Ym a b.
    Proof.
      apply (shift_m W dr dc (bsim W (dr, dc) (0, 0)%Z Ym) (osim W (dr, dc) (0, 0)%Z Ym)).
      - constructor.
      - intros ps b1 b2 e1 e2 HM HE IH. apply bs_clo with (P := fun _ => True); auto.
        + now apply esim_moved.
        + split; auto.
      - constructor.
      - intros a b _ H. now constructor.
    Qed.
    Lemma bsim_shift : forall a b, bsim W (dr, dc) (0, 0)%Z Ym a b -> shift_b W dr dc a b.
    Proof.
      apply (bsim_m W (dr, dc) (0, 0)%Z Ym (shift_b W dr dc) (shift_o W dr dc)).
      - constructor.
      - intros P ps b1 b2 e1 e2 HE [HM HP] HK IH. constructor; auto.
      - constructor.
      - intros a b _ H. now constructor.
    Qed.
  End Move.

  Theorem moved_eval : forall n e e' env1 env2 dr dc, moved W dr dc e e' ->
    (forall k, shift_o W dr dc (find W k env1) (find W k env2)) ->
    shifted W dr dc (teval W n (mkInterp W env1 dr dc) e) (teval W n (mkInterp W env2 0 0) e').
  Proof.
    intros n e e' env1 env2 dr dc HM HE.
    assert (HR : rrel (csim W (dr, dc) (0, 0)%Z (Ym dr dc)) (teval W n (mkInterp W env1 dr dc) e) (teval W n (mkInterp W env2 0 0) e')).
    { apply (sim W (dr, dc) (0, 0)%Z (Ym dr dc) n (fun _ => True)); auto.
      - intros k _. specialize (HE k). cbn [i_env]. destruct HE; constructor. now apply shift_bsim.
      - now apply esim_moved. }
    destruct HR as [|x y HW]; [constructor|]. destruct HW as [c1 c2 HC| |]; try constructor.
    destruct HC; constructor. now apply bsim_shift.
  Qed.
End Uses.
