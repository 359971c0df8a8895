(** Fuel: more of it changes nothing, and there is always enough. *)
From Verif Require Import Base Maps LookupModel BcastModel EvModel EvSpec EvProofs1 EvProofs2.

Section Fuel.
  Variable W : world.
  Notation T := (T W).
  Definition evaluator := interp W -> expr T -> option (res N (calc W)).
  Definition below (a b : evaluator) : Prop := forall i e r, a i e = Some r -> b i e = Some r.

  (** ** More fuel *)
  Section Mono.
    Variables a b : evaluator.
    Hypothesis HB : below a b.
    Lemma obind_mono : forall A B (x y : option (res N A)) (f g : A -> option (res N B)) r,
      (forall v, x = Some v -> y = Some v) -> (forall v s, f v = Some s -> g v = Some s) ->
      obind x f = Some r -> obind y g = Some r.
    Proof.
      intros A B x y f g r HX HF H. destruct x as [v|]; [|discriminate]. rewrite (HX v eq_refl).
      destruct v; cbn in *; auto.
    Qed.
    Lemma literals_mono : forall i es r, literals W a i es = Some r -> literals W b i es = Some r.
    Proof.
      intros i. induction es as [|e es IH]; intros r; cbn; auto.
      apply obind_mono; [auto|]. intros v s. apply obind_mono; auto.
    Qed.
    Lemma rows_mono : forall i es r, rows_of W a i es = Some r -> rows_of W b i es = Some r.
    Proof.
      intros i. induction es as [|e es IH]; intros r; cbn; auto.
      apply obind_mono; [apply literals_mono|]. intros v s. apply obind_mono; auto.
    Qed.
    Lemma results_mono : forall i es r, results W a i es = Some r -> results W b i es = Some r.
    Proof.
      intros i. induction es as [|e es IH]; intros r; cbn; auto.
      destruct (a i e) as [x|] eqn:E; [|discriminate]. rewrite (HB _ _ _ E).
      destruct (results W a i es) as [l|]; [|discriminate]. now rewrite (IH l eq_refl).
    Qed.
    Lemma let_mono : forall i es e r, let_go W a i e es = Some r -> let_go W b i e es = Some r.
    Proof.
      intros i. induction es as [|x|x v es IH] using list_ind_two; intros e r; cbn; auto.
      destruct (local_name W x) as [n|]; auto. apply obind_mono; auto.
    Qed.
    Lemma invoke_mono : forall i c vs r, invoke W a i c vs = Some r -> invoke W b i c vs = Some r.
    Proof. intros i [ps body e] vs r. cbn. destruct (length vs =? length ps); auto. Qed.
    Lemma fn_mono : forall i f args r, eval_fn W a i f args = Some r -> eval_fn W b i f args = Some r.
    Proof.
      intros i [| |f] args r; cbn; auto.
      - unfold eval_let. destruct ((length args <? 3) || Nat.even (length args)); auto. apply let_mono.
      - destruct (results W a i args) as [l|] eqn:E; [|discriminate]. now rewrite (results_mono _ _ _ E).
    Qed.
    Lemma tree_mono : below (tree_step W a) (tree_step W b).
    Proof.
      intros i e r. destruct e as [v| |x|op x|op x y|name args|c args|rows]; cbn [tree_step]; auto.
      - destruct op; [apply obind_mono; auto..| |apply obind_mono; auto].
        destruct x; try (apply obind_mono; auto); auto.
      - apply obind_mono; [apply HB|]. intros v s. apply obind_mono; [apply HB|]. auto.
      - destruct (w_fn W name) as [f|]; [apply fn_mono|]. destruct (local_callable W i name); auto.
        apply obind_mono; [apply literals_mono|]. intros v s. apply invoke_mono.
      - apply obind_mono; [apply rows_mono|auto].
    Qed.
    Lemma arena_mono : forall ta tb, below ta tb -> below (arena_step W a ta) (arena_step W b tb).
    Proof.
      intros ta tb HT i e r. destruct e as [v| |x|op x|op x y|name args|c args|rows]; cbn [arena_step]; auto.
      - apply obind_mono; auto.
      - assert (HO : forall op, obind (a i x) (fun l => obind (a i y) (fun r =>
             Some (rmap (fun v => CPlain W (PScalar v)) (binary W op (into_literal W l) (into_literal W r))))) = Some r ->
           obind (b i x) (fun l => obind (b i y) (fun r =>
             Some (rmap (fun v => CPlain W (PScalar v)) (binary W op (into_literal W l) (into_literal W r))))) = Some r).
        { intros o. apply obind_mono; [apply HB|]. intros v s. apply obind_mono; [apply HB|]. auto. }
        destruct op; auto.
      - destruct (w_fn W name) as [f|]; [apply fn_mono|]. destruct (local_callable W i name) as [c|]; auto.
        apply obind_mono; [apply literals_mono|]. intros v s. destruct c as [ps body e]. cbn. destruct (length v =? length ps); auto.
      - apply obind_mono; [apply rows_mono|auto].
    Qed.
  End Mono.

  Lemma teval_S : forall n, below (teval W n) (teval W (S n)).
  Proof.
    induction n as [|n IH]; [intros i e r H; discriminate|]. intros i e r. cbn [teval].
    apply (tree_mono (teval W n) (teval W (S n)) IH).
  Qed.
  Lemma aeval_S : forall n, below (aeval W n) (aeval W (S n)).
  Proof.
    induction n as [|n IH]; [intros i e r H; discriminate|]. intros i e r. cbn [aeval].
    apply (arena_mono (aeval W n) (aeval W (S n)) IH (teval W n) (teval W (S n)) (teval_S n)).
  Qed.
  Lemma teval_le : forall n m, n <= m -> below (teval W n) (teval W m).
  Proof. intros n m H. induction H; intros i e r HR; auto. apply teval_S. now apply IHle. Qed.
  Lemma aeval_le : forall n m, n <= m -> below (aeval W n) (aeval W m).
  Proof. intros n m H. induction H; intros i e r HR; auto. apply aeval_S. now apply IHle. Qed.

  (** ** Enough fuel *)
  Inductive G : closure W -> Prop :=
  | g_intro : forall ps body e,
      (forall dr dc vs, length vs = length ps ->
        exists n r, teval W n (mkInterp W (bind_all W ps vs e) dr dc) body = Some r /\ (forall c, r = Ok (CClo W c) -> G c)) ->
      G (Clo W ps body e).
  Definition gres (r : res N (calc W)) : Prop := forall c, r = Ok (CClo W c) -> G c.
  Definition genv (e : env W) : Prop := forall k c, find W k e = Some (BClo W c) -> G c.

  Lemma genv_bind : forall n b e, genv e -> (forall c, b = BClo W c -> G c) -> genv (bind W n b e).
  Proof.
    intros n b e HE HB k c. unfold bind. cbn [find]. destruct (text_eqb k (norm n)); [intros Q; inversion Q; auto|apply HE].
  Qed.
  Lemma genv_bind_all : forall ps vs e, genv e -> genv (bind_all W ps vs e).
  Proof.
    induction ps as [|p ps IH]; intros [|v vs] e HE; cbn; auto. apply IH. apply genv_bind; auto. intros c Q. discriminate.
  Qed.
  Lemma gres_plain : forall p, gres (Ok (CPlain W p)).
  Proof. intros p c Q. discriminate. Qed.
  Lemma gres_err : forall e, gres (Err e).
  Proof. intros p c Q. discriminate. Qed.
  Lemma gres_panic : gres Panic.
  Proof. intros c Q. discriminate. Qed.
  Lemma gres_rmap : forall A (r : res N A) f, gres (rmap (fun v => CPlain W (f v)) r).
  Proof. intros A [a|e|] f; cbn; intros c Q; discriminate. Qed.
  Hint Resolve gres_plain gres_err gres_panic : core.

  Section Halts.
    Variable evs : nat -> evaluator.
    Hypothesis HM : forall n m, n <= m -> below (evs n) (evs m).
    Definition halts (e : expr T) : Prop :=
      forall i, genv (i_env W i) -> exists n r, evs n i e = Some r /\ gres r.

    Lemma literals_halts : forall es, Forall halts es -> forall i, genv (i_env W i) -> exists n r, literals W (evs n) i es = Some r.
    Proof.
      intros es HF i HE. induction HF as [|e es HX HF IH]; [exists 0; cbn; eauto|].
      destruct (HX i HE) as [n1 [r1 [H1 _]]]. destruct IH as [n2 [r2 H2]].
      exists (max n1 n2). cbn. rewrite (HM n1 (max n1 n2) ltac:(lia) _ _ _ H1).
      rewrite (literals_mono (evs n2) (evs (max n1 n2)) (HM n2 (max n1 n2) ltac:(lia)) _ _ _ H2).
      destruct r1, r2; cbn; eauto.
    Qed.
    Lemma rows_halts : forall es, Forall (Forall halts) es -> forall i, genv (i_env W i) -> exists n r, rows_of W (evs n) i es = Some r.
    Proof.
      intros es HF i HE. induction HF as [|e es HX HF IH]; [exists 0; cbn; eauto|].
      destruct (literals_halts e HX i HE) as [n1 [r1 H1]]. destruct IH as [n2 [r2 H2]].
      exists (max n1 n2). cbn. rewrite (literals_mono (evs n1) (evs (max n1 n2)) (HM n1 (max n1 n2) ltac:(lia)) _ _ _ H1).
      rewrite (rows_mono (evs n2) (evs (max n1 n2)) (HM n2 (max n1 n2) ltac:(lia)) _ _ _ H2).
      destruct r1, r2; cbn; eauto.
    Qed.
    Lemma results_halts : forall es, Forall halts es -> forall i, genv (i_env W i) ->
      exists n r, results W (evs n) i es = Some r /\ Forall gres r.
    Proof.
      intros es HF i HE. induction HF as [|e es HX HF IH]; [exists 0; cbn; eauto|].
      destruct (HX i HE) as [n1 [r1 [H1 G1]]]. destruct IH as [n2 [r2 [H2 G2]]].
      exists (max n1 n2). cbn. rewrite (HM n1 (max n1 n2) ltac:(lia) _ _ _ H1).
      rewrite (results_mono (evs n2) (evs (max n1 n2)) (HM n2 (max n1 n2) ltac:(lia)) _ _ _ H2).
      exists (r1 :: r2). auto.
    Qed.
    Lemma let_halts : forall es, Forall halts es -> forall i e, genv e ->
      exists n r, let_go W (evs n) i e es = Some r /\ gres r.
    Proof.
      induction es as [|b|x a es IH] using list_ind_two; intros HF i e HE.
      - exists 0. cbn. eexists. split; [reflexivity|]. apply gres_plain.
      - inversion HF as [|u v HX HL]; subst. destruct (HX (with_env W i e) HE) as [n [r HR]]. exists n, r. exact HR.
      - inversion HF as [|u v HX HL]; subst. inversion HL as [|u v HA HK]; subst.
        destruct (local_name W x) as [m|] eqn:EN.
        + destruct (HA (with_env W i e) HE) as [n1 [r1 [H1 G1]]].
          destruct r1 as [c|k|].
          * destruct (IH HK i (bind W m (binding_of W c) e)) as [n2 [r2 [H2 G2]]].
            { apply genv_bind; auto. intros d Q. destruct c; cbn in Q; [discriminate|]. inversion Q. subst. now apply G1. }
            exists (max n1 n2), r2. split; auto. cbn. rewrite EN, (HM n1 (max n1 n2) ltac:(lia) _ _ _ H1). cbn [obind].
            now apply (let_mono (evs n2) (evs (max n1 n2)) (HM n2 (max n1 n2) ltac:(lia))).
          * exists n1. cbn. rewrite EN, H1. cbn. eauto.
          * exists n1. cbn. rewrite EN, H1. cbn. eauto.
        + exists 0. cbn. rewrite EN. eexists. split; [reflexivity|]. apply gres_plain.
    Qed.
    Lemma parts_in : forall es s ps body, lambda_parts W s es = Some (ps, body) -> In body es.
    Proof.
      induction es as [|x es IH]; intros s ps body; [discriminate|]. destruct es as [|y es].
      - cbn. intros Q. inversion Q. now left.
      - rewrite lambda_parts_cons. destruct (local_name W x) as [n|]; [|discriminate].
        destruct (existsb (text_eqb (norm n)) s); [discriminate|].
        destruct (lambda_parts W (norm n :: s) (y :: es)) as [[q b]|] eqn:E; [|discriminate].
        intros Q. inversion Q. subst. right. eapply IH. exact E.
    Qed.
    Lemma fn_halts : forall f args i, Forall halts args -> genv (i_env W i) ->
      (forall ps body, lambda_parts W [] args = Some (ps, body) -> G (Clo W ps body (i_env W i))) ->
      exists n r, eval_fn W (evs n) i f args = Some r /\ gres r.
    Proof.
      intros f args i HF HE HL. destruct f as [| |f]; cbn [eval_fn].
      - unfold eval_let. destruct ((length args <? 3) || Nat.even (length args)).
        + exists 0. eexists. split; [reflexivity|]. apply gres_plain.
        + apply let_halts; auto.
      - exists 0. eexists. split; [reflexivity|]. unfold eval_lambda.
        destruct (lambda_parts W [] args) as [[ps body]|]; [|apply gres_plain].
        intros c Q. inversion Q. auto.
      - destruct (results_halts args HF i HE) as [n [rs [H1 G1]]]. exists n. rewrite H1. eexists. split; [reflexivity|].
        unfold settle. destruct (f _) as [r|k].
        + destruct r; cbn; intros c Q; discriminate.
        + clear H1. revert k. induction G1 as [|x l HX HL' IH]; intros [|k]; cbn; auto.
    Qed.
  End Halts.

  (** The evaluator of trees. *)
  Lemma tree_halts : forall e, halts (teval W) e.
  Proof.
    assert (HSt : forall n i e, teval W (S n) i e = tree_step W (teval W n) i e) by reflexivity.
    induction e as [v| |r|op a IHa|op a b IHa IHb|name args IH|c args|rows IH] using expr_ind2; intros i HE.
    - exists 1. eexists. split; [reflexivity|]. apply gres_plain.
    - exists 1. eexists. split; [reflexivity|]. apply gres_plain.
    - exists 1. eexists. split; [reflexivity|]. intros c HC.
      destruct (is_name r) eqn:EN.
      + destruct r; try discriminate. rewrite ref_tree_name in HC.
        destruct (find W (norm name) (i_env W i)) as [[v|d]|] eqn:EF; try discriminate.
        * inversion HC. subst. eapply HE. eauto.
        * apply calc_of_read in HC. destruct HC as [p Q]. discriminate.
      + assert (HP : forall d r, match rbind (effective W d r) (read_ref W) with Ok (CClo _ _) => False | _ => True end).
        { intros d r0. destruct (effective W d r0) as [x|k|]; cbn [rbind]; auto.
          destruct (read_ref W x) as [y|k|] eqn:ER; auto. apply calc_of_read in ER. destruct ER as [p ->]. exact I. }
        unfold ref_tree in HC. destruct (i_env W i) as [|b0 e0] eqn:EE.
        * destruct r as [s row col ra ca| | |].
          -- destruct (shift_axis row (i_dr W i) ra); cbn [rbind] in HC; try discriminate.
             destruct (shift_axis col (i_dc W i) ca); cbn [rbind] in HC; try discriminate.
             destruct (w_cell W s a a0); cbn [rbind] in HC; discriminate.
          -- specialize (HP i (RRange sheet sr sc er ec sra sca era eca)). rewrite HC in HP. contradiction.
          -- discriminate.
          -- specialize (HP i (ROther k)). rewrite HC in HP. contradiction.
        * destruct (effective W i r) as [x|k|] eqn:EX; cbn [rbind] in HC; try discriminate.
          assert (HN : is_name x = false) by (eapply (eff_not_name W (i_dr W i, i_dc W i) r); eauto).
          destruct x; cbn [local_ref] in HC; try discriminate;
            apply calc_of_read in HC; destruct HC as [p Q]; discriminate.
    - destruct (IHa i HE) as [n [r [HR HG]]]. exists (S n). rewrite HSt. cbn [tree_step].
      destruct op.
      all: try (rewrite HR; destruct r as [c|k|]; cbn [obind]; eexists; (split; [reflexivity|]); auto; apply gres_rmap).
      destruct a.
      3: { eexists. split; [reflexivity|]. apply (gres_rmap ref (effective W i r0) (fun r => PScalar (VS (at_reference W r)))). }
      all: rewrite HR; destruct r as [c'|k'|]; cbn [obind]; eexists; (split; [reflexivity|]); auto; apply gres_plain.
    - destruct (IHa i HE) as [n1 [r1 [H1 _]]]. destruct (IHb i HE) as [n2 [r2 [H2 _]]].
      exists (S (max n1 n2)). rewrite HSt. cbn [tree_step].
      rewrite (teval_le n1 (max n1 n2) ltac:(lia) _ _ _ H1), (teval_le n2 (max n1 n2) ltac:(lia) _ _ _ H2).
      destruct r1 as [c1|k1|]; cbn [obind]; eauto. destruct r2 as [c2|k2|]; cbn [obind]; eauto.
      destruct op; eexists; (split; [reflexivity|]); try apply gres_rmap.
      destruct (as_reference W i a); cbn [rbind]; auto. destruct (as_reference W i b); cbn [rbind]; auto.
      destruct (w_combine W a0 a1); auto. apply gres_plain.
    - destruct (w_fn W name) as [f|] eqn:EF.
      + destruct (fn_halts (teval W) teval_le f args i IH HE) as [n [r HR]].
        { intros ps body HL. constructor. intros dr dc vs HV.
          apply parts_in in HL. rewrite Forall_forall in IH. destruct (IH body HL (mkInterp W (bind_all W ps vs (i_env W i)) dr dc)) as [n [r [H1 H2]]].
          - cbn [i_env]. now apply genv_bind_all.
          - exists n, r. auto. }
        exists (S n), r. rewrite HSt. cbn [tree_step]. rewrite EF. exact HR.
      + destruct (local_callable W i name) as [c|] eqn:EC.
        * assert (HC : G c).
          { unfold local_callable, lookup in EC. destruct (find W (norm name) (i_env W i)) as [[v|d]|] eqn:EK; try discriminate.
            inversion EC. subst. eapply HE. eauto. }
          destruct (literals_halts (teval W) teval_le args IH i HE) as [n1 [r1 H1]].
          destruct r1 as [vs|k|].
          -- destruct HC as [ps body e HC].
             destruct (length vs =? length ps) eqn:EL.
             ++ destruct (HC (i_dr W i) (i_dc W i) vs) as [n2 [r2 [H2 G2]]]; [now apply Nat.eqb_eq|].
                exists (S (max n1 n2)), r2. split; auto. rewrite HSt. cbn [tree_step]. rewrite EF, EC.
                rewrite (literals_mono (teval W n1) (teval W (max n1 n2)) (teval_le n1 (max n1 n2) ltac:(lia)) _ _ _ H1). cbn [obind invoke].
                rewrite EL. now apply (teval_le n2 (max n1 n2) ltac:(lia)).
             ++ exists (S n1). rewrite HSt. cbn [tree_step]. rewrite EF, EC, H1. cbn [obind invoke]. rewrite EL.
                eexists. split; [reflexivity|]. apply gres_plain.
          -- exists (S n1). rewrite HSt. cbn [tree_step]. rewrite EF, EC, H1. cbn [obind]. eauto.
          -- exists (S n1). rewrite HSt. cbn [tree_step]. rewrite EF, EC, H1. cbn [obind]. eauto.
        * exists 1. rewrite HSt. cbn [tree_step]. rewrite EF, EC. eexists. split; [reflexivity|]. apply gres_plain.
    - exists 1. eexists. split; [reflexivity|]. auto.
    - destruct (rows_halts (teval W) teval_le rows IH i HE) as [n [r HR]]. exists (S n). rewrite HSt. cbn [tree_step].
      rewrite HR. destruct r; cbn [obind]; eexists; (split; [reflexivity|]); auto.
  Qed.

  (** Every function that can be in an environment returns. *)
  Lemma clo_good : forall c, G c.
  Proof.
    fix IHc 1. intros [ps body e].
    assert (HE : genv e).
    { induction e as [|[k b] e IHe]; intros k' c; cbn [find]; [discriminate|].
      destruct (text_eqb k' k).
      - destruct b as [v|d]; intros Q; [discriminate|]. assert (HD : G d) by exact (IHc d). inversion Q. now subst.
      - apply IHe. }
    constructor. intros dr dc vs HV.
    destruct (tree_halts body (mkInterp W (bind_all W ps vs e) dr dc)) as [n [r HR]]; [|exists n, r; exact HR].
    cbn [i_env]. now apply genv_bind_all.
  Qed.
  Lemma env_good : forall e, genv e.
  Proof. intros e k c _. apply clo_good. Qed.

  Theorem teval_total : forall i e, exists n r, forall m, n <= m -> teval W m i e = Some r.
  Proof.
    intros i e. destruct (tree_halts e i (env_good _)) as [n [r [H _]]]. exists n, r.
    intros m HM. now apply (teval_le n m HM).
  Qed.

  Lemma arena_halts : forall e, halts (aeval W) e.
  Proof.
    assert (HSt : forall n i e, aeval W (S n) i e = arena_step W (aeval W n) (teval W n) i e) by reflexivity.
    assert (HG : forall r, gres r) by (intros r c _; apply clo_good).
    induction e as [v| |r|op a IHa|op a b IHa IHb|name args IH|c args|rows IH] using expr_ind2; intros i HE.
    - exists 1. eexists. split; [reflexivity|auto].
    - exists 1. eexists. split; [reflexivity|auto].
    - exists 1. eexists. split; [reflexivity|auto].
    - destruct (IHa i HE) as [n [r [HR _]]]. exists (S n). rewrite HSt. cbn [arena_step]. rewrite HR.
      destruct r as [c|k|]; cbn [obind]; [|eauto..].
      destruct op; try (eexists; split; [reflexivity|auto]). destruct a; eexists; (split; [reflexivity|auto]).
    - destruct (IHa i HE) as [n1 [r1 [H1 _]]]. destruct (IHb i HE) as [n2 [r2 [H2 _]]].
      exists (S (max n1 n2)). rewrite HSt. cbn [arena_step].
      rewrite (aeval_le n1 (max n1 n2) ltac:(lia) _ _ _ H1), (aeval_le n2 (max n1 n2) ltac:(lia) _ _ _ H2).
      destruct op; try (eexists; split; [reflexivity|now auto]).
      all: destruct r1 as [c1|k1|]; cbn [obind]; eauto; destruct r2 as [c2|k2|]; cbn [obind]; eauto.
    - destruct (w_fn W name) as [f|] eqn:EF.
      + destruct (fn_halts (aeval W) aeval_le f args i IH HE) as [n [r HR]]; [intros; apply clo_good|].
        exists (S n), r. rewrite HSt. cbn [arena_step]. rewrite EF. exact HR.
      + destruct (local_callable W i name) as [c|] eqn:EC.
        * destruct (literals_halts (aeval W) aeval_le args IH i HE) as [n1 [r1 H1]].
          destruct r1 as [vs|k|].
          -- destruct c as [ps body e]. 
             destruct (teval_total (with_env W i (bind_all W ps vs e)) body) as [n2 [r2 H2]].
             exists (S (max n1 n2)). rewrite HSt. cbn [arena_step]. rewrite EF, EC.
             rewrite (literals_mono (aeval W n1) (aeval W (max n1 n2)) (aeval_le n1 (max n1 n2) ltac:(lia)) _ _ _ H1). cbn [obind invoke].
             rewrite (H2 (max n1 n2) ltac:(lia)).
             destruct (length vs =? length ps); eexists; (split; [reflexivity|auto]).
          -- exists (S n1). rewrite HSt. cbn [arena_step]. rewrite EF, EC, H1. cbn [obind]. eauto.
          -- exists (S n1). rewrite HSt. cbn [arena_step]. rewrite EF, EC, H1. cbn [obind]. eauto.
        * exists 1. rewrite HSt. cbn [arena_step]. rewrite EF, EC. eexists. split; [reflexivity|auto].
    - exists 1. eexists. split; [reflexivity|]. auto.
    - destruct (rows_halts (aeval W) aeval_le rows IH i HE) as [n [r HR]]. exists (S n). rewrite HSt. cbn [arena_step].
      rewrite HR. destruct r; cbn [obind]; eexists; (split; [reflexivity|auto]).
  Qed.
  Theorem aeval_total : forall i e, exists n r, forall m, n <= m -> aeval W m i e = Some r.
  Proof.
    intros i e. destruct (arena_halts e i (env_good _)) as [n [r [H _]]]. exists n, r.
    intros m HM. now apply (aeval_le n m HM).
  Qed.
End Fuel.
