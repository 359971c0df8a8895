(** Transactions refine the textbook. *)
From Verif Require Import Base ListSort UndoModel UndoProofs UndoProofs5 TxModel TxSpec.
From Coq Require Import ZifyN ZifyNat ZifyBool.

Definition inv_c (e : event) (K : sheet) : sheet :=
  match e with ESetValue c _ of _ | ESetFormula c _ of _ => upd K c of | _ => K end.
Definition ok_event (k : cfg) (e : event) : Prop :=
  match e with
  | ESetValue c ov of _ | ESetFormula c ov of _ => ov = None /\ forall f, of = Some f -> okref k c f
  | _ => True
  end.

Lemma accepts_okref : forall k c f, accepts k c f = true <-> okref k c f.
Proof.
  intros k c f. unfold accepts, okref. rewrite orb_true_iff, negb_true_iff. split; intros [A|A]; auto; right.
  - intros I. apply not_true_iff_false in A. apply A. apply existsb_exists. exists c. split; auto. apply N.eqb_refl.
  - apply not_true_iff_false. intros Q. apply existsb_exists in Q. destruct Q as (d & I & E). apply N.eqb_eq in E. now subst.
Qed.

Lemma upd_ext : forall A (K K' : N -> A) c x, eqf K K' -> eqf (upd K c x) (upd K' c x).
Proof. intros A K K' c x E d. unfold upd. destruct (N.eqb d c); auto. Qed.
Lemma inv_c_ext : forall e K K', eqf K K' -> eqf (inv_c e K) (inv_c e K').
Proof. intros e K K' E. destruct e; cbn; auto; now apply upd_ext. Qed.
Lemma inv_cs_ext : forall es K K', eqf K K' -> eqf (fold_right inv_c K es) (fold_right inv_c K' es).
Proof. induction es as [|e es IH]; intros K K' E; cbn; auto. apply inv_c_ext; auto. Qed.

Lemma inv_graph_c : forall k e g, wfg g -> ok_event k e -> wfg (inv_graph k e g) /\ eqf (form (inv_graph k e g)) (inv_c e (form g)).
Proof.
  intros k e g W O. destruct e as [c ov of v|c ov of f|c o n| | ]; cbn in *; try (split; [auto|apply eqf_refl]).
  - destruct O as [-> O]. destruct of as [f|]; [destruct (g_set_formula_ok k c f g W (O f eq_refl)) as (A & _ & B)|destruct (g_remove_ok c g W) as [A B]]; split; auto.
  - destruct O as [-> O]. destruct of as [f0|]; [destruct (g_set_formula_ok k c f0 g W (O f0 eq_refl)) as (A & _ & B)|destruct (g_remove_ok c g W) as [A B]]; split; auto.
Qed.
Lemma rollback_c : forall k es g, wfg g -> (forall e, In e es -> ok_event k e) ->
  wfg (apply_rollback k es g) /\ eqf (form (apply_rollback k es g)) (fold_right inv_c (form g) es).
Proof.
  intros k es g W. unfold apply_rollback. induction es as [|e es IH]; intros O; cbn; [split; [auto|apply eqf_refl]|].
  destruct IH as [A B]; [intros; apply O; now right|]. destruct (inv_graph_c k e _ A (O e (or_introl eq_refl))) as [C D]. split; auto.
  eapply eqf_trans; [exact D|]. now apply inv_c_ext.
Qed.

(** The contents at log position [i]. *)
Definition at_ (s : tx) (i : nat) (K : sheet) : Prop :=
  i <= length (tlog s) /\ eqf (fold_right inv_c (form (tg s)) (skipn i (tlog s))) K.

Fixpoint rel (s : tx) (cl : list (N * nat)) (tb : list (N * sheet)) : Prop :=
  match tb with
  | [] => cl = []
  | (n, K) :: tb' =>
      (~ In n (map fst cl) /\ rel s cl tb') \/
      (exists i cl', cl = (n, i) :: cl' /\ at_ s i K /\ ~ In n (map fst cl') /\ rel s cl' tb')
  end.
(** Newest first, positions do not increase. *)
Fixpoint mono (b : nat) (cl : list (N * nat)) : Prop :=
  match cl with [] => True | (_, i) :: cl' => i <= b /\ mono i cl' end.

Definition RT (k : cfg) (s : tx) (t : ledger) : Prop :=
  wfg (tg s) /\ (forall e, In e (tlog s) -> ok_event k e) /\ (forall c f, form (tg s) c = Some f -> okref k c f) /\
  eqf (form (tg s)) (cur t) /\
  match active s, opened_at t with
  | None, None => True
  | Some (i, sps), Some (K, tb) => at_ s i K /\ rel s (rev sps) tb /\ mono (length (tlog s)) (rev sps) /\ (forall p, In p sps -> i <= snd p)
  | _, _ => False
  end.

Lemma rel_at : forall s s' cl tb, (forall i K, at_ s i K -> In i (map snd cl) -> at_ s' i K) -> rel s cl tb -> rel s' cl tb.
Proof.
  intros s s' cl tb H. revert cl H. induction tb as [|[n K] tb IH]; intros cl H; cbn; auto.
  intros [[A B]|(i & cl' & -> & A & B & C)]; [left; auto|right].
  exists i, cl'. split; auto. split; [apply H; [auto|now left]|]. split; auto. apply IH; auto. intros. apply H; auto. now right.
Qed.
Lemma mono_le : forall cl b b', b <= b' -> mono b cl -> mono b' cl.
Proof. destruct cl as [|[n i] cl]; cbn; auto. intros b b' L [A B]. split; auto. lia. Qed.
Lemma mono_in : forall cl b p, mono b cl -> In p cl -> snd p <= b.
Proof.
  induction cl as [|[n i] cl IH]; cbn; [contradiction|]. intros b p [A B] [<-|I]; auto. specialize (IH i p B I). lia.
Qed.
Lemma mono_filter : forall f cl b, mono b cl -> mono b (filter f cl).
Proof.
  induction cl as [|[n i] cl IH]; cbn; auto. intros b [A B]. destruct (f (n, i)); cbn; auto.
  eapply mono_le; [exact A|]. auto.
Qed.
Lemma rel_drop : forall s f tb cl, rel s cl tb -> rel s (filter f cl) tb.
Proof.
  intros s f. assert (Nin : forall n cl, ~ In n (map fst cl) -> ~ In n (map fst (filter f cl))).
  { intros n cl H I. apply H. apply in_map_iff in I. destruct I as (p & <- & I). apply filter_In in I. apply in_map. tauto. }
  induction tb as [|[n K] tb IH]; intros cl; cbn; [intros ->; reflexivity|].
  intros [[A B]|(i & cl' & -> & A & B & C)]; [left; auto|]. cbn. destruct (f (n, i)); [right|left; auto].
  exists i, (filter f cl'). repeat (split; auto).
Qed.

(** An edit appends an event whose inverse gives the contents back. *)
Lemma at_push : forall s s' e, tlog s' = tlog s ++ [e] -> eqf (inv_c e (form (tg s'))) (form (tg s)) ->
  forall i K, at_ s i K -> at_ s' i K.
Proof.
  intros s s' e L E i K [A B]. split; [rewrite L, app_length; lia|]. rewrite L, skipn_app.
  replace (i - length (tlog s)) with 0 by lia. cbn [skipn]. rewrite fold_right_app. cbn.
  eapply eqf_trans; [|exact B]. now apply inv_cs_ext.
Qed.
Lemma at_same : forall s s', tlog s' = tlog s -> eqf (form (tg s')) (form (tg s)) -> forall i K, at_ s i K -> at_ s' i K.
Proof.
  intros s s' L E i K [A B]. split; rewrite L; auto. eapply eqf_trans; [|exact B]. now apply inv_cs_ext.
Qed.
Lemma at_back : forall s s' j, j <= length (tlog s) -> tlog s' = firstn j (tlog s) ->
  eqf (form (tg s')) (fold_right inv_c (form (tg s)) (skipn j (tlog s))) ->
  forall i K, i <= j -> at_ s i K -> at_ s' i K.
Proof.
  intros s s' j J L E i K I [A B]. split; [rewrite L, firstn_length; lia|].
  eapply eqf_trans; [|exact B]. rewrite L. rewrite <- (firstn_skipn j (tlog s)) at 2. rewrite skipn_app.
  rewrite firstn_length. replace (i - min j (length (tlog s))) with 0 by lia. cbn [skipn].
  rewrite fold_right_app. now apply inv_cs_ext.
Qed.

Lemma RT_lift : forall k s s' t K', RT k s t -> active s' = active s -> wfg (tg s') -> (forall e, In e (tlog s') -> ok_event k e) ->
  (forall c f, form (tg s') c = Some f -> okref k c f) -> eqf (form (tg s')) K' ->
  (forall i K, at_ s i K -> at_ s' i K) -> length (tlog s) <= length (tlog s') ->
  RT k s' {| cur := K'; opened_at := opened_at t |}.
Proof.
  intros k s s' t K' (W & O & F & E & A) Ac W' O' F' E' At L. unfold RT. cbn [cur opened_at]. rewrite Ac. do 4 (split; [assumption|]).
  destruct (active s) as [[i sps]|], (opened_at t) as [[K tb]|]; auto. destruct A as (A1 & A2 & A3 & A4).
  split; [auto|]. split; [eapply rel_at; [|exact A2]; auto|]. split; auto. eapply mono_le; eauto.
Qed.

Lemma back_spec : forall s tb cl n j b, rel s cl tb -> mono b cl -> find (fun p => N.eqb (fst p) n) (rev cl) = Some (n, j) ->
  exists K tb', back_to n tb = Some (K, tb') /\ at_ s j K /\ rel s (filter (fun p => Nat.ltb (snd p) j) cl) tb'.
Proof.
  induction tb as [|[m K] tb IH]; intros cl n j b R M Fd; cbn in R.
  - subst cl. discriminate.
  - destruct R as [[A B]|(i & cl' & -> & A & B & C)].
    + cbn. destruct (N.eqb_spec m n) as [->|Nm].
      * exfalso. apply find_some in Fd. destruct Fd as [Fd _]. apply in_rev in Fd. apply A. now apply (in_map fst) in Fd.
      * eapply IH; eauto.
    + cbn [back_to]. cbn [rev] in Fd. cbn in M. destruct M as [M1 M2]. destruct (N.eqb_spec m n) as [->|Nm].
      * assert (J : j = i).
        { destruct (find (fun p => N.eqb (fst p) n) (rev cl')) as [[n' i']|] eqn:Q.
          - exfalso. apply find_some in Q. destruct Q as [Q Q']. cbn in Q'. apply N.eqb_eq in Q'. subst. apply in_rev in Q. apply B. now apply (in_map fst) in Q.
          - clear - Fd Q. induction (rev cl') as [|[x y] l IHl]; cbn in *.
            + rewrite N.eqb_refl in Fd. congruence.
            + destruct (N.eqb x n); [congruence|auto]. }
        subst j. exists K, ((n, K) :: tb). split; auto. split; auto. cbn [filter snd rel]. rewrite Nat.ltb_irrefl. left. split.
        -- intros I. apply in_map_iff in I. destruct I as (p & E & I). apply filter_In in I. destruct I as [I _]. apply B. rewrite <- E. now apply in_map.
        -- now apply rel_drop.
      * assert (Fd' : find (fun p => N.eqb (fst p) n) (rev cl') = Some (n, j)).
        { clear - Fd Nm. induction (rev cl') as [|[x y] l IHl]; cbn in *.
          - destruct (N.eqb_spec m n); congruence.
          - destruct (N.eqb x n); auto. }
        destruct (IH cl' n j i C M2 Fd') as (K' & tb' & E1 & E2 & E3). exists K', tb'. split; auto. split; auto.
        cbn [filter snd]. destruct (Nat.ltb_spec i j) as [Lt|]; auto. exfalso.
        apply find_some in Fd'. destruct Fd' as [I _]. apply in_rev in I. pose proof (mono_in cl' i _ M2 I) as Q. cbn in Q. lia.
Qed.

Lemma rollback_ok : forall k s j l', RT k s l' -> j <= length (tlog s) -> forall s', tg s' = apply_rollback k (skipn j (tlog s)) (tg s) -> tlog s' = firstn j (tlog s) ->
  wfg (tg s') /\ (forall e, In e (tlog s') -> ok_event k e) /\ (forall c f, form (tg s') c = Some f -> okref k c f) /\
  eqf (form (tg s')) (fold_right inv_c (form (tg s)) (skipn j (tlog s))).
Proof.
  intros k s j t (W & O & F & E & A) J s' G L.
  assert (Osk : forall e, In e (skipn j (tlog s)) -> ok_event k e) by (intros e I; apply O; rewrite <- (firstn_skipn j (tlog s)); apply in_or_app; auto).
  destruct (rollback_c k (skipn j (tlog s)) (tg s) W Osk) as [W' F']. rewrite G, L. split; auto. split; [|split; auto].
  - intros e I. apply O. rewrite <- (firstn_skipn j (tlog s)). apply in_or_app. auto.
  - intros c f Q. rewrite F' in Q. clear - Osk F Q. revert c f Q.
    induction (skipn j (tlog s)) as [|e es IH]; cbn; auto. intros c f Q.
    assert (Oe : ok_event k e) by (apply Osk; now left).
    assert (IH' : forall c f, fold_right inv_c (form (tg s)) es c = Some f -> okref k c f) by (apply IH; intros; apply Osk; now right).
    destruct e as [a ov of v|a ov of v|a o n| | ]; cbn in *; auto; destruct Oe as [_ Oe]; unfold upd in Q; destruct (N.eqb_spec c a) as [->|]; auto.
Qed.

Lemma find_name : forall n sps p, find (fun p : N * nat => N.eqb (fst p) n) sps = Some p -> fst p = n /\ In p sps.
Proof. intros n sps p H. apply find_some in H. destruct H as [I E]. apply N.eqb_eq in E. auto. Qed.

Lemma RT_step : forall k s t o, RT k s t ->
  match o, active s with TSavepoint n, Some (_, sps) => ~ In n (map fst sps) | TClear, _ => False | _, _ => True end ->
  match tx_step k o s with
  | Ok s' => exists t', post k o t = Some t' /\ RT k s' t'
  | Err _ => True
  | Panic => False
  end.
Proof.
  intros k s t o R H. pose proof R as (W & O & F & E & A). destruct o as [|c v|c f|b| | |n|n|]; cbn [tx_step post].
  - unfold tx_begin. destruct (active s) as [[i sps]|] eqn:Ac; [exact I|]. destruct (opened_at t); [contradiction|]. eexists. split; [reflexivity|].
    unfold RT. cbn. repeat (split; [assumption|]). split; [|split; [reflexivity|split; [exact I|intros p []]]].
    split; [apply Nat.le_refl|]. cbn. rewrite skipn_all. exact E.
  - eexists. split; [reflexivity|]. destruct (g_set_value_ok c (tg s) W) as [W' F'].
    eapply RT_lift; [exact R|reflexivity|exact W'| | | | |].
    + cbn. intros e I. apply in_app_or in I. destruct I as [I|[<-|[]]]; auto. cbn. split; auto.
    + cbn. intros d g Q. rewrite F' in Q. unfold upd in Q. destruct (N.eqb d c); [discriminate|auto].
    + cbn. eapply eqf_trans; [exact F'|]. now apply upd_ext.
    + apply (at_push _ _ (ESetValue c None (form (tg s) c) v)); [reflexivity|]. cbn. intros d. unfold upd at 1. destruct (N.eqb_spec d c) as [->|D]; auto. rewrite F'. now apply upd_ne.
    + cbn. rewrite app_length. lia.
  - unfold tx_formula. pose proof (g_set_formula_any (iter k) c f (tg s) W) as Q. cbn zeta in Q.
    assert (Acc : snd (g_set_formula (iter k) c f (tg s)) = accepts k c f).
    { destruct (accepts k c f) eqn:Ak. - apply accepts_okref in Ak. apply (g_set_formula_ok k c f (tg s) W Ak).
      - unfold accepts in Ak. apply orb_false_iff in Ak. destruct Ak as [Ik Rk]. apply negb_false_iff in Rk. unfold g_set_formula.
        destruct (create_all (refs f) (tg s)) as [g1 ds] eqn:E1. destruct (create_all_ok _ _ _ _ W E1) as (W1 & F1 & K1 & I1 & J1 & R1).
        destruct (get_or_create c g1) as [g2 v] eqn:E2. destruct (goc_ok _ _ _ _ W1 E2) as (W2 & F2 & M2 & K2 & R2).
        replace (existsb (N.eqb v) ds) with true; [now rewrite Ik|]. symmetry. apply existsb_exists. exists v. split; [|apply N.eqb_refl].
        apply I1. apply existsb_exists in Rk. destruct Rk as (d & Id & Ed). apply N.eqb_eq in Ed. subst d. exists c. split; auto.
        destruct (J1 c Id) as [w Hw]. specialize (K2 _ _ Hw). congruence. }
    destruct (g_set_formula (iter k) c f (tg s)) as [g ok]. cbn in *. subst ok. destruct Q as (W' & _ & Fm).
    destruct (accepts k c f) eqn:Ak; eexists; (split; [reflexivity|]).
    + destruct Fm as [[_ F']|[B _]]; [|discriminate]. apply accepts_okref in Ak.
      eapply RT_lift; [exact R|reflexivity|exact W'| | | | |].
      * cbn. intros e I. apply in_app_or in I. destruct I as [I|[<-|[]]]; auto. cbn. split; auto.
      * cbn. intros d g' Q. rewrite F' in Q. unfold upd in Q. destruct (N.eqb_spec d c) as [->|]; [congruence|auto].
      * cbn. eapply eqf_trans; [exact F'|]. now apply upd_ext.
      * apply (at_push _ _ (ESetFormula c None (form (tg s) c) f)); [reflexivity|]. cbn. intros d. unfold upd at 1. destruct (N.eqb_spec d c) as [->|D]; auto. rewrite F'. now apply upd_ne.
      * cbn. rewrite app_length. lia.
    + destruct Fm as [[B _]|[_ F']]; [discriminate|]. destruct t as [ct ot].
      apply (RT_lift k s (with_graph g s) {| cur := ct; opened_at := ot |} ct R); [reflexivity|exact W'|exact O| | | |apply Nat.le_refl].
      * cbn. intros d g' Q. rewrite F' in Q. auto.
      * cbn. eapply eqf_trans; [exact F'|]. exact E.
      * apply at_same; [reflexivity|exact F'].
  - eexists. split; [reflexivity|]. destruct t as [ct ot].
    apply (RT_lift k s (with_log (tlog s ++ [if b then EStart else EEnd]) s) {| cur := ct; opened_at := ot |} ct R); [reflexivity|exact W| |exact F|exact E| |].
    + cbn. intros e I. apply in_app_or in I. destruct I as [I|[<-|[]]]; auto. destruct b; exact I.
    + apply (at_push _ _ (if b then EStart else EEnd)); [reflexivity|]. destruct b; apply eqf_refl.
    + cbn. rewrite app_length. lia.
  - unfold tx_commit. destruct (active s) as [[i sps]|] eqn:Ac; [|exact I]. destruct (opened_at t) as [[K tb]|]; [|contradiction].
    destruct A as ([A1 _] & _). destruct (Nat.leb_spec i (length (tlog s))); [|lia]. destruct (Nat.leb _ (maxsize s)); [|exact I].
    eexists. split; [reflexivity|]. unfold RT. cbn. repeat (split; [assumption|]). exact I.
  - unfold tx_rollback. destruct (active s) as [[i sps]|] eqn:Ac; [|exact I]. destruct (opened_at t) as [[K tb]|] eqn:Ot; [|contradiction].
    destruct A as ([A1 A2] & _). unfold take_from. destruct (Nat.leb_spec i (length (tlog s))); [|lia].
    eexists. split; [reflexivity|]. set (s' := with_graph _ _).
    destruct (rollback_ok k s i t R A1 s' eq_refl eq_refl) as (W' & O' & F' & E'). unfold RT. cbn [cur opened_at].
    split; [exact W'|]. split; [exact O'|]. split; [exact F'|]. split; [|exact I]. eapply eqf_trans; eauto.
  - unfold tx_savepoint. destruct (active s) as [[i sps]|] eqn:Ac; [|exact I]. destruct (opened_at t) as [[K tb]|] eqn:Ot; [|contradiction].
    eexists. split; [reflexivity|]. unfold RT. cbn [cur opened_at active with_active tg tlog]. do 4 (split; [assumption|]).
    destruct A as (A1 & A2 & A3 & A4). split; [exact A1|]. rewrite rev_app_distr. cbn [rev app]. split; [|split].
    + cbn. right. exists (length (tlog s)), (rev sps). split; auto. split; [|split].
      * split; [apply Nat.le_refl|]. cbn. rewrite skipn_all. exact E.
      * intros Q. apply H. rewrite map_rev in Q. now apply in_rev.
      * eapply rel_at; [|exact A2]. auto.
    + cbn. split; auto.
    + intros p I. apply in_app_or in I. destruct I as [I|[<-|[]]]; auto. cbn. destruct A1. auto.
  - unfold tx_rollback_to. destruct (active s) as [[i sps]|] eqn:Ac; [|exact I]. destruct (opened_at t) as [[K tb]|] eqn:Ot; [|contradiction].
    destruct A as (A1 & A2 & A3 & A4). destruct (find _ sps) as [[n' j]|] eqn:Fd; [|exact I].
    destruct (find_name _ _ _ Fd) as [En In']. cbn in En. subst n'.
    assert (Fd' : find (fun p => N.eqb (fst p) n) (rev (rev sps)) = Some (n, j)) by now rewrite rev_involutive.
    destruct (back_spec s tb (rev sps) n j _ A2 A3 Fd') as (K' & tb' & B1 & [B2 B2'] & B3).
    unfold take_from. destruct (Nat.leb_spec j (length (tlog s))); [|lia]. rewrite B1.
    eexists. split; [reflexivity|]. set (s' := with_graph _ _).
    destruct (rollback_ok k s j t R B2 s' eq_refl eq_refl) as (W' & O' & F' & E'). unfold RT. cbn [cur opened_at].
    split; [exact W'|]. split; [exact O'|]. split; [exact F'|]. split; [eapply eqf_trans; eauto|].
    replace (active s') with (Some (i, filter (fun p : N * nat => Nat.ltb (snd p) j) sps)) by reflexivity.
    assert (Ij : i <= j) by (apply (A4 _ In')).
    assert (At : forall i' K0, i' <= j -> at_ s i' K0 -> at_ s' i' K0) by (apply at_back; [exact B2|reflexivity|exact E']).
    assert (Rv : rev (filter (fun p : N * nat => Nat.ltb (snd p) j) sps) = filter (fun p => Nat.ltb (snd p) j) (rev sps)).
    { clear. induction sps as [|p l IH]; cbn [filter rev]; auto. rewrite filter_app. cbn [filter]. destruct (Nat.ltb (snd p) j); cbn [rev]; rewrite <- IH; auto. now rewrite app_nil_r. }
    rewrite Rv. split; [auto|]. split; [|split].
    + eapply rel_at; [|exact B3]. intros i' K0 Q I. apply At; auto. apply in_map_iff in I. destruct I as (p & <- & I). apply filter_In in I. destruct I as [_ I]. apply Nat.ltb_lt in I. lia.
    + cbn [tlog s' with_graph with_log with_active]. rewrite firstn_length. replace (min j (length (tlog s))) with j by lia.
      assert (X : forall p, In p (filter (fun p => Nat.ltb (snd p) j) (rev sps)) -> snd p <= j) by (intros p I; apply filter_In in I; destruct I as [_ I]; apply Nat.ltb_lt in I; lia).
      pose proof (mono_filter (fun p => Nat.ltb (snd p) j) _ _ A3) as M. destruct (filter _ (rev sps)) as [|[x y] l]; cbn [mono] in *; auto. split; [apply (X (x, y)); now left|]. tauto.
    + intros p I. apply filter_In in I. apply A4. tauto.
  - contradiction.
Qed.

Lemma follow_ok : forall k os s t, RT k s t -> fresh_names k os s -> exists s' t', follow k os s t = Some (s', t') /\ tx_run k os s = Some s' /\ RT k s' t'.
Proof.
  intros k. induction os as [|o os IH]; intros s t R F; cbn; [eauto|]. cbn in F. destruct F as [F1 F2].
  pose proof (RT_step k s t o R F1) as St. destruct (tx_step k o s) as [s'|e|]; [|apply IH; auto|contradiction].
  destruct St as (t' & P & R'). rewrite P. apply IH; auto.
Qed.
Lemma RT_start : forall k g m, sane k g -> RT k (tx_new m g) (ledger_new (form g)).
Proof.
  intros k g m (A & B & C). unfold RT. cbn. split; [split; auto|]. split; [intros e []|]. split; [intros c f Q; apply accepts_okref; eauto|]. split; [apply eqf_refl|exact I].
Qed.

Lemma tx_textbook : forall k g m os, sane k g -> fresh_names k os (tx_new m g) ->
  exists s t, follow k os (tx_new m g) (ledger_new (form g)) = Some (s, t) /\ tx_run k os (tx_new m g) = Some s /\ forall c, form (tg s) c = cur t c.
Proof.
  intros k g m os Sa F. destruct (follow_ok k os _ _ (RT_start k g m Sa) F) as (s & t & A & B & R). exists s, t. split; auto. split; auto. apply R.
Qed.
