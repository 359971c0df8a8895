(** Values of formula cells, and dependents. *)
From Verif Require Import Base ListSort UndoModel UndoSpec UndoProofs UndoProofs2 UndoProofs3 UndoProofs4.
From Coq Require Import ZifyN ZifyNat ZifyBool.

Lemma g_set_formula_any : forall it c f g, wfg g ->
  let r := g_set_formula it c f g in
  wfg (fst r) /\ (forall d w, vmap g d = Some w -> vmap (fst r) d = Some w) /\
  ((snd r = true /\ forall d, form (fst r) d = upd (form g) c (Some f) d) \/ (snd r = false /\ forall d, form (fst r) d = form g d)).
Proof.
  intros it c f g W. unfold g_set_formula. destruct (create_all (refs f) g) as [g1 ds] eqn:E1.
  destruct (create_all_ok _ _ _ _ W E1) as (W1 & F1 & K1 & I1 & J1 & R1).
  destruct (get_or_create c g1) as [g2 v] eqn:E2. destruct (goc_ok _ _ _ _ W1 E2) as (W2 & F2 & M2 & K2 & R2).
  destruct (existsb (N.eqb v) ds && negb it)%bool; cbn [fst snd].
  - split; auto. split; auto. right. split; auto. intros d. now rewrite F2, F1.
  - split; [eapply wfg_same; [| |exact W2]; reflexivity|]. split; [cbn; auto|]. left. split; auto.
    intros d. unfold form at 1. cbn. unfold upd at 2. destruct (N.eqb_spec d c) as [->|D].
    + rewrite M2. apply upd_eq.
    + rewrite <- F1, <- F2. unfold form. destruct (vmap g2 d) as [w|] eqn:V; auto. rewrite upd_ne; auto. intros ->.
      apply D. destruct W2 as [_ I]. eapply I; eauto.
Qed.
Lemma g_set_value_mono : forall c g, wfg g -> (forall d w, vmap g d = Some w -> vmap (g_set_value c g) d = Some w) /\ vmap (g_set_value c g) c <> None.
Proof.
  intros c g W. unfold g_set_value. destruct (get_or_create c g) as [g1 v] eqn:E.
  destruct (goc_ok _ _ _ _ W E) as (W1 & F1 & M1 & K1 & R1). destruct (vform g1 v); cbn; split; auto; congruence.
Qed.

(** Formula cells have no user overlay. *)
Definition vis (s : st) : Prop := wfg (gr s) /\ forall c f, form (gr s) c = Some f -> delta s c = None.

Lemma vis_put : forall (g : graph) (d : cell -> option value) (c : cell) (of : option formula) (dv : option value), (forall x f, form g x = Some f -> d x = None) -> (of <> None -> dv = None) ->
  forall g', (forall x, form g' x = upd (form g) c of x) -> forall x f, form g' x = Some f -> upd d c dv x = None.
Proof.
  intros g d c of dv V O g' F x f Q. rewrite F in Q. unfold upd in *. destruct (N.eqb x c); eauto. apply O. congruence.
Qed.
Lemma vis_clear : forall (g : graph) (d : cell -> option value) (c : cell), (forall x f, form g x = Some f -> d x = None) -> forall x f, form g x = Some f -> upd d c None x = None.
Proof. intros g d c V x f Q. unfold upd. destruct (N.eqb x c); eauto. Qed.

Lemma vis_inv : forall k e s, vis s -> vis (inv_all k e s).
Proof.
  assert (Y : forall k c ov of s, vis s ->
    vis (set_delta (match of with None => upd (delta s) c (Some (or_empty ov)) | Some _ => upd (delta s) c None end)
          (set_gr (match of with Some f => fst (g_set_formula (iter k) c f (gr s)) | None => match ov with Some _ => g_set_value c (gr s) | None => g_remove c (gr s) end end) s))).
  { intros k c ov of s [W V]. destruct of as [f|].
    - destruct (g_set_formula_any (iter k) c f (gr s) W) as (W' & _ & [[_ F]|[_ F]]); split; cbn; auto.
      + eapply vis_put; [exact V| |exact F]. auto.
      + intros x g Q. rewrite F in Q. eapply vis_clear; eauto.
    - destruct ov as [v|].
      + destruct (g_set_value_ok c (gr s) W) as [W' F]. split; cbn; auto. eapply vis_put; [exact V| |exact F]. congruence.
      + destruct (g_remove_ok c (gr s) W) as [W' F]. split; cbn; auto. eapply vis_put; [exact V| |exact F]. congruence. }
  intros k e s V. destruct e as [c ov of v|c ov of f|c o n| | ]; try exact V.
  - specialize (Y k c ov of s V). destruct of; exact Y.
  - specialize (Y k c ov of s V). destruct of; exact Y.
Qed.
Lemma vis_fwd : forall k s e, vis s -> vis (fwd_all k s e).
Proof.
  intros k s e [W V]. destruct e as [c ov of v|c ov of f|c o n| | ]; try (split; assumption).
  - destruct (g_set_value_ok c (gr s) W) as [W' F]. split; cbn; auto. eapply vis_put; [exact V| |exact F]. congruence.
  - destruct (g_set_formula_any (iter k) c f (gr s) W) as (W' & _ & [[_ F]|[_ F]]); split; cbn; auto.
    + eapply vis_put; [exact V| |exact F]. auto.
    + intros x g Q. rewrite F in Q. eapply vis_clear; eauto.
Qed.

Lemma vis_fields : forall s s', gr s' = gr s -> delta s' = delta s -> vis s -> vis s'.
Proof. intros s s' G D [W V]. split; [now rewrite G|]. intros c f. rewrite G, D. apply V. Qed.

Lemma ewl_value : forall c v old s, cap (log s) = None -> let s1 := edit_with_logger (ed_set_value c v old) s in
  gr s1 = g_set_value c (gr s) /\ delta s1 = upd (delta s) c (Some v) /\ staged s1 = staged s /\ undone s1 = undone s /\ cap (log s1) = None /\
  exists e, events (log s1) = events (log s) ++ [(e, hd_error (gstack (log s)))] /\ (forall a x y, e <> EStaged a x y).
Proof.
  intros c v old s C. cbn zeta. set (e1 := ESetValue c old (form (gr s) c) v).
  assert (X1 : extends (log s) (log (ed_set_value c v old s)) [e1]) by (cbn; now apply record_nocap).
  rewrite (ewl_one _ _ e1 X1). destruct X1 as (A & _ & _ & _ & B). cbn. repeat split; [cbn in B; congruence|]. exists e1. split; [exact A|discriminate].
Qed.
Lemma ewl_formula : forall k c f old s, cap (log s) = None -> let s1 := edit_with_logger (ed_set_formula k c f old) s in
  gr s1 = fst (g_set_formula (iter k) c f (gr s)) /\ staged s1 = staged s /\ undone s1 = undone s /\ cap (log s1) = None /\
  ((snd (g_set_formula (iter k) c f (gr s)) = true /\ delta s1 = upd (delta s) c None /\
    exists e, events (log s1) = events (log s) ++ [(e, hd_error (gstack (log s)))] /\ (forall a x y, e <> EStaged a x y)) \/
   (snd (g_set_formula (iter k) c f (gr s)) = false /\ delta s1 = delta s /\ log s1 = log s)).
Proof.
  intros k c f old s C. cbn zeta. destruct (snd (g_set_formula (iter k) c f (gr s))) eqn:B.
  - set (e1 := ESetFormula c old (form (gr s) c) f).
    assert (X : extends (log s) (log (ed_set_formula k c f old s)) [e1]).
    { unfold ed_set_formula. destruct (g_set_formula (iter k) c f (gr s)) as [g ok]. cbn in B. subst ok. cbn. now apply record_nocap. }
    rewrite (ewl_one _ _ _ X). destruct X as (A & _ & _ & _ & Cp). unfold ed_set_formula in *. destruct (g_set_formula (iter k) c f (gr s)) as [g ok]. cbn in B. subst ok. cbn in *.
    repeat split; [congruence|]. left. repeat split. exists e1. split; [exact A|discriminate].
  - assert (X : extends (log s) (log (ed_set_formula k c f old s)) []).
    { unfold ed_set_formula. destruct (g_set_formula (iter k) c f (gr s)) as [g ok]. cbn in B. subst ok. apply extends_nil. }
    rewrite (ewl_none _ _ X). unfold ed_set_formula. destruct (g_set_formula (iter k) c f (gr s)) as [g ok]. cbn in B. subst ok. cbn. repeat split; auto.
Qed.

Lemma vis_value : forall c v s, cap (log s) = None -> vis s -> vis (set_value c v s) /\ delta (set_value c v s) = upd (upd (delta s) c (Some v)) c (Some v) /\
  gr (set_value c v s) = g_set_value c (gr s) /\ staged (set_value c v s) = upd (staged s) c None /\ cap (log (set_value c v s)) = None /\ undone (set_value c v s) = undone s.
Proof.
  intros c v s C [W V]. unfold set_value. destruct (ewl_value c v (cell_value s c) s C) as (A1 & A2 & A3 & A4 & A5 & _). cbn zeta in *.
  set (s1 := edit_with_logger _ s) in *. clearbody s1. set (s3 := set_staged _ _).
  pose proof (record_staged_fields c (staged s c) None s3) as RF. cbn zeta in RF. destruct RF as (R1 & R2 & R3 & R4 & R5 & R6).
  set (s' := record_staged _ _ _ _) in *.
  assert (Cs : cap (log s') = None).
  { destruct (record_staged_log c (staged s c) None s3 A5) as [[_ Q]|[_ Q]]; destruct Q as (_ & _ & _ & _ & Q); fold s' in Q; rewrite Q; exact A5. }
  assert (G : gr s' = g_set_value c (gr s)) by (rewrite R1; exact A1).
  assert (D : delta s' = upd (upd (delta s) c (Some v)) c (Some v)) by (rewrite R3; cbn; now rewrite A2).
  split; [|split; [exact D|split; [exact G|split; [rewrite R2; cbn; now rewrite A3|split; [exact Cs|rewrite R6; exact A4]]]]].
  destruct (g_set_value_ok c (gr s) W) as [W' F]. split; rewrite G; auto. rewrite D. intros x f Q. rewrite F in Q. unfold upd in *.
  destruct (N.eqb x c); [discriminate|eauto].
Qed.

Lemma vis_formula : forall k c f old s, cap (log s) = None -> vis s ->
  let s' := record_staged c (staged s c) None
     (set_staged (upd (staged (edit_with_logger (ed_set_formula k c f old) s)) c None) (edit_with_logger (ed_set_formula k c f old) s)) in
  vis s' /\ (delta s' = upd (delta s) c None \/ delta s' = delta s) /\ gr s' = fst (g_set_formula (iter k) c f (gr s)) /\ staged s' = upd (staged s) c None /\
  cap (log s') = None /\ undone s' = undone s.
Proof.
  intros k c f old s C [W V] s'. destruct (ewl_formula k c f old s C) as (A1 & A3 & A4 & A5 & A6). cbn zeta in *.
  unfold s'. clear s'. set (s1 := edit_with_logger _ s) in *. clearbody s1. set (s3 := set_staged _ _).
  pose proof (record_staged_fields c (staged s c) None s3) as RF. cbn zeta in RF. destruct RF as (R1 & R2 & R3 & R4 & R5 & R6).
  set (s' := record_staged _ _ _ _) in *.
  assert (Cs : cap (log s') = None).
  { destruct (record_staged_log c (staged s c) None s3 A5) as [[_ Q]|[_ Q]]; destruct Q as (_ & _ & _ & _ & Q); fold s' in Q; rewrite Q; exact A5. }
  assert (G : gr s' = fst (g_set_formula (iter k) c f (gr s))) by (rewrite R1; exact A1).
  assert (D : delta s' = delta s1) by (rewrite R3; reflexivity).
  destruct (g_set_formula_any (iter k) c f (gr s) W) as (W' & _ & Fm).
  split; [|split; [|split; [exact G|split; [rewrite R2; cbn; now rewrite A3|split; [exact Cs|rewrite R6; exact A4]]]]].
  - split; rewrite G; auto. rewrite D. destruct A6 as [(B & A6 & _)|(B & A6 & _)]; rewrite A6; destruct Fm as [[B' F]|[B' F]]; try congruence; intros x g Q; rewrite F in Q.
    + unfold upd in *. destruct (N.eqb x c); eauto.
    + eauto.
  - rewrite D. destruct A6 as [(B & A6 & _)|(B & A6 & _)]; auto.
Qed.

Lemma vis_undo : forall k s s', vis s -> undo k s = Some s' -> vis s'.
Proof.
  intros k s s' V U. unfold undo in U. destruct (last_group_indices (events (log s))) as [|i is] eqn:E; [congruence|].
  set (b := batch_of _ _) in *. clearbody b. destruct (Nat.eqb _ _); [|discriminate]. inversion U; subst s'.
  destruct (inv_fold k b s) as (F1 & _ & F3 & _). eapply vis_fields; [cbn; symmetry; exact F1|cbn; symmetry; exact F3|].
  clear - V. induction b as [|e b IH]; cbn; auto. apply vis_inv. exact IH.
Qed.
Lemma vis_redo : forall k s, vis s -> vis (redo k s).
Proof.
  intros k s V. unfold redo. destruct (undone s) as [|b us]; auto.
  destruct (fwd_fold k b s) as (F1 & _ & F3 & _). eapply vis_fields; [cbn; symmetry; exact F1|cbn; symmetry; exact F3|].
  clear - V. revert s V. induction b as [|e b IH]; cbn; intros; auto. apply IH. now apply vis_fwd.
Qed.

Definition calm (s : st) : Prop := forall c f, staged s c = Some f -> delta s c = None.
Lemma vis_build : forall order s, vis s -> calm s -> vis (build order s) /\ calm (build order s) /\
  (forall d w, vmap (gr s) d = Some w -> vmap (gr (build order s)) d = Some w) /\ delta (build order s) = delta s /\
  (forall c f, staged (build order s) c = Some f -> staged s c = Some f) /\ undone (build order s) = undone s.
Proof.
  unfold build. induction order as [|c order IH]; intros s [W V] Cm; cbn [fold_left]; [repeat (split; auto)|].
  destruct (staged s c) as [f|] eqn:E; [|apply IH; [split; assumption|exact Cm]].
  set (s1 := set_staged _ _). destruct (g_set_formula_any true c f (gr s) W) as (W' & M & Fm).
  assert (V1 : vis s1).
  { split; cbn; auto. intros x g Q. destruct Fm as [[_ F]|[_ F]]; rewrite F in Q; [|eauto]. unfold upd in Q.
    destruct (N.eqb_spec x c) as [->|]; eauto. }
  assert (C1 : calm s1). { intros x g Q. cbn in *. unfold upd in Q. destruct (N.eqb x c); [discriminate|]. eauto. }
  destruct (IH s1 V1 C1) as (A & B & C & D & F & G). split; auto. split; auto. split; [|split; [|split]]; auto.
  intros x g Q. apply F in Q. cbn in Q. unfold upd in Q. destruct (N.eqb x c); [discriminate|]. exact Q.
Qed.

Lemma eval_up_to_date : forall order vals s, vis s -> calm s -> up_to_date (evaluate order vals s) vals.
Proof.
  intros order vals s V C c f F. destruct (vis_build order s V C) as ([W V'] & _ & _ & D & _).
  unfold evaluate in *. cbn in F. unfold read. cbn. rewrite (V' _ _ F), F. reflexivity.
Qed.

(** Eager graphs: nothing is ever staged. *)
Definition plain (e : event) : Prop := forall a x y, e <> EStaged a x y.
Definition eager_inv (s : st) : Prop :=
  vis s /\ cap (log s) = None /\ (forall c, staged s c = None) /\ (forall p, In p (events (log s)) -> plain (fst p)) /\
  (forall b e, In b (undone s) -> In e b -> plain e).
Lemma calm_none : forall s, (forall c, staged s c = None) -> calm s.
Proof. intros s H c f Q. rewrite H in Q. discriminate. Qed.
Lemma rs_none : forall c s, record_staged c None None s = s. Proof. reflexivity. Qed.

Lemma plain_staged : forall b x, (forall e, In e b -> plain e) -> fold_right inv_staged x b = x /\ fold_left (fun x e => fwd_staged e x) b x = x.
Proof.
  induction b as [|e b IH]; intros x A; cbn; auto. destruct (IH x) as [I1 I2]; [intros; apply A; now right|].
  assert (P : plain e) by (apply A; now left). destruct e; cbn; try rewrite I1; auto. exfalso. eapply P. reflexivity.
Qed.

Lemma eager_step : forall k o s s', eager k = true -> is_cap o = false -> eager_inv s -> step k o s = Some s' -> eager_inv s'.
Proof.
  intros k o s s' Eg O (V & C & T & Lg & Un) E. destruct o as [c v|c f| | | | |order vals|cp]; cbn [step is_cap] in *; try discriminate.
  - inversion E; subst s'. clear E. destruct (vis_value c v s C V) as (A1 & A2 & A3 & A4 & A5 & A6).
    destruct (ewl_value c v (cell_value s c) s C) as (_ & _ & _ & _ & _ & e & B1 & B2).
    split; auto. split; auto. split. { intros d. rewrite A4. unfold upd. destruct (N.eqb d c); auto. }
    split. { unfold set_value. rewrite T, rs_none. intros p I. change (In p (events (log (edit_with_logger (ed_set_value c v (cell_value s c)) s)))) in I.
      rewrite B1 in I. apply in_app_or in I. destruct I as [I|[<-|[]]]; auto. }
    rewrite A6. exact Un.
  - inversion E; subst s'. clear E. unfold set_formula. rewrite Eg. destruct (vis_formula k c f None s C V) as (A1 & A2 & A3 & A4 & A5 & A6).
    destruct (ewl_formula k c f None s C) as (_ & _ & _ & _ & B).
    split; auto. split; auto. split. { intros d. rewrite A4. unfold upd. destruct (N.eqb d c); auto. }
    split. { rewrite T, rs_none. intros p I. change (In p (events (log (edit_with_logger (ed_set_formula k c f None) s)))) in I.
      destruct B as [(_ & _ & e & B1 & B2)|(_ & _ & B1)]; rewrite B1 in I; auto. apply in_app_or in I. destruct I as [I|[<-|[]]]; auto. }
    rewrite A6. exact Un.
  - inversion E; subst s'. clear E. split; [eapply vis_fields; [| |exact V]; reflexivity|]. split; [now apply begin_nocap|]. split; auto. split; auto.
    cbn. unfold begin_compound. destruct (Nat.eqb (depth (log s)) 0); match goal with |- context [record ?e ?l] => destruct (record_nocap e l C) as (Q & _) end;
      rewrite Q; cbn [events]; intros p I; apply in_app_or in I; destruct I as [I|[<-|[]]]; auto; intros a x y; discriminate.
  - inversion E; subst s'. clear E. split; [eapply vis_fields; [| |exact V]; reflexivity|]. split; [now apply end_nocap|]. split; auto. split; auto.
    cbn. unfold end_compound. destruct (Nat.eqb (depth (log s)) 0); auto. cbn. destruct (record_nocap EEnd (log s) C) as (Q & _).
    rewrite Q. intros p I. apply in_app_or in I. destruct I as [I|[<-|[]]]; auto; intros a x y; discriminate.
  - pose proof (vis_undo k s s' V E) as V'. unfold undo in E. destruct (last_group_indices (events (log s))) as [|i is]; [inversion E; subst; repeat (split; auto)|].
    set (b := batch_of _ _) in *.
    assert (Pb : forall e, In e b -> plain e).
    { intros e I. unfold b, batch_of in I. apply in_map_iff in I. destruct I as (j & <- & _). destruct (nth_in_or_default j (events (log s)) (EStart, None)) as [Q|Q]; [auto|].
      rewrite Q. intros a x y. discriminate. }
    clearbody b. destruct (Nat.eqb _ _); [|discriminate]. inversion E; subst s'. clear E.
    split; auto. cbn. split; auto. split. { destruct (plain_staged b (staged s) Pb) as [Q _]. rewrite Q. exact T. }
    split. { intros p I. apply Lg. match type of I with In _ (firstn ?n _) => rewrite <- (firstn_skipn n (events (log s))); apply in_or_app; left; exact I end. }
    intros b' e [<-|I]; eauto.
  - inversion E; subst s'. pose proof (vis_redo k s V) as V'. unfold redo in *. destruct (undone s) as [|b us] eqn:Eu; [repeat (split; auto); rewrite Eu; intros ? ? []|].
    assert (Pb : forall e, In e b -> plain e) by (intros e I; apply (Un b e); [now left|exact I]).
    assert (C1 : cap (begin_compound (log s)) = None) by now apply begin_nocap.
    destruct (fold_record b (begin_compound (log s)) C1) as (Q1 & _ & _ & _ & Q2).
    set (l1 := fold_left (fun l e => record e l) b (begin_compound (log s))) in *. assert (C2 : cap l1 = None) by congruence.
    split; auto. cbn. split; [now apply end_nocap|]. split. { destruct (plain_staged b (staged s) Pb) as [_ Q]. rewrite Q. exact T. }
    split; [|intros b' e I; apply Un; now right].
    assert (L1 : forall p, In p (events l1) -> plain (fst p)).
    { intros p I. rewrite Q1 in I. apply in_app_or in I. destruct I as [I|I].
      - unfold begin_compound in I. destruct (Nat.eqb (depth (log s)) 0); match type of I with context [record ?e ?l] => destruct (record_nocap e l C) as (Q & _) end;
          rewrite Q in I; cbn [events] in I; apply in_app_or in I; destruct I as [I|[<-|[]]]; auto; intros a x y; discriminate.
      - apply in_map_iff in I. destruct I as (e & <- & I). auto. }
    unfold end_compound. destruct (Nat.eqb (depth l1) 0); auto. cbn. destruct (record_nocap EEnd l1 C2) as (Q & _).
    rewrite Q. intros p I. apply in_app_or in I. destruct I as [I|[<-|[]]]; auto; intros a x y; discriminate.
  - inversion E; subst s'. unfold evaluate. rewrite (build_idle order s T). repeat (split; auto).
Qed.

Lemma eager_run : forall k os s s', eager k = true -> (forall o, In o os -> is_cap o = false) -> eager_inv s -> run k os s = Some s' -> eager_inv s'.
Proof.
  intros k. induction os as [|o os IH]; intros s s' Eg O V E; cbn in E; [congruence|]. destruct (step k o s) as [s1|] eqn:St; [|discriminate].
  eapply IH; [exact Eg| |eapply eager_step; eauto|exact E]. intros; apply O; now right.
  Unshelve. all: auto. apply O. now left.
Qed.

Lemma loaded_vis : forall b, vis (loaded b).
Proof. intros b. split; [split; discriminate|]. intros c f Q. discriminate. Qed.

Lemma eager_up_to_date : forall k b os s order vals, eager k = true -> (forall o, In o os -> is_cap o = false) ->
  run k os (loaded b) = Some s -> up_to_date (evaluate order vals s) vals.
Proof.
  intros k b os s order vals Eg O E. assert (V : eager_inv s).
  { eapply eager_run; eauto. split; [apply loaded_vis|]. split; [reflexivity|]. split; [reflexivity|]. split; [intros ? []|intros ? ? []]. }
  destruct V as (V & _ & T & _). apply eval_up_to_date; auto. now apply calm_none.
Qed.

(** Without undo and redo. *)
Definition fresh_inv (s : st) : Prop :=
  vis s /\ calm s /\ cap (log s) = None /\ undone s = [] /\ forall c, delta s c <> None -> vmap (gr s) c <> None.

Lemma mono_ne : forall (g g' : graph), (forall d w, vmap g d = Some w -> vmap g' d = Some w) -> forall c, vmap g c <> None -> vmap g' c <> None.
Proof. intros g g' M c H Q. destruct (vmap g c) eqn:E; [|congruence]. rewrite (M _ _ E) in Q. discriminate. Qed.

Lemma fresh_step : forall k o s s', is_history o = false -> is_cap o = false -> fresh_inv s -> step k o s = Some s' -> fresh_inv s'.
Proof.
  intros k o s s' H O (V & Cm & C & Un & Dv) E. pose proof V as [W _]. destruct o as [c v|c f| | | | |order vals|cp]; cbn [step is_cap is_history] in *; try discriminate.
  - inversion E; subst s'. clear E. destruct (vis_value c v s C V) as (A1 & A2 & A3 & A4 & A5 & A6).
    split; auto. split. { intros d g Q. rewrite A4 in Q. rewrite A2. unfold upd in *. destruct (N.eqb d c); [discriminate|eauto]. }
    split; auto. split; [congruence|]. intros d Q. rewrite A3. rewrite A2 in Q. destruct (g_set_value_mono c (gr s) W) as [M1 M2].
    unfold upd in Q. destruct (N.eqb_spec d c) as [Ec|Ec]; [subst; exact M2|]. eapply (mono_ne (gr s)); [exact M1|]. now apply Dv.
  - inversion E; subst s'. clear E. unfold set_formula.
    assert (Main : forall old, let s' := record_staged c (staged s c) None
     (set_staged (upd (staged (edit_with_logger (ed_set_formula k c f old) s)) c None) (edit_with_logger (ed_set_formula k c f old) s)) in fresh_inv s').
    { intros old. destruct (vis_formula k c f old s C V) as (A1 & A2 & A3 & A4 & A5 & A6). cbn zeta. set (s' := record_staged _ _ _ _) in *.
      destruct (g_set_formula_any (iter k) c f (gr s) W) as (_ & M & _).
      split; auto. split. { intros d g Q. rewrite A4 in Q. unfold upd in Q. destruct (N.eqb d c) eqn:Dc; [discriminate|]. destruct A2 as [A2|A2]; rewrite A2; unfold upd; try rewrite Dc; eauto. }
      split; auto. split; [congruence|]. intros d Q. rewrite A3. eapply (mono_ne (gr s)); [exact M|]. apply Dv. destruct A2 as [A2|A2]; rewrite A2 in Q; [|exact Q].
      unfold upd in Q. destruct (N.eqb d c); [congruence|exact Q]. }
    destruct (eager k); [apply Main|]. destruct (cell_present s c) eqn:Cp; [apply Main|].
    set (s3 := set_staged _ _). pose proof (record_staged_fields c (staged s c) (Some f) s3) as RF. cbn zeta in RF. destruct RF as (R1 & R2 & R3 & R4 & R5 & R6).
    pose proof (record_staged_log c (staged s c) (Some f) s3 C) as RL. set (s' := record_staged _ _ _ _) in *.
    assert (Vc : delta s c = None).
    { destruct (delta s c) eqn:Dc; auto. exfalso. unfold cell_present in Cp. destruct (vmap (gr s) c) eqn:Vm; [discriminate|]. apply (Dv c); congruence. }
    split; [eapply vis_fields; [exact R1|exact R3|]; eapply vis_fields; [| |exact V]; reflexivity|].
    split. { intros d g Q. rewrite R2 in Q. rewrite R3. cbn in *. unfold upd in Q. destruct (N.eqb_spec d c) as [Ec|Ec]; [subst; exact Vc|eauto]. }
    split. { destruct RL as [[_ Q]|[_ Q]]; destruct Q as (_ & _ & _ & _ & Q); rewrite Q; exact C. }
    split; [rewrite R6; exact Un|]. rewrite R3, R1. exact Dv.
  - inversion E; subst s'. clear E. split; [eapply vis_fields; [| |exact V]; reflexivity|]. split; auto. split; [now apply begin_nocap|]. split; auto.
  - inversion E; subst s'. clear E. split; [eapply vis_fields; [| |exact V]; reflexivity|]. split; auto. split; [now apply end_nocap|]. split; auto.
  - inversion E; subst s'. clear E. destruct (vis_build order s V Cm) as (A1 & A2 & A3 & A4 & A5 & A6). unfold evaluate.
    split; [eapply vis_fields; [| |exact A1]; reflexivity|]. split; [exact A2|]. split; [cbn; now rewrite build_log|]. split; [cbn; congruence|].
    cbn. rewrite A4. intros c Q. eapply mono_ne; eauto.
Qed.
Lemma fresh_run : forall k os s s', (forall o, In o os -> is_history o = false /\ is_cap o = false) -> fresh_inv s -> run k os s = Some s' -> fresh_inv s'.
Proof.
  intros k. induction os as [|o os IH]; intros s s' O V E; cbn in E; [congruence|]. destruct (step k o s) as [s1|] eqn:St; [|discriminate].
  destruct (O o (or_introl eq_refl)) as [O1 O2].
  eapply IH; [|eapply fresh_step; [exact O1|exact O2|exact V|exact St]|exact E]. intros; apply O; now right.
Qed.
Lemma fresh_up_to_date : forall k b os s order vals, (forall o, In o os -> is_history o = false /\ is_cap o = false) ->
  run k os (loaded b) = Some s -> up_to_date (evaluate order vals s) vals.
Proof.
  intros k b os s order vals O E. assert (V : fresh_inv s).
  { eapply fresh_run; eauto. split; [apply loaded_vis|]. split; [apply calm_none; reflexivity|]. split; [reflexivity|]. split; [reflexivity|]. intros c Q. now cbn in Q. }
  destruct V as (V & C & _). now apply eval_up_to_date.
Qed.

(** *** Dependents. *)
Definition linkedg (g : graph) : Prop :=
  forall d a f c, vmap g d = Some a -> vform g a = Some f -> In c (refs f) -> exists b, vmap g c = Some b /\ edge g a b = true.
Definition linv (g : graph) : Prop := wfg g /\ linkedg g.

Lemma linv_goc : forall c g g1 v, linv g -> get_or_create c g = (g1, v) -> linv g1 /\ edge g1 = edge g.
Proof.
  intros c g g1 v [W L] E. destruct (goc_ok _ _ _ _ W E) as (W1 & F1 & M1 & K1 & R1). unfold get_or_create in E.
  destruct (vmap g c) as [w|] eqn:M; inversion E; subst; clear E; [split; [split; auto|auto]|]. split; [|reflexivity]. split; auto.
  intros d a f x V F I. cbn in F. unfold upd in F. destruct (N.eqb_spec a (nextv g)); [discriminate|].
  destruct (R1 _ _ V) as [V'|V'].
  - destruct (L d a f x V' F I) as (b & B1 & B2). exists b. split; auto.
  - subst d. cbn in V. rewrite upd_eq in V. congruence.
Qed.
Lemma linv_create : forall l g g1 vs, linv g -> create_all l g = (g1, vs) -> linv g1.
Proof.
  induction l as [|c l IH]; intros g g1 vs L E; cbn in E; [congruence|].
  destruct (get_or_create c g) as [ga v] eqn:Ea. destruct (create_all l ga) as [gb vb] eqn:Eb. inversion E; subst.
  destruct (linv_goc _ _ _ _ L Ea). eauto.
Qed.
Lemma linv_value : forall c g, linv g -> linv (g_set_value c g).
Proof.
  intros c g L. unfold g_set_value. destruct (get_or_create c g) as [g1 v] eqn:E. destruct (linv_goc _ _ _ _ L E) as [[W1 L1] _].
  destruct (vform g1 v) as [f|] eqn:F; [|split; auto]. split; [eapply wfg_same; [| |exact W1]; reflexivity|].
  intros d a f' x V F' I. cbn in *. unfold upd in F'. destruct (N.eqb_spec a v) as [|Na]; [discriminate|].
  destruct (L1 d a f' x V F' I) as (b & B1 & B2). exists b. split; auto. unfold drop_out. rewrite B2. destruct (N.eqb_spec a v); [congruence|reflexivity].
Qed.
Lemma linv_formula : forall it c f g, linv g -> linv (fst (g_set_formula it c f g)).
Proof.
  intros it c f g L. unfold g_set_formula. destruct (create_all (refs f) g) as [g1 ds] eqn:E1. pose proof L as [W _].
  destruct (create_all_ok _ _ _ _ W E1) as (W1 & F1 & K1 & I1 & J1 & R1). pose proof (linv_create _ _ _ _ L E1) as L1.
  destruct (get_or_create c g1) as [g2 v] eqn:E2. destruct (goc_ok _ _ _ _ W1 E2) as (W2 & F2 & M2 & K2 & R2). destruct (linv_goc _ _ _ _ L1 E2) as [[_ L2] Ed].
  destruct (existsb (N.eqb v) ds && negb it)%bool; cbn [fst]; [split; auto|]. split; [eapply wfg_same; [| |exact W2]; reflexivity|].
  intros d a f' x V F' I. cbn in *. unfold upd in F'. destruct (N.eqb_spec a v) as [->|Na].
  - inversion F'; subst f'. destruct (J1 x I) as (b & B). exists b. split; auto. unfold add_out. rewrite N.eqb_refl.
    replace (existsb (N.eqb b) ds) with true; [now rewrite orb_true_r|]. symmetry. apply existsb_exists. exists b. split; [apply I1; eauto|apply N.eqb_refl].
  - destruct (L2 d a f' x V F' I) as (b & B1 & B2). exists b. split; auto. unfold add_out, drop_out. rewrite B2. destruct (N.eqb_spec a v); [congruence|reflexivity].
Qed.

Lemma linv_linked : forall s, linv (gr s) -> linked s.
Proof.
  intros s [W L] d f c F I. unfold form in F. destruct (vmap (gr s) d) as [a|] eqn:V; [|discriminate].
  destruct (L d a f c V F I) as (b & B1 & B2). unfold dependent. now rewrite V, B1.
Qed.
Lemma build_linv : forall order s, linv (gr s) -> linv (gr (build order s)) /\ undone (build order s) = undone s.
Proof.
  unfold build. induction order as [|c order IH]; intros s L; cbn [fold_left]; auto. destruct (staged s c) as [f|]; [|auto].
  destruct (IH (set_staged (upd (staged s) c None) (set_gr (fst (g_set_formula true c f (gr s))) s))) as [A B]; [cbn; now apply linv_formula|auto].
Qed.

Lemma ed_formula_fields : forall k c f old s, gr (ed_set_formula k c f old s) = fst (g_set_formula (iter k) c f (gr s)) /\ undone (ed_set_formula k c f old s) = undone s.
Proof. intros. unfold ed_set_formula. destruct (g_set_formula (iter k) c f (gr s)) as [g []]; split; reflexivity. Qed.

Lemma link_step : forall k o s s', is_undo o = false -> linv (gr s) /\ undone s = [] -> step k o s = Some s' -> linv (gr s') /\ undone s' = [].
Proof.
  intros k o s s' O [L Un] E. destruct o as [c v|c f| | | | |order vals|cp]; cbn [step is_undo] in *; try discriminate; inversion E; subst s'; clear E.
  - unfold set_value. match goal with |- context [record_staged ?a ?b ?d ?s3] => pose proof (record_staged_fields a b d s3) as RF end. cbn zeta in RF.
    destruct RF as (R1 & _ & _ & _ & _ & R6). rewrite R1, R6. cbn. split; auto. now apply linv_value.
  - assert (Main : forall old, let s' := record_staged c (staged s c) None
     (set_staged (upd (staged (edit_with_logger (ed_set_formula k c f old) s)) c None) (edit_with_logger (ed_set_formula k c f old) s)) in linv (gr s') /\ undone s' = []).
    { intros old. cbn zeta. match goal with |- context [record_staged ?a ?b ?d ?s3] => pose proof (record_staged_fields a b d s3) as RF end. cbn zeta in RF.
      destruct RF as (R1 & _ & _ & _ & _ & R6). rewrite R1, R6. destruct (ed_formula_fields k c f old s) as [G U].
      cbn [gr undone set_staged edit_with_logger set_delta]. rewrite G, U. split; auto. now apply linv_formula. }
    unfold set_formula. destruct (eager k); [apply Main|]. destruct (cell_present s c); [apply Main|].
    match goal with |- context [record_staged ?a ?b ?d ?s3] => pose proof (record_staged_fields a b d s3) as RF end. cbn zeta in RF.
    destruct RF as (R1 & _ & _ & _ & _ & R6). rewrite R1, R6. auto.
  - auto.
  - auto.
  - unfold redo. rewrite Un. auto.
  - destruct (build_linv order s L) as [A B]. split; cbn; auto. congruence.
  - auto.
Qed.
Lemma link_run : forall k os s s', (forall o, In o os -> is_undo o = false) -> linv (gr s) /\ undone s = [] -> run k os s = Some s' -> linv (gr s') /\ undone s' = [].
Proof.
  intros k. induction os as [|o os IH]; intros s s' O V E; cbn in E; [congruence|]. destruct (step k o s) as [s1|] eqn:St; [|discriminate].
  eapply IH; [|eapply link_step; [exact (O o (or_introl eq_refl))|exact V|exact St]|exact E]. intros; apply O; now right.
Qed.
Lemma no_undo_linked : forall k b os s, (forall o, In o os -> is_undo o = false) -> run k os (loaded b) = Some s -> linked s.
Proof.
  intros k b os s O E. apply linv_linked. eapply link_run; eauto. split; auto. split; [split; discriminate|]. intros d a f c Q. discriminate.
Qed.
