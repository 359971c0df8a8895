(** Graph lemmas and the effect of events on contents. *)
From Verif Require Import Base ListSort UndoModel UndoSpec.
From Coq Require Import ZifyN ZifyNat ZifyBool.

Lemma upd_eq : forall A (m : N -> A) k a, upd m k a k = a.
Proof. intros. unfold upd. now rewrite N.eqb_refl. Qed.
Lemma upd_ne : forall A (m : N -> A) k a k', k' <> k -> upd m k a k' = m k'.
Proof. intros. unfold upd. destruct (N.eqb_spec k' k); congruence. Qed.

Definition wfg (g : graph) : Prop :=
  (forall c v, vmap g c = Some v -> (v < nextv g)%N) /\
  (forall c c' v, vmap g c = Some v -> vmap g c' = Some v -> c = c').

Lemma goc_ok : forall c g g1 v, wfg g -> get_or_create c g = (g1, v) ->
  wfg g1 /\ (forall d, form g1 d = form g d) /\ vmap g1 c = Some v /\
  (forall d w, vmap g d = Some w -> vmap g1 d = Some w) /\
  (forall d w, vmap g1 d = Some w -> vmap g d = Some w \/ d = c).
Proof.
  intros c g g1 v [W1 W2] E. unfold get_or_create in E. destruct (vmap g c) as [w|] eqn:M; inversion E; subst; clear E.
  - repeat split; auto.
  - assert (P : forall d w, upd (vmap g) c (Some (nextv g)) d = Some w -> (d = c /\ w = nextv g) \/ (d <> c /\ vmap g d = Some w)).
    { intros d w. unfold upd. destruct (N.eqb_spec d c); intros Q; [left|right]; split; congruence. }
    repeat split; cbn.
    + intros d w Q. destruct (P _ _ Q) as [[-> ->]|[_ Q']]; [lia|]. specialize (W1 _ _ Q'). lia.
    + intros d d' w Q Q'. destruct (P _ _ Q) as [[-> ->]|[D R]]; destruct (P _ _ Q') as [[-> R']|[D' R']]; auto.
      * specialize (W1 _ _ R'). lia.
      * subst. specialize (W1 _ _ R). lia.
      * eauto.
    + intros d. unfold form. cbn. unfold upd at 1. destruct (N.eqb_spec d c) as [->|D].
      * rewrite upd_eq, M. reflexivity.
      * destruct (vmap g d) as [w|] eqn:Q; auto. rewrite upd_ne; auto. specialize (W1 _ _ Q). lia.
    + apply upd_eq.
    + intros d w Q. rewrite upd_ne; auto. congruence.
    + intros d w Q. destruct (P _ _ Q) as [[-> _]|[_ R]]; auto.
Qed.

Lemma create_all_ok : forall l g g1 vs, wfg g -> create_all l g = (g1, vs) ->
  wfg g1 /\ (forall d, form g1 d = form g d) /\
  (forall d w, vmap g d = Some w -> vmap g1 d = Some w) /\
  (forall w, In w vs <-> exists c, In c l /\ vmap g1 c = Some w) /\
  (forall c, In c l -> exists w, vmap g1 c = Some w) /\
  (forall d w, vmap g1 d = Some w -> vmap g d = Some w \/ In d l).
Proof.
  induction l as [|c l IH]; intros g g1 vs W E; cbn in E.
  - inversion E; subst. split; auto. split; auto. split; auto. split.
    + intros w. split; [intros []|intros (c & [] & _)].
    + split; [intros c []|auto].
  - destruct (get_or_create c g) as [ga v] eqn:Ea. destruct (create_all l ga) as [gb vb] eqn:Eb. inversion E; subst; clear E.
    destruct (goc_ok _ _ _ _ W Ea) as (Wa & Fa & Ma & Ka & Ra). destruct (IH _ _ _ Wa Eb) as (Wb & Fb & Kb & Ib & Jb & Rb).
    split; auto. split. { intros d. now rewrite Fb, Fa. } split; [auto|]. split; [|split].
    + intros w. cbn. rewrite Ib. split.
      * intros [<-|(d & D1 & D2)]; [exists c|exists d]; auto.
      * intros (d & [<-|D1] & D2); [left|right; eauto]. specialize (Kb _ _ Ma). congruence.
    + intros d [<-|D]; eauto.
    + intros d w D. destruct (Rb _ _ D) as [D'|D']; cbn; auto. destruct (Ra _ _ D'); auto.
Qed.

Lemma wfg_same : forall g g', vmap g' = vmap g -> nextv g' = nextv g -> wfg g -> wfg g'.
Proof. intros g g' V E [A B]. split; intros; rewrite V in *; [rewrite E|]; eauto. Qed.

Lemma g_set_value_ok : forall c g, wfg g -> wfg (g_set_value c g) /\ forall d, form (g_set_value c g) d = upd (form g) c None d.
Proof.
  intros c g W. unfold g_set_value. destruct (get_or_create c g) as [g1 v] eqn:E.
  destruct (goc_ok _ _ _ _ W E) as (W1 & F1 & M1 & K1 & R1). destruct (vform g1 v) as [f|] eqn:Q.
  - split; [eapply wfg_same; [| |exact W1]; reflexivity|]. intros d. unfold form at 1. cbn.
    unfold upd at 2. destruct (N.eqb_spec d c) as [->|D].
    + rewrite M1. apply upd_eq.
    + rewrite <- F1. unfold form. destruct (vmap g1 d) as [w|] eqn:V; auto. rewrite upd_ne; auto. intros ->.
      apply D. destruct W1 as [_ I]. eapply I; eauto.
  - split; auto. intros d. unfold upd. destruct (N.eqb_spec d c) as [->|D]; [|apply F1]. unfold form. now rewrite M1.
Qed.

Lemma g_remove_ok : forall c g, wfg g -> wfg (g_remove c g) /\ forall d, form (g_remove c g) d = upd (form g) c None d.
Proof.
  intros c g [W1 W2]. unfold g_remove. destruct (vmap g c) as [v|] eqn:M.
  - assert (P : forall d w, upd (vmap g) c None d = Some w -> d <> c /\ vmap g d = Some w).
    { intros d w. unfold upd. destruct (N.eqb_spec d c); intros; split; congruence. }
    split; [split; cbn|].
    + intros d w Q. apply P in Q. destruct Q. eauto.
    + intros d d' w Q Q'. apply P in Q. apply P in Q'. destruct Q, Q'. eauto.
    + intros d. unfold form at 1. cbn. unfold upd. destruct (N.eqb_spec d c) as [->|D]; auto.
      unfold form. destruct (vmap g d) as [w|] eqn:V; auto. destruct (N.eqb_spec w v) as [->|]; auto.
      exfalso. apply D. eauto.
  - split; [split; auto|]. intros d. unfold upd. destruct (N.eqb_spec d c) as [->|]; auto. unfold form. now rewrite M.
Qed.

Definition okref (k : cfg) (c : cell) (f : formula) : Prop := iter k = true \/ ~ In c (refs f).

Lemma g_set_formula_ok : forall k c f g, wfg g -> okref k c f ->
  wfg (fst (g_set_formula (iter k) c f g)) /\ snd (g_set_formula (iter k) c f g) = true /\
  forall d, form (fst (g_set_formula (iter k) c f g)) d = upd (form g) c (Some f) d.
Proof.
  intros k c f g W O. unfold g_set_formula. destruct (create_all (refs f) g) as [g1 ds] eqn:E1.
  destruct (create_all_ok _ _ _ _ W E1) as (W1 & F1 & K1 & I1 & J1 & R1).
  destruct (get_or_create c g1) as [g2 v] eqn:E2. destruct (goc_ok _ _ _ _ W1 E2) as (W2 & F2 & M2 & K2 & R2).
  assert (B : (existsb (N.eqb v) ds && negb (iter k))%bool = false).
  { apply andb_false_iff. destruct O as [O|O]; [right; now rewrite O|left].
    apply not_true_is_false. intros Q. apply existsb_exists in Q. destruct Q as (w & Iw & Ew). apply N.eqb_eq in Ew. subst w.
    apply I1 in Iw. destruct Iw as (d & D1 & D2). apply O. destruct W2 as [_ W2]. rewrite (W2 c d v); auto. }
  rewrite B. cbn [fst snd]. split; [eapply wfg_same; [| |exact W2]; reflexivity|]. split; auto.
  intros d. unfold form at 1. cbn. unfold upd at 2. destruct (N.eqb_spec d c) as [->|D].
  - rewrite M2. apply upd_eq.
  - rewrite <- F1, <- F2. unfold form. destruct (vmap g2 d) as [w|] eqn:V; auto. rewrite upd_ne; auto. intros ->.
    apply D. destruct W2 as [_ I]. eapply I; eauto.
Qed.

(** *** Fine contents. *)
Definition fine := cell -> option formula * shown.
Definition item_at (s : st) (c : cell) : shown := match form (gr s) c with Some f => ShowF f | None => ShowV (read s c) end.
Definition fine_of (s : st) : fine := fun c => (staged s c, item_at s c).
Definition showK (K : fine) : contents := fun c => match fst (K c) with Some f => ShowF f | None => snd (K c) end.
Lemma show_fine : forall s c, show s c = showK (fine_of s) c.
Proof. intros. unfold show, showK, fine_of, item_at. cbn. reflexivity. Qed.

Definition eqf {A} (K K' : N -> A) : Prop := forall c, K c = K' c.
Lemma eqf_refl : forall A (K : N -> A), eqf K K. Proof. intros A K c. reflexivity. Qed.
Lemma eqf_sym : forall A (K K' : N -> A), eqf K K' -> eqf K' K. Proof. intros A K K' H c. now rewrite H. Qed.
Lemma eqf_trans : forall A (K K' K'' : N -> A), eqf K K' -> eqf K' K'' -> eqf K K''. Proof. intros A K K' K'' H H' c. now rewrite H. Qed.

Definition old_item (ov : option value) (of : option formula) : shown :=
  match of with Some f => ShowF f | None => ShowV (or_empty ov) end.
Definition ok_old (k : cfg) (c : cell) (of : option formula) : Prop := match of with Some f => okref k c f | None => True end.
Definition ev_pre (k : cfg) (e : event) (K : fine) : Prop :=
  match e with
  | ESetValue c ov of _ => snd (K c) = old_item ov of /\ ok_old k c of
  | ESetFormula c ov of f => snd (K c) = old_item ov of /\ ok_old k c of /\ okref k c f
  | EStaged c o _ => fst (K c) = o
  | _ => True
  end.
Definition ev_post (e : event) (K : fine) : fine :=
  match e with
  | ESetValue c _ _ v => upd K c (fst (K c), ShowV v)
  | ESetFormula c _ _ f => upd K c (fst (K c), ShowF f)
  | EStaged c _ n => upd K c (n, snd (K c))
  | _ => K
  end.
Fixpoint expl (k : cfg) (es : list event) (K K' : fine) : Prop :=
  match es with [] => eqf K K' | e :: es' => ev_pre k e K /\ expl k es' (ev_post e K) K' end.

Lemma ev_pre_ext : forall k e K K', eqf K K' -> ev_pre k e K -> ev_pre k e K'.
Proof. intros k e K K' H. destruct e; cbn; auto; rewrite <- (H c); auto. Qed.
Lemma ev_post_ext : forall e K K', eqf K K' -> eqf (ev_post e K) (ev_post e K').
Proof. intros e K K' H. destruct e; cbn; auto; intros d; unfold upd; rewrite (H c), (H d); auto. Qed.
Lemma expl_ext : forall k es K K' J J', eqf K J -> eqf K' J' -> expl k es K K' -> expl k es J J'.
Proof.
  intros k. induction es as [|e es IH]; cbn; intros K K' J J' H H' X.
  - eapply eqf_trans; [apply eqf_sym; eauto|]. eapply eqf_trans; eauto.
  - destruct X as [P X]. split; [eapply ev_pre_ext; eauto|]. eapply IH; [|exact H'|exact X]. now apply ev_post_ext.
Qed.
Lemma expl_app : forall k a b K K' K'', expl k a K K' -> expl k b K' K'' -> expl k (a ++ b) K K''.
Proof.
  intros k. induction a as [|e a IH]; cbn; intros b K K' K'' X Y.
  - eapply expl_ext; [apply eqf_sym; exact X|apply eqf_refl|exact Y].
  - destruct X. split; eauto.
Qed.

Definition noself (k : cfg) (s : st) : Prop := forall c f, form (gr s) c = Some f -> okref k c f.
Definition sound (k : cfg) (s : st) : Prop := wfg (gr s) /\ noself k s.

(** One event, all three components. *)
Definition inv_all (k : cfg) (e : event) (s : st) : st :=
  set_delta (inv_delta e (delta s)) (set_staged (inv_staged e (staged s)) (set_gr (inv_graph k e (gr s)) s)).
Definition fwd_all (k : cfg) (s : st) (e : event) : st :=
  set_delta (fwd_delta e (delta s)) (set_staged (fwd_staged e (staged s)) (set_gr (fwd_graph k e (gr s)) s)).

Lemma item_other : forall s s' d, form (gr s') d = form (gr s) d -> delta s' d = delta s d -> comp s' = comp s -> base s' = base s ->
  item_at s' d = item_at s d.
Proof. intros s s' d F D C B. unfold item_at, read. now rewrite F, D, C, B. Qed.

Lemma set_shape : forall k s s' c i, sound k s ->
  wfg (gr s') -> (forall d, form (gr s') d = upd (form (gr s)) c (match i with ShowF f => Some f | ShowV _ => None end) d) ->
  (forall d, d <> c -> delta s' d = delta s d) -> comp s' = comp s -> base s' = base s ->
  (forall v, i = ShowV v -> delta s' c = Some v) -> (forall f, i = ShowF f -> okref k c f) ->
  sound k s' /\ forall d, item_at s' d = upd (item_at s) c i d.
Proof.
  intros k s s' c i [W Nn] W' F D C B V O. split; [split; auto|].
  - intros d f Q. rewrite F in Q. unfold upd in Q. destruct (N.eqb_spec d c) as [->|E]; [|eauto].
    destruct i; inversion Q; subst. auto.
  - intros d. unfold upd. destruct (N.eqb_spec d c) as [->|E].
    + unfold item_at. rewrite F, upd_eq. destruct i as [f|v]; auto. unfold read. now rewrite (V v).
    + apply item_other; auto. rewrite F. now apply upd_ne.
Qed.

Lemma inv_ok : forall k e s K, sound k s -> ev_pre k e K -> eqf (fine_of s) (ev_post e K) ->
  sound k (inv_all k e s) /\ eqf (fine_of (inv_all k e s)) K.
Proof.
  intros k e s K S P H. destruct e as [c ov of v|c ov of f|c o n| | ]; cbn in P.
  - destruct P as [P O]. destruct (set_shape k s (inv_all k (ESetValue c ov of v) s) c (old_item ov of)) as [S' I]; auto.
    + cbn. destruct S as [W _]. destruct of as [f|]; [apply g_set_formula_ok; auto|]. destruct ov; [apply g_set_value_ok|apply g_remove_ok]; auto.
    + cbn. destruct S as [W _]. destruct of as [f|]; [apply g_set_formula_ok; auto|]. destruct ov; [apply g_set_value_ok|apply g_remove_ok]; auto.
    + cbn. intros d D. destruct of; now rewrite upd_ne.
    + cbn. intros w. destruct of; cbn; [discriminate|]. intros Q. inversion Q. apply upd_eq.
    + intros f Q. destruct of; inversion Q; subst; auto.
    + split; auto. intros d. unfold fine_of. rewrite I. cbn [inv_all staged set_delta set_staged inv_staged]. specialize (H d).
      unfold fine_of, ev_post in H. unfold upd in H |- *. destruct (N.eqb_spec d c) as [E|E]; [subst d|].
      * inversion H. rewrite (surjective_pairing (K c)). congruence.
      * exact H.
  - destruct P as (P & O & O'). destruct (set_shape k s (inv_all k (ESetFormula c ov of f) s) c (old_item ov of)) as [S' I]; auto.
    + cbn. destruct S as [W _]. destruct of as [f'|]; [apply g_set_formula_ok; auto|]. destruct ov; [apply g_set_value_ok|apply g_remove_ok]; auto.
    + cbn. destruct S as [W _]. destruct of as [f'|]; [apply g_set_formula_ok; auto|]. destruct ov; [apply g_set_value_ok|apply g_remove_ok]; auto.
    + cbn. intros d D. destruct of; now rewrite upd_ne.
    + cbn. intros w. destruct of; cbn; [discriminate|]. intros Q. inversion Q. apply upd_eq.
    + intros f' Q. destruct of; inversion Q; subst; auto.
    + split; auto. intros d. unfold fine_of. rewrite I. cbn [inv_all staged set_delta set_staged inv_staged]. specialize (H d).
      unfold fine_of, ev_post in H. unfold upd in H |- *. destruct (N.eqb_spec d c) as [E|E]; [subst d|].
      * inversion H. rewrite (surjective_pairing (K c)). congruence.
      * exact H.
  - split; [exact S|]. intros d. specialize (H d). unfold fine_of in *. cbn in *. unfold upd in H |- *. destruct (N.eqb_spec d c) as [E|E]; [subst d|].
    + inversion H. rewrite (surjective_pairing (K c)). f_equal; auto.
    + exact H.
  - split; auto.
  - split; auto.
Qed.

Lemma fwd_ok : forall k e s K, sound k s -> ev_pre k e K -> eqf (fine_of s) K ->
  sound k (fwd_all k s e) /\ eqf (fine_of (fwd_all k s e)) (ev_post e K).
Proof.
  intros k e s K S P H. destruct e as [c ov of v|c ov of f|c o n| | ]; cbn in P.
  - destruct (set_shape k s (fwd_all k s (ESetValue c ov of v)) c (ShowV v)) as [S' I]; auto.
    + cbn. apply g_set_value_ok. apply S.
    + cbn. apply g_set_value_ok. apply S.
    + cbn. intros d D. now rewrite upd_ne.
    + intros w Q. inversion Q. apply upd_eq.
    + discriminate.
    + split; auto. intros d. unfold fine_of. rewrite I. cbn [fwd_all staged set_delta set_staged fwd_staged]. pose proof (H d) as Hd.
      unfold fine_of, ev_post, upd in Hd |- *. destruct (N.eqb_spec d c) as [E|E]; [subst d|]; auto. now rewrite <- Hd.
  - destruct P as (P & O & O'). destruct (set_shape k s (fwd_all k s (ESetFormula c ov of f)) c (ShowF f)) as [S' I]; auto.
    + cbn. apply g_set_formula_ok; auto. apply S.
    + cbn. apply g_set_formula_ok; auto. apply S.
    + cbn. intros d D. now rewrite upd_ne.
    + discriminate.
    + intros f' Q. inversion Q; subst; auto.
    + split; auto. intros d. unfold fine_of. rewrite I. cbn [fwd_all staged set_delta set_staged fwd_staged]. pose proof (H d) as Hd.
      unfold fine_of, ev_post, upd in Hd |- *. destruct (N.eqb_spec d c) as [E|E]; [subst d|]; auto. now rewrite <- Hd.
  - split; [exact S|]. intros d. pose proof (H d) as Hd. unfold fine_of in *. cbn in *. unfold upd. destruct (N.eqb_spec d c) as [E|E]; [subst d|]; auto.
    rewrite <- Hd. reflexivity.
  - split; auto.
  - split; auto.
Qed.

(** The three passes are the event-by-event replay. *)
Lemma inv_fold : forall k es s, let s' := fold_right (inv_all k) s es in
  gr s' = fold_right (inv_graph k) (gr s) es /\ staged s' = fold_right inv_staged (staged s) es /\
  delta s' = fold_right inv_delta (delta s) es /\ comp s' = comp s /\ base s' = base s /\ log s' = log s /\ undone s' = undone s.
Proof.
  intros k. induction es as [|e es IH]; intros s; cbn [fold_right]; [repeat split; reflexivity|].
  specialize (IH s). cbn in IH. destruct IH as (A & B & C & D & E & F & G). cbn [fold_right inv_all gr staged delta comp base log undone set_delta set_staged set_gr].
  rewrite A, B, C. repeat split; auto.
Qed.
Lemma fwd_fold : forall k es s, let s' := fold_left (fwd_all k) es s in
  gr s' = fold_left (fun g e => fwd_graph k e g) es (gr s) /\ staged s' = fold_left (fun x e => fwd_staged e x) es (staged s) /\
  delta s' = fold_left (fun d e => fwd_delta e d) es (delta s) /\ comp s' = comp s /\ base s' = base s /\ log s' = log s /\ undone s' = undone s.
Proof.
  intros k. induction es as [|e es IH]; intros s; cbn [fold_left]; [repeat split; reflexivity|].
  specialize (IH (fwd_all k s e)). cbn in IH. exact IH.
Qed.

Lemma inv_batch : forall k es s K, sound k s -> expl k es K (fine_of s) ->
  sound k (fold_right (inv_all k) s es) /\ eqf (fine_of (fold_right (inv_all k) s es)) K.
Proof.
  intros k. induction es as [|e es IH]; intros s K S X; cbn in *.
  - split; auto. now apply eqf_sym.
  - destruct X as [P X]. destruct (IH s _ S X) as [S' H]. apply inv_ok; auto.
Qed.
Lemma fwd_batch : forall k es s K K', sound k s -> eqf (fine_of s) K -> expl k es K K' ->
  sound k (fold_left (fwd_all k) es s) /\ eqf (fine_of (fold_left (fwd_all k) es s)) K'.
Proof.
  intros k. induction es as [|e es IH]; intros s K K' S H X; cbn in *.
  - split; auto. eapply eqf_trans; eauto.
  - destruct X as [P X]. destruct (fwd_ok k e s K S P H) as [S' H']. eapply IH; eauto.
Qed.
Lemma fine_fields : forall s s', gr s = gr s' -> staged s = staged s' -> delta s = delta s' -> comp s = comp s' -> base s = base s' ->
  fine_of s = fine_of s'.
Proof. intros [] [] ; cbn; intros; subst; reflexivity. Qed.
