(** Edits extend the explanation of the contents given by the log. *)
From Verif Require Import Base ListSort UndoModel UndoSpec UndoProofs.
From Coq Require Import ZifyN ZifyNat ZifyBool.

Lemma list_eqb_true : forall x y : list N, (fix eq (x y : list N) := match x, y with
     | [], [] => true | p :: x', q :: y' => (N.eqb p q && eq x' y')%bool | _, _ => false end) x y = true -> x = y.
Proof. induction x as [|a x IH]; destruct y; intros H; try discriminate; auto. apply andb_true_iff in H. destruct H as [A B]. apply N.eqb_eq in A. f_equal; auto. Qed.
Lemma formula_eqb_true : forall a b, formula_eqb a b = true -> a = b.
Proof. intros [a l] [b m] H. unfold formula_eqb in H. apply andb_true_iff in H. destruct H as [A B]. cbn in *. apply N.eqb_eq in A. apply list_eqb_true in B. congruence. Qed.
Lemma staged_eqb_true : forall a b, staged_eqb a b = true -> a = b.
Proof. intros [a|] [b|] H; try discriminate; auto. cbn in H. f_equal. now apply formula_eqb_true. Qed.

(** The log with [es] appended in the current group. *)
Definition extends (l l' : clog) (es : list event) : Prop :=
  events l' = events l ++ map (fun e => (e, hd_error (gstack l))) es /\
  depth l' = depth l /\ gstack l' = gstack l /\ nextg l' = nextg l /\ cap l' = cap l.

Lemma record_nocap : forall e l, cap l = None -> extends l (record e l) [e].
Proof. intros e l C. unfold record, enforce_cap. cbn [cap]. rewrite C. repeat split; auto. Qed.
Lemma extends_nil : forall l, extends l l [].
Proof. intros l. repeat split. cbn. now rewrite app_nil_r. Qed.
Lemma extends_trans : forall l l1 l2 a b, extends l l1 a -> extends l1 l2 b -> extends l l2 (a ++ b).
Proof.
  intros l l1 l2 a b (A1 & A2 & A3 & A4 & A5) (B1 & B2 & B3 & B4 & B5). repeat split; try congruence.
  rewrite B1, A1, A3, map_app, app_assoc. reflexivity.
Qed.

Lemma skipn_app_len : forall A (a b : list A), skipn (length a) (a ++ b) = b.
Proof. intros. rewrite skipn_app, skipn_all, Nat.sub_diag. reflexivity. Qed.

Lemma map_fst_tag : forall (g : option N) es, map fst (map (fun e : event => (e, g)) es) = es.
Proof. intros. rewrite map_map. cbn. apply map_id. Qed.

Lemma ewl_one : forall f s e, extends (log s) (log (f s)) [e] ->
  edit_with_logger f s = set_delta (fwd_delta e (delta (f s))) (f s).
Proof. intros f s e (A & _). unfold edit_with_logger. rewrite A, skipn_app_len. reflexivity. Qed.
Lemma ewl_none : forall f s, extends (log s) (log (f s)) [] -> edit_with_logger f s = set_delta (delta (f s)) (f s).
Proof. intros f s (A & _). unfold edit_with_logger. rewrite A, skipn_app_len. reflexivity. Qed.

Lemma read_or_empty : forall s c, or_empty (cell_value s c) = read s c.
Proof. intros s c. unfold cell_value, or_empty. destruct (N.eqb_spec (read s c) vempty); auto. Qed.
Lemma item_old : forall s c, item_at s c = old_item (cell_value s c) (form (gr s) c).
Proof. intros s c. unfold item_at, old_item. destruct (form (gr s) c); auto. now rewrite read_or_empty. Qed.

Definition quietK (k : cfg) (K : fine) : Prop := eager k = true -> forall c, fst (K c) = None.
Definition apply_edit (k : cfg) (e : edit) (s : st) : st :=
  match e with EdValue c v => set_value c v s | EdFormula c f => set_formula k c f s end.
Lemma step_edit : forall k e s, step k (edit_op e) s = Some (apply_edit k e s).
Proof. intros k [c v|c f] s; reflexivity. Qed.

Lemma record_staged_fields : forall c a b s, let s' := record_staged c a b s in
  gr s' = gr s /\ staged s' = staged s /\ delta s' = delta s /\ comp s' = comp s /\ base s' = base s /\ undone s' = undone s.
Proof. intros. unfold s', record_staged. destruct (staged_eqb a b); repeat split. Qed.

Lemma record_staged_log : forall c a b s, cap (log s) = None ->
  (a = b /\ extends (log s) (log (record_staged c a b s)) []) \/ (staged_eqb a b = false /\ extends (log s) (log (record_staged c a b s)) [EStaged c a b]).
Proof.
  intros c a b s C. unfold record_staged. destruct (staged_eqb a b) eqn:E.
  - left. split; [now apply staged_eqb_true|apply extends_nil].
  - right. split; auto. cbn. now apply record_nocap.
Qed.

(** Setting the item of a cell and clearing its staged text. *)
Lemma direct_edit : forall k s s' c i es1, sound k s ->
  sound k s' -> (forall d, item_at s' d = upd (item_at s) c i d) -> (forall d, staged s' d = upd (staged s) c None d) ->
  (staged s c = None -> expl k [es1] (fine_of s) (fun d => (staged s d, item_at s' d))) ->
  ev_pre k es1 (fine_of s) -> (forall d, ev_post es1 (fine_of s) d = (staged s d, item_at s' d)) ->
  expl k (if match staged s c with Some _ => true | None => false end then [es1; EStaged c (staged s c) None] else [es1]) (fine_of s) (fine_of s') /\
  eqf (show s') (upd (show s) c i).
Proof.
  intros k s s' c i es1 S S' I T _ P Q. split.
  - destruct (staged s c) as [f|] eqn:E; cbn.
    + split; auto. split; [rewrite Q; cbn; auto|]. intros d. unfold fine_of at 1. unfold upd.
      destruct (N.eqb_spec d c) as [X|X]; [subst d|].
      * rewrite Q. cbn. unfold fine_of. rewrite T, upd_eq. reflexivity.
      * rewrite Q. unfold fine_of. rewrite T, upd_ne; auto.
    + split; auto. intros d. rewrite Q. unfold fine_of. rewrite T. unfold upd. destruct (N.eqb_spec d c) as [X|X]; [subst d|]; congruence.
  - intros d. rewrite show_fine. unfold showK, fine_of. cbn. rewrite T, I. unfold upd. destruct (N.eqb_spec d c); auto.
Qed.

Lemma set_value_ok : forall k c v s, sound k s -> cap (log s) = None -> exists es,
  extends (log s) (log (set_value c v s)) es /\ undone (set_value c v s) = undone s /\ sound k (set_value c v s) /\
  expl k es (fine_of s) (fine_of (set_value c v s)) /\ eqf (show (set_value c v s)) (upd (show s) c (ShowV v)) /\
  (staged s c = None -> exists e, es = [e]) /\ (quietK k (fine_of s) -> quietK k (fine_of (set_value c v s))).
Proof.
  intros k c v s S C. unfold set_value.
  set (e1 := ESetValue c (cell_value s c) (form (gr s) c) v).
  assert (X1 : extends (log s) (log (ed_set_value c v (cell_value s c) s)) [e1]) by (cbn; now apply record_nocap).
  rewrite (ewl_one _ _ e1 X1).
  set (s3 := set_staged _ _).
  pose proof (record_staged_fields c (staged s c) None s3) as RF. cbn zeta in RF. destruct RF as (R1 & R2 & R3 & R4 & R5 & R6).
  assert (C3 : cap (log s3) = None) by (cbn; destruct X1 as (_ & _ & _ & _ & X); cbn in X; now rewrite X).
  assert (RL := record_staged_log c (staged s c) None s3 C3).
  set (s' := record_staged c (staged s c) None s3) in *.
  destruct (set_shape k s s' c (ShowV v)) as [S' I]; auto.
  { rewrite R1. cbn. apply g_set_value_ok. apply S. }
  { rewrite R1. cbn. apply g_set_value_ok. apply S. }
  { rewrite R3. cbn. intros d D. rewrite !upd_ne; auto. }
  { rewrite R3. cbn. intros w Q. inversion Q. apply upd_eq. }
  { discriminate. }
  assert (T : forall d, staged s' d = upd (staged s) c None d) by (intros d; rewrite R2; reflexivity).
  assert (P : ev_pre k e1 (fine_of s)).
  { cbn. split; [apply item_old|]. unfold ok_old. destruct (form (gr s) c) eqn:E; auto. destruct S as [_ Nn]. eauto. }
  assert (Q : forall d, ev_post e1 (fine_of s) d = (staged s d, item_at s' d)).
  { intros d. cbn. rewrite I. unfold upd, fine_of. destruct (N.eqb_spec d c) as [X|X]; [subst d|]; auto. }
  destruct (direct_edit k s s' c (ShowV v) e1) as [E1 E2]; auto.
  { intros _. split; auto. }
  eexists. split; [|split; [|split; [exact S'|split; [exact E1|split; [exact E2|split]]]]].
  - destruct RL as [[B RL]|[B RL]].
    + rewrite B. apply (extends_trans _ _ _ [e1] [] X1). exact RL.
    + destruct (staged s c); [|discriminate]. apply (extends_trans _ _ _ [e1] [_] X1). exact RL.
  - rewrite R6. reflexivity.
  - intros ->. eauto.
  - intros H E d. cbn. rewrite T. specialize (H E d). cbn in H. unfold upd. destruct (N.eqb d c); auto.
Qed.

Lemma ed_set_formula_ok : forall k c f old s, sound k s -> cap (log s) = None -> okref k c f ->
  let s1 := ed_set_formula k c f old s in let e1 := ESetFormula c old (form (gr s) c) f in
  extends (log s) (log s1) [e1] /\ edit_with_logger (ed_set_formula k c f old) s = set_delta (fwd_delta e1 (delta s)) s1 /\
  gr s1 = fst (g_set_formula (iter k) c f (gr s)) /\ staged s1 = staged s /\ delta s1 = delta s /\ comp s1 = comp s /\ base s1 = base s /\ undone s1 = undone s.
Proof.
  intros k c f old s [W Nn] C O. destruct (g_set_formula_ok k c f (gr s) W O) as (_ & B & _).
  cbn zeta.
  assert (X : extends (log s) (log (ed_set_formula k c f old s)) [ESetFormula c old (form (gr s) c) f]).
  { unfold ed_set_formula. destruct (g_set_formula (iter k) c f (gr s)) as [g ok]. cbn in B. subst ok. cbn. now apply record_nocap. }
  split; auto. split.
  { rewrite (ewl_one _ _ _ X). f_equal. f_equal. unfold ed_set_formula. destruct (g_set_formula (iter k) c f (gr s)) as [g ok]. destruct ok; reflexivity. }
  unfold ed_set_formula. destruct (g_set_formula (iter k) c f (gr s)) as [g ok]. cbn in B. subst ok. repeat split.
Qed.

Lemma graph_formula_ok : forall k c f old s, sound k s -> cap (log s) = None -> okref k c f ->
  old_item old (form (gr s) c) = item_at s c ->
  let s' := record_staged c (staged s c) None
     (set_staged (upd (staged (edit_with_logger (ed_set_formula k c f old) s)) c None) (edit_with_logger (ed_set_formula k c f old) s)) in
  exists es, extends (log s) (log s') es /\ undone s' = undone s /\ sound k s' /\
  expl k es (fine_of s) (fine_of s') /\ eqf (show s') (upd (show s) c (ShowF f)) /\
  (staged s c = None -> exists e, es = [e]) /\ (quietK k (fine_of s) -> quietK k (fine_of s')).
Proof.
  intros k c f old s S C O OI s'.
  destruct (ed_set_formula_ok k c f old s S C O) as (X1 & X2 & G1 & G2 & G3 & G4 & G5 & G6). cbn zeta in *.
  set (e1 := ESetFormula c old (form (gr s) c) f) in *. set (s1 := ed_set_formula k c f old s) in *.
  unfold s'. rewrite X2. clear s'. set (s3 := set_staged _ _).
  pose proof (record_staged_fields c (staged s c) None s3) as RF. cbn zeta in RF. destruct RF as (R1 & R2 & R3 & R4 & R5 & R6).
  assert (C3 : cap (log s3) = None) by (cbn; destruct X1 as (_ & _ & _ & _ & X); now rewrite X).
  assert (RL := record_staged_log c (staged s c) None s3 C3).
  set (s' := record_staged c (staged s c) None s3) in *.
  destruct (set_shape k s s' c (ShowF f)) as [S' I]; auto.
  { rewrite R1. cbn. rewrite G1. apply g_set_formula_ok; auto. apply S. }
  { rewrite R1. cbn. rewrite G1. apply g_set_formula_ok; auto. apply S. }
  { rewrite R3. cbn. intros d D. rewrite !upd_ne; auto. }
  { rewrite R4. cbn. auto. }
  { rewrite R5. cbn. auto. }
  { discriminate. }
  { intros f' Q. inversion Q; subst; auto. }
  assert (T : forall d, staged s' d = upd (staged s) c None d) by (intros d; rewrite R2; cbn; now rewrite G2).
  assert (P : ev_pre k e1 (fine_of s)).
  { cbn. split; [symmetry; exact OI|]. split; auto. unfold ok_old. destruct (form (gr s) c) eqn:E; auto. destruct S as [_ Nn]. eauto. }
  assert (Q : forall d, ev_post e1 (fine_of s) d = (staged s d, item_at s' d)).
  { intros d. cbn. rewrite I. unfold upd, fine_of. destruct (N.eqb_spec d c) as [X|X]; [subst d|]; auto. }
  destruct (direct_edit k s s' c (ShowF f) e1) as [E1 E2]; auto.
  { intros _. split; auto. }
  eexists. split; [|split; [|split; [exact S'|split; [exact E1|split; [exact E2|split]]]]].
  - destruct RL as [[B RL]|[B RL]].
    + rewrite B. apply (extends_trans _ _ _ [e1] [] X1). exact RL.
    + destruct (staged s c); [|discriminate]. apply (extends_trans _ _ _ [e1] [_] X1). exact RL.
  - rewrite R6. cbn. exact G6.
  - intros ->. eauto.
  - intros H E d. cbn. rewrite T. specialize (H E d). cbn in H. unfold upd. destruct (N.eqb d c); auto.
Qed.

Lemma edit_ok : forall k e s, sound k s -> cap (log s) = None -> fair_edit k e (show s) -> quietK k (fine_of s) -> exists es,
  let s' := apply_edit k e s in
  extends (log s) (log s') es /\ undone s' = undone s /\ sound k s' /\
  expl k es (fine_of s) (fine_of s') /\ eqf (show s') (write e (show s)) /\
  (staged s (ed_cell e) = None -> exists x, es = [x]) /\ quietK k (fine_of s').
Proof.
  intros k [c v|c f] s S C F Qt; cbn zeta; unfold apply_edit, write, ed_cell.
  - destruct (set_value_ok k c v s S C) as (es & A1 & A2 & A3 & A4 & A5 & A6 & A7). exists es. repeat (split; auto).
  - cbn in F. destruct F as [O E]. unfold set_formula. destruct (eager k) eqn:Eg; [|destruct (cell_present s c) eqn:Cp].
    + assert (T : forall d, staged s d = None) by (intros d; apply (Qt Eg)).
      destruct (graph_formula_ok k c f None s S C O) as (es & A1 & A2 & A3 & A4 & A5 & A6 & A7).
      { rewrite item_old. unfold old_item. destruct (form (gr s) c) eqn:Fc; auto. rewrite read_or_empty. f_equal. cbn. symmetry.
        apply (E eq_refl). unfold show. now rewrite T, Fc. }
      exists es. repeat (split; auto).
    + destruct (graph_formula_ok k c f (cell_value s c) s S C O) as (es & A1 & A2 & A3 & A4 & A5 & A6 & A7).
      { symmetry. apply item_old. }
      exists es. repeat (split; auto).
    + set (s3 := set_staged (upd (staged s) c (Some f)) s).
      pose proof (record_staged_fields c (staged s c) (Some f) s3) as RF. cbn zeta in RF. destruct RF as (R1 & R2 & R3 & R4 & R5 & R6).
      assert (RL := record_staged_log c (staged s c) (Some f) s3 C). set (s' := record_staged c (staged s c) (Some f) s3) in *.
      assert (I : forall d, item_at s' d = item_at s d).
      { intros d. apply item_other; auto; [now rewrite R1|now rewrite R3]. }
      assert (S' : sound k s'). { destruct S as [W Nn]. split; [now rewrite R1|]. intros d g Q. rewrite R1 in Q. eauto. }
      assert (Sh : eqf (show s') (upd (show s) c (ShowF f))).
      { intros d. rewrite show_fine. unfold showK, fine_of. cbn. rewrite R2, I. cbn. unfold upd. destruct (N.eqb_spec d c); auto. }
      assert (Qt' : quietK k (fine_of s')) by (intros Q; congruence).
      destruct RL as [[B RL]|[B RL]].
      * exists []. split; [exact RL|]. split; auto. split; auto. split.
        { intros d. unfold fine_of. rewrite I, R2. cbn. unfold upd. destruct (N.eqb_spec d c) as [X|X]; [subst d|]; congruence. }
        split; auto. split; auto. intros Q. congruence.
      * exists [EStaged c (staged s c) (Some f)]. split; [exact RL|]. split; auto. split; auto. split.
        { split; [reflexivity|]. intros d. cbn. unfold fine_of. rewrite I, R2. cbn. unfold upd. destruct (N.eqb_spec d c) as [X|X]; [subst d|]; auto. }
        split; auto. split; eauto.
Qed.

Lemma write_ext : forall e K K', eqf K K' -> eqf (write e K) (write e K').
Proof. intros [c v|c f] K K' H d; cbn; unfold upd; now rewrite H. Qed.
Lemma fair_edit_ext : forall k e K K', eqf K K' -> fair_edit k e K -> fair_edit k e K'.
Proof. intros k [c v|c f] K K' H; cbn; auto. intros [A B]. split; auto. intros E v Q. apply B; auto. now rewrite H. Qed.
Lemma writes_ext : forall es K K', eqf K K' -> eqf (writes es K) (writes es K').
Proof. induction es as [|e es IH]; cbn; intros; auto. apply IH. now apply write_ext. Qed.
Lemma fair_edits_ext : forall k es K K', eqf K K' -> fair_edits k es K -> fair_edits k es K'.
Proof. intros k. induction es as [|e es IH]; cbn; intros K K' H; auto. intros [A B]. split; [eapply fair_edit_ext; eauto|]. eapply IH; [|exact B]. now apply write_ext. Qed.

Lemma edits_ok : forall k l s, sound k s -> cap (log s) = None -> fair_edits k l (show s) -> quietK k (fine_of s) -> exists s' es,
  run k (map edit_op l) s = Some s' /\
  extends (log s) (log s') es /\ undone s' = undone s /\ sound k s' /\
  expl k es (fine_of s) (fine_of s') /\ eqf (show s') (writes l (show s)) /\ quietK k (fine_of s').
Proof.
  intros k. induction l as [|e l IH]; intros s S C F Qt.
  - exists s, []. cbn. repeat split; auto; try apply eqf_refl; try apply S. now rewrite app_nil_r.
  - destruct F as [F1 F2]. destruct (edit_ok k e s S C F1 Qt) as (es1 & A1 & A2 & A3 & A4 & A5 & _ & A7).
    destruct (IH (apply_edit k e s)) as (s' & es2 & B1 & B2 & B3 & B4 & B5 & B6 & B7); auto.
    { destruct A1 as (_ & _ & _ & _ & Q). congruence. }
    { eapply fair_edits_ext; [|exact F2]. apply eqf_sym. exact A5. }
    exists s', (es1 ++ es2). cbn [map run]. rewrite step_edit. split; auto. split; [eapply extends_trans; eauto|]. split; [congruence|]. split; auto.
    split; [eapply expl_app; eauto|]. split; auto. intros d. rewrite B6. cbn. apply writes_ext. exact A5.
Qed.
