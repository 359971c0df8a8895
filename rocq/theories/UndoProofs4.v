(** Capped logs that fit, values of formula cells, and dependents. *)
From Verif Require Import Base ListSort UndoModel UndoSpec UndoProofs UndoProofs2 UndoProofs3.
From Coq Require Import ZifyN ZifyNat ZifyBool.

(** *** A cap that is never exceeded changes nothing. *)
Definition wc (m : nat) (l : clog) : clog := {| events := events l; depth := depth l; gstack := gstack l; nextg := nextg l; cap := Some m |}.
Definition wcs (m : nat) (s : st) : st := set_log (wc m (log s)) s.

Lemma record_len : forall e l, cap l = None -> length (events (record e l)) = S (length (events l)) /\ cap (record e l) = None.
Proof. intros e l C. destruct (record_nocap e l C) as (A & _ & _ & _ & B). rewrite A, app_length. cbn. split; [lia|congruence]. Qed.
Lemma record_fit : forall m e l, cap l = None -> S (length (events l)) <= m -> record e (wc m l) = wc m (record e l).
Proof.
  intros m e l C L. unfold record, enforce_cap. cbn [cap wc events depth gstack nextg]. rewrite C. destruct m as [|m]; [lia|].
  rewrite app_length. cbn [length]. destruct (Nat.leb_spec (length (events l) + 1) (S m)); [reflexivity|lia].
Qed.
Lemma ewl_cap : forall m f s, f (wcs m s) = wcs m (f s) -> edit_with_logger f (wcs m s) = wcs m (edit_with_logger f s).
Proof. intros m f s H. unfold edit_with_logger. rewrite H. reflexivity. Qed.

Lemma record_staged_cap : forall m c a b s, cap (log s) = None -> length (events (log (record_staged c a b s))) <= m ->
  record_staged c a b (wcs m s) = wcs m (record_staged c a b s) /\ length (events (log s)) <= m.
Proof.
  intros m c a b s C L. unfold record_staged in *. destruct (staged_eqb a b); [split; auto|]. cbn in L.
  destruct (record_len (EStaged c a b) (log s) C) as [A _]. split; [|lia].
  unfold wcs. cbn [log set_log set_gr gr]. rewrite record_fit; [reflexivity|auto|lia].
Qed.

Lemma begin_cap : forall m l, cap l = None -> length (events (begin_compound l)) <= m -> begin_compound (wc m l) = wc m (begin_compound l) /\ length (events l) <= m.
Proof.
  intros m l C L. unfold begin_compound in *. cbn [wc depth events gstack nextg]. destruct (Nat.eqb (depth l) 0).
  - match goal with |- record ?e ?x = _ /\ _ => destruct (record_len e {| events := events l; depth := 1; gstack := nextg l :: gstack l; nextg := N.succ (nextg l); cap := cap l |}) as [A _]; [exact C|] end.
    cbn [events] in *. rewrite A in L. split; [|lia]. rewrite <- record_fit; auto.
  - match type of L with context [record ?e ?x] => destruct (record_len e x) as [A _]; [exact C|]; rewrite A in L; cbn [events] in L; split; [|lia]; rewrite <- (record_fit m e x); auto end.
Qed.
Lemma end_cap : forall m l, cap l = None -> length (events (end_compound l)) <= m -> end_compound (wc m l) = wc m (end_compound l) /\ length (events l) <= m.
Proof.
  intros m l C L. unfold end_compound in *. cbn [wc depth]. destruct (Nat.eqb (depth l) 0); auto.
  cbn [events] in L. destruct (record_len EEnd l C) as [A _]. rewrite record_fit; [split; [reflexivity|lia]|auto|lia].
Qed.
Lemma begin_nocap : forall l, cap l = None -> cap (begin_compound l) = None.
Proof. intros l C. unfold begin_compound. destruct (Nat.eqb (depth l) 0); apply record_len; exact C. Qed.
Lemma end_nocap : forall l, cap l = None -> cap (end_compound l) = None.
Proof. intros l C. unfold end_compound. destruct (Nat.eqb (depth l) 0); auto. cbn. apply record_len; exact C. Qed.
Lemma fold_cap : forall m es l, cap l = None -> length (events (fold_left (fun l e => record e l) es l)) <= m ->
  fold_left (fun l e => record e l) es (wc m l) = wc m (fold_left (fun l e => record e l) es l) /\ length (events l) <= m /\ cap (fold_left (fun l e => record e l) es l) = None.
Proof.
  intros m. induction es as [|e es IH]; intros l C L; cbn [fold_left] in *; [split; auto|].
  destruct (record_len e l C) as [A B]. destruct (IH (record e l) B L) as (X & Y & Z). split; [|split; [lia|auto]]. rewrite record_fit; auto. lia.
Qed.

Lemma ed_set_value_cap : forall m c v old s, cap (log s) = None -> length (events (log (ed_set_value c v old s))) <= m ->
  ed_set_value c v old (wcs m s) = wcs m (ed_set_value c v old s) /\ cap (log (ed_set_value c v old s)) = None.
Proof.
  intros m c v old s C L. unfold ed_set_value in *. cbn in L. destruct (record_len (ESetValue c old (form (gr s) c) v) (log s) C) as [A B].
  split; [|exact B]. unfold wcs. cbn [log set_log set_gr gr]. rewrite record_fit; [reflexivity|auto|lia].
Qed.
Lemma ed_set_formula_cap : forall m k c f old s, cap (log s) = None -> length (events (log (ed_set_formula k c f old s))) <= m ->
  ed_set_formula k c f old (wcs m s) = wcs m (ed_set_formula k c f old s) /\ cap (log (ed_set_formula k c f old s)) = None.
Proof.
  intros m k c f old s C L. unfold ed_set_formula in *. cbn [gr wcs set_log]. destruct (g_set_formula (iter k) c f (gr s)) as [g ok].
  destruct ok; [|split; auto]. cbn in L. destruct (record_len (ESetFormula c old (form (gr s) c) f) (log s) C) as [A B].
  split; [|exact B]. unfold wcs. cbn [log set_log set_gr gr]. rewrite record_fit; [reflexivity|auto|lia].
Qed.

Lemma set_value_cap : forall m c v s, cap (log s) = None -> length (events (log (set_value c v s))) <= m ->
  set_value c v (wcs m s) = wcs m (set_value c v s) /\ cap (log (set_value c v s)) = None.
Proof.
  intros m c v s C L. unfold set_value in *. set (s1 := edit_with_logger (ed_set_value c v (cell_value s c)) s) in *.
  set (s3 := set_staged _ _) in L.
  assert (C3 : cap (log s3) = None) by (cbn; apply record_len; exact C).
  destruct (record_staged_cap m c (staged s c) None s3 C3 L) as [X Y].
  destruct (ed_set_value_cap m c v (cell_value s c) s C) as [Z1 Z2]; [exact Y|].
  change (cell_value (wcs m s) c) with (cell_value s c). rewrite (ewl_cap m _ s Z1). fold s1. split.
  - exact X.
  - destruct (record_staged_log c (staged s c) None s3 C3) as [[_ Q]|[_ Q]]; destruct Q as (_ & _ & _ & _ & Q); rewrite <- C3, <- Q; reflexivity.
Qed.
Lemma formula_cap : forall m k c f old s, cap (log s) = None ->
  let t s := record_staged c (staged s c) None
     (set_staged (upd (staged (edit_with_logger (ed_set_formula k c f old) s)) c None) (edit_with_logger (ed_set_formula k c f old) s)) in
  length (events (log (t s))) <= m -> t (wcs m s) = wcs m (t s) /\ cap (log (t s)) = None.
Proof.
  intros m k c f old s C t L. unfold t in *. set (s1 := edit_with_logger (ed_set_formula k c f old) s) in *.
  set (s3 := set_staged _ _) in L.
  assert (C3 : cap (log s3) = None).
  { cbn. unfold ed_set_formula. destruct (g_set_formula (iter k) c f (gr s)) as [g []]; [|exact C]. cbn. apply record_len; exact C. }
  destruct (record_staged_cap m c (staged s c) None s3 C3 L) as [X Y].
  destruct (ed_set_formula_cap m k c f old s C) as [Z1 Z2]; [exact Y|].
  rewrite (ewl_cap m _ s Z1). fold s1. split.
  - exact X.
  - destruct (record_staged_log c (staged s c) None s3 C3) as [[_ Q]|[_ Q]]; destruct Q as (_ & _ & _ & _ & Q); rewrite <- C3, <- Q; reflexivity.
Qed.
Lemma set_formula_cap : forall m k c f s, cap (log s) = None -> length (events (log (set_formula k c f s))) <= m ->
  set_formula k c f (wcs m s) = wcs m (set_formula k c f s) /\ cap (log (set_formula k c f s)) = None.
Proof.
  intros m k c f s C L. unfold set_formula in *. change (cell_present (wcs m s) c) with (cell_present s c).
  change (cell_value (wcs m s) c) with (cell_value s c).
  destruct (eager k); [apply (formula_cap m k c f None s C L)|]. destruct (cell_present s c); [apply (formula_cap m k c f _ s C L)|].
  set (s3 := set_staged _ _) in L. destruct (record_staged_cap m c (staged s c) (Some f) s3 C L) as [X Y]. split; [exact X|].
  destruct (record_staged_log c (staged s c) (Some f) s3 C) as [[_ Q]|[_ Q]]; destruct Q as (_ & _ & _ & _ & Q); rewrite <- C; change (log s) with (log s3); rewrite <- Q; reflexivity.
Qed.

Lemma build_log : forall order s, log (build order s) = log s.
Proof. intros order. unfold build. induction order as [|c order IH]; intros s; cbn; auto. rewrite IH. destruct (staged s c); reflexivity. Qed.
Lemma build_wcs : forall m order s, build order (wcs m s) = wcs m (build order s).
Proof.
  intros m. unfold build. induction order as [|c order IH]; intros s; cbn; auto. change (staged (wcs m s) c) with (staged s c). rewrite <- IH.
  destruct (staged s c); reflexivity.
Qed.

Lemma step_cap : forall m k o s s', cap (log s) = None -> is_cap o = false -> step k o s = Some s' -> length (events (log s')) <= m ->
  step k o (wcs m s) = Some (wcs m s') /\ cap (log s') = None.
Proof.
  intros m k o s s' C O E L. destruct o as [c v|c f| | | | |order vals|cp]; cbn [step is_cap] in *; try discriminate.
  - inversion E; subst s'. destruct (set_value_cap m c v s C L) as [X Y]. split; congruence.
  - inversion E; subst s'. destruct (set_formula_cap m k c f s C L) as [X Y]. split; congruence.
  - inversion E; subst s'. cbn in L. destruct (begin_cap m (log s) C L) as [X Y]. split; [|now apply begin_nocap]. unfold wcs. cbn [log set_log]. now rewrite X.
  - inversion E; subst s'. cbn in L. destruct (end_cap m (log s) C L) as [X Y]. split; [|now apply end_nocap]. unfold wcs. cbn [log set_log]. now rewrite X.
  - unfold undo in *. change (events (log (wcs m s))) with (events (log s)). destruct (last_group_indices (events (log s))) as [|i0 is].
    + inversion E; subst. auto.
    + destruct (Nat.eqb _ _); [|discriminate]. inversion E; subst s'. split; [reflexivity|exact C].
  - inversion E; subst s'. unfold redo in *. change (undone (wcs m s)) with (undone s). destruct (undone s) as [|b us]; [auto|].
    cbn [log] in L. set (l1 := fold_left _ b (begin_compound (log s))) in *.
    assert (C1 : cap (begin_compound (log s)) = None) by now apply begin_nocap.
    assert (C2 : cap l1 = None). { destruct (fold_record b (begin_compound (log s)) C1) as (_ & _ & _ & _ & Q). fold l1 in Q. congruence. }
    destruct (end_cap m l1 C2 L) as [X Y]. destruct (fold_cap m b _ C1 Y) as (X' & Y' & _). destruct (begin_cap m _ C Y') as [X'' _].
    split; [|now apply end_nocap]. unfold wcs. cbn [log set_log gr staged delta comp base undone]. rewrite X'', X'. fold l1. rewrite X. reflexivity.
  - inversion E; subst s'. split; [|cbn; now rewrite build_log]. f_equal. unfold evaluate. rewrite build_wcs. reflexivity.
Qed.

Lemma run_cap : forall m k os s s', cap (log s) = None -> (forall o, In o os -> is_cap o = false) -> fits k m os s -> run k os s = Some s' ->
  run k os (wcs m s) = Some (wcs m s').
Proof.
  intros m k. induction os as [|o os IH]; intros s s' C O F E; cbn in *; [congruence|].
  destruct F as [F1 F2]. destruct (step k o s) as [s1|] eqn:St; [|discriminate].
  assert (L1 : length (events (log s1)) <= m) by (destruct os; cbn in F2; apply F2).
  destruct (step_cap m k o s s1 C (O o (or_introl eq_refl)) St L1) as [X Y]. rewrite X. apply IH; auto.
Qed.

Lemma program_nocap : forall its o, In o (program its) -> is_cap o = false.
Proof.
  intros its o I. unfold program in I. apply in_concat in I. destruct I as (l & I1 & I2). apply in_map_iff in I1. destruct I1 as (it & <- & _).
  assert (Ed : forall e, is_cap (edit_op e) = false) by (intros []; reflexivity).
  destruct it as [es|e| | |order vals]; cbn in I2; repeat (destruct I2 as [<-|I2]; auto); try contradiction.
  apply in_app_or in I2. destruct I2 as [I2|[<-|[]]]; auto. apply in_map_iff in I2. destruct I2 as (e & <- & _). auto.
Qed.

Lemma textbook_capped : forall k b its m, 1 <= m -> fair_run k its (opened b) (loaded b) -> fits k m (program its) (loaded b) ->
  exists s, run k (SetCap (Some m) :: program its) (loaded b) = Some s /\ forall c, show s c = now (turns its (opened b)) c.
Proof.
  intros k b its m M F Ft. destruct (textbook k b its F) as (s & A & B). exists (wcs m s). split; auto.
  cbn [run step]. assert (E : set_log (set_cap (Some m) (log (loaded b))) (loaded b) = wcs m (loaded b)).
  { destruct m; [lia|]. reflexivity. }
  rewrite E. apply run_cap; auto. apply program_nocap.
Qed.
