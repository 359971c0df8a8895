(** Transactions and savepoints: C26, C27. *)
From Verif Require Import Base UndoModel UndoProofs TxModel TxSpec TxProofs.

(** ** C26. *)
(** Whatever mix of transactions, edits and savepoints is run, the formulas of the sheet
    are those of the textbook, and nothing panics, as long as the log is not cleared and
    no savepoint name is reused while in use. *)
Theorem C26_textbook : forall k g m os, sane k g -> fresh_names k os (tx_new m g) ->
  exists s t, follow k os (tx_new m g) (ledger_new (form g)) = Some (s, t) /\ tx_run k os (tx_new m g) = Some s /\
    forall c, form (tg s) c = cur t c.
Proof. exact tx_textbook. Qed.
Print Assumptions C26_textbook.

(** In particular a rollback restores every formula. *)
Definition plain_edit (o : txop) : bool := match o with TValue _ _ | TFormula _ _ | TMark _ => true | _ => false end.
Lemma edits_run : forall k es s t, (forall o, In o es -> plain_edit o = true) -> exists s' t',
  follow k es s t = Some (s', t') /\ tx_run k es s = Some s' /\ active s' = active s /\ opened_at t' = opened_at t.
Proof.
  intros k. induction es as [|o es IH]; intros s t P; [exists s, t; auto|].
  assert (Po : plain_edit o = true) by (apply P; now left). assert (P' : forall o, In o es -> plain_edit o = true) by (intros; apply P; now right).
  destruct o as [|c v|c f|b| | |n|n|]; cbn in Po; try discriminate; cbn [follow tx_run tx_step post].
  - destruct (IH (tx_value c v s) {| cur := upd (cur t) c None; opened_at := opened_at t |} P') as (s' & t' & A & B & C & D). exists s', t'. auto.
  - assert (Q : active (tx_formula k c f s) = active s) by (unfold tx_formula; destruct (g_set_formula (iter k) c f (tg s)) as [g []]; reflexivity).
    destruct (IH (tx_formula k c f s) (if accepts k c f then {| cur := upd (cur t) c (Some f); opened_at := opened_at t |} else t) P') as (s' & t' & A & B & C & D).
    exists s', t'. split; auto. split; auto. split; [congruence|]. rewrite D. now destruct (accepts k c f).
  - destruct (IH (with_log (tlog s ++ [if b then EStart else EEnd]) s) t P') as (s' & t' & A & B & C & D). exists s', t'. auto.
Qed.
Lemma edits_fresh : forall k es tail s, (forall o, In o es -> plain_edit o = true) ->
  (forall s', tx_run k es s = Some s' -> fresh_names k tail s') -> fresh_names k (es ++ tail) s.
Proof.
  intros k. induction es as [|o es IH]; intros tail s P H; [now apply H|].
  assert (Po : plain_edit o = true) by (apply P; now left). assert (P' : forall o, In o es -> plain_edit o = true) by (intros; apply P; now right).
  destruct o; cbn in Po; try discriminate; cbn [app fresh_names tx_step tx_run] in *; (split; [exact I|]); apply IH; auto.
Qed.
Lemma follow_app : forall k a b s t, follow k (a ++ b) s t = match follow k a s t with Some (s', t') => follow k b s' t' | None => None end.
Proof.
  intros k. induction a as [|o a IH]; intros b s t; cbn; auto. destruct (tx_step k o s); auto. destruct (post k o t); auto.
Qed.
Theorem C26_rollback : forall k g m es, sane k g -> (forall o, In o es -> plain_edit o = true) ->
  exists s, tx_run k (TBegin :: es ++ [TRollback]) (tx_new m g) = Some s /\ active s = None /\ forall c, form (tg s) c = form g c.
Proof.
  intros k g m es Sa P. destruct (tx_textbook k g m (TBegin :: es ++ [TRollback]) Sa) as (s & t & A & B & C).
  - cbn [fresh_names tx_step tx_begin tx_new active]. split; [exact I|]. apply edits_fresh; auto. intros s' _. cbn. split; auto. now destruct (tx_rollback k s').
  - exists s. split; auto. cbn [follow tx_step tx_begin tx_new active post ledger_new opened_at] in A. rewrite follow_app in A.
    destruct (edits_run k es (with_active (Some (length (tlog (tx_new m g)), [])) (tx_new m g)) {| cur := form g; opened_at := Some (form g, []) |} P) as (s1 & t1 & F1 & _ & Ac & Op).
    match type of F1 with ?x = _ => match type of A with match ?y with _ => _ end = _ => change y with x in A end end.
    rewrite F1 in A. cbn [follow tx_step post] in A. unfold tx_rollback in A. rewrite Ac, Op in A. cbn [with_active active] in A.
    destruct (take_from _ (tlog s1)) as [[kept changes]|]; [|discriminate]. inversion A; subst. split; [reflexivity|]. exact C.
Qed.
Print Assumptions C26_rollback.

Theorem C26_one_at_a_time : forall s, (exists s', tx_begin s = Ok s') <-> active s = None.
Proof.
  intros s. unfold tx_begin. destruct (active s); split; try discriminate; eauto; try reflexivity. intros [s' H]; discriminate.
Qed.
Print Assumptions C26_one_at_a_time.

Notation plain_cfg := {| eager := true; iter := false |}.
(** A sheet with B1 = f(A1), C1 = g(B1). *)
Definition small : graph := fst (g_set_formula false 3%N (8%N, [2%N]) (fst (g_set_formula false 2%N (9%N, [1%N]) graph_empty))).
Lemma small_sane : sane plain_cfg small.
Proof.
  assert (W0 : wfg graph_empty) by (split; discriminate).
  destruct (g_set_formula_ok plain_cfg 2%N (9%N, [1%N]) graph_empty W0) as (W1 & _ & F1); [right; cbn; intuition discriminate|].
  destruct (g_set_formula_ok plain_cfg 3%N (8%N, [2%N]) _ W1) as (W2 & _ & F2); [right; cbn; intuition discriminate|].
  destruct W2 as [A B]. split; [exact A|]. split; [exact B|]. intros c f Q. unfold small in Q. cbn [iter] in F2. rewrite F2 in Q. unfold upd at 1 in Q.
  destruct (N.eqb_spec c 3); [subst c; inversion Q; reflexivity|]. cbn [iter] in F1. rewrite F1 in Q. unfold upd in Q.
  destruct (N.eqb_spec c 2); [subst c; inversion Q; reflexivity|]. discriminate.
Qed.
Example C26_ex : sane plain_cfg small /\
  (forall o, In o [TFormula 2%N (7%N, [1%N; 3%N]); TMark true; TValue 3%N 5%N; TFormula 4%N (6%N, [2%N]); TValue 2%N 1%N; TMark false] -> plain_edit o = true) /\
  form small 2%N = Some (9%N, [1%N]).
Proof. split; [exact small_sane|]. split; [cbn; intuition (subst; reflexivity)|reflexivity]. Qed.

Lemma tx_ex : forall (o : option tx) (P : tx -> Prop), match o with Some s => P s | None => False end -> exists s, o = Some s /\ P s.
Proof. intros [s|] P H; [eauto|contradiction]. Qed.

(** A rollback does not restore dependencies: a value written over a value and rolled
    back cuts off the formulas that read the cell. *)
Theorem C26_links_refuted : exists k g c d f v, sane k g /\ form g d = Some f /\ In c (refs f) /\
  (exists a b, vmap g d = Some a /\ vmap g c = Some b /\ edge g a b = true) /\
  exists s, tx_run k [TBegin; TValue c v; TRollback] (tx_new 10 g) = Some s /\ form (tg s) d = Some f /\ vmap (tg s) c = None /\
    forall b, (exists a, vmap (tg s) d = Some a /\ edge (tg s) a b = true) -> False.
Proof.
  exists plain_cfg, small, 1%N, 2%N, (9%N, [1%N]), 5%N. split; [exact small_sane|]. split; [reflexivity|]. split; [now left|]. split.
  - exists 2%N, 1%N. repeat split.
  - apply tx_ex. vm_compute. split; [reflexivity|]. split; [reflexivity|]. intros b (a & E & H). inversion E; subst a. destruct b as [|[[]|[]|]]; discriminate.
Qed.
Print Assumptions C26_links_refuted.

(** Clearing the change log inside a transaction makes its rollback (and its commit)
    panic. *)
Theorem C26_clear_refuted : exists k g c v, sane k g /\
  tx_run k [TValue c v; TBegin; TClear; TRollback] (tx_new 10 g) = None /\ tx_run k [TValue c v; TBegin; TClear; TCommit] (tx_new 10 g) = None.
Proof. exists plain_cfg, small, 1%N, 5%N. split; [exact small_sane|]. split; vm_compute; reflexivity. Qed.
Print Assumptions C26_clear_refuted.

(** ** C27. *)
(** The first savepoint of a name wins, not the latest. *)
Theorem C27_refuted : exists k g n c f1 f2 f3, sane k g /\ f1 <> f2 /\
  exists s, tx_run k [TBegin; TFormula c f1; TSavepoint n; TFormula c f2; TSavepoint n; TFormula c f3; TRollbackTo n] (tx_new 10 g) = Some s /\
    form (tg s) c = Some f1.
Proof.
  exists plain_cfg, small, 1%N, 9%N, (1%N, []), (2%N, []), (3%N, []). split; [exact small_sane|]. split; [discriminate|]. apply tx_ex. vm_compute. reflexivity.
Qed.
Print Assumptions C27_refuted.
(** Rolling back to one savepoint forgets an older one taken at the same log position,
    and the savepoint itself. *)
Theorem C27_forgotten_refuted : exists k g n n' c f, sane k g /\ n <> n' /\
  exists s, tx_run k [TBegin; TSavepoint n; TSavepoint n'; TFormula c f; TRollbackTo n'] (tx_new 10 g) = Some s /\
    tx_rollback_to k n s = Err SavepointNotFound /\ tx_rollback_to k n' s = Err SavepointNotFound.
Proof.
  exists plain_cfg, small, 1%N, 2%N, 9%N, (1%N, []). split; [exact small_sane|]. split; [discriminate|]. apply tx_ex. vm_compute. split; reflexivity.
Qed.
Print Assumptions C27_forgotten_refuted.
(** With names that are not reused while in use, a savepoint gives back the formulas at
    the moment it was taken, and the transaction stays open. *)
Theorem C27_savepoint_partial : forall k g m os n s s' t, sane k g -> fresh_names k os (tx_new m g) ->
  follow k os (tx_new m g) (ledger_new (form g)) = Some (s, t) -> tx_rollback_to k n s = Ok s' ->
  exists K0 sps K rest, opened_at t = Some (K0, sps) /\ back_to n sps = Some (K, rest) /\ (forall c, form (tg s') c = K c) /\ active s' <> None.
Proof.
  intros k g m os n s s' t Sa F E H. destruct (follow_ok k os _ _ (RT_start k g m Sa) F) as (s1 & t1 & A & _ & R). rewrite A in E. inversion E; subst s1 t1.
  pose proof (RT_step k s t (TRollbackTo n) R I) as St. cbn [tx_step] in St. rewrite H in St. destruct St as (t' & P & R'). cbn in P.
  destruct (opened_at t) as [[K0 sps]|] eqn:Op; [|discriminate]. destruct (back_to n sps) as [[K rest]|] eqn:B; [|discriminate]. inversion P; subst t'.
  exists K0, sps, K, rest. split; auto. split; auto. destruct R' as (_ & _ & _ & Q & Q'). split; [exact Q|]. cbn in Q'. destruct (active s'); [discriminate|contradiction].
Qed.
Print Assumptions C27_savepoint_partial.
Definition sp_demo : list txop :=
  [TBegin; TFormula 9%N (1%N, []); TSavepoint 1%N; TFormula 9%N (2%N, [2%N]); TSavepoint 2%N; TValue 2%N 5%N; TRollbackTo 2%N; TValue 3%N 5%N; TRollbackTo 1%N; TSavepoint 1%N; TFormula 2%N (4%N, [])].
Example C27_ex : fresh_names plain_cfg sp_demo (tx_new 100 small) /\
  exists s t s', follow plain_cfg sp_demo (tx_new 100 small) (ledger_new (form small)) = Some (s, t) /\ tx_rollback_to plain_cfg 1%N s = Ok s'.
Proof.
  split.
  - vm_compute. repeat (split; [intuition discriminate|]). exact I.
  - destruct (tx_textbook plain_cfg small 100 sp_demo small_sane) as (s & t & A & B & _).
    + vm_compute. repeat (split; [intuition discriminate|]). exact I.
    + exists s, t. enough (exists s', tx_rollback_to plain_cfg 1%N s = Ok s') as [s' H] by eauto.
      assert (Q : match tx_run plain_cfg sp_demo (tx_new 100 small) with Some s => match tx_rollback_to plain_cfg 1%N s with Ok _ => true | _ => false end | None => false end = true) by (vm_compute; reflexivity).
      rewrite B in Q. destruct (tx_rollback_to plain_cfg 1%N s); [eauto|discriminate|discriminate].
Qed.
