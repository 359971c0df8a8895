(** The component task as a whole. *)
From Coq Require Import Permutation Sorted.
From Verif Require Import Base GraphSpec LiveGraphSpec TarjanModel ListSort LiveGraphModel LiveGraphProofs LiveGraphProps SchedModel SchedProofs SchedProofs2 SccModel SccSpec SccProofs SccProofs2.

Lemma nodup_split_unique : forall (l : list nat) x p1 q1 p2 q2, NoDup l -> l = p1 ++ x :: q1 -> l = p2 ++ x :: q2 -> p1 = p2.
Proof.
  induction l as [|z l IH]; intros x p1 q1 p2 q2 ND E1 E2; [destruct p1; discriminate|]. inversion ND as [|? ? N ND']; subst.
  destruct p1 as [|y1 p1], p2 as [|y2 p2]; cbn in E1, E2; auto; injection E1 as A1 B1; injection E2 as A2 B2.
  - exfalso. apply N. rewrite B2, A1. apply in_or_app. right. now left.
  - exfalso. apply N. rewrite B1, A2. apply in_or_app. right. now left.
  - subst y1 y2. f_equal. eapply IH; eauto.
Qed.

Section Main.
Variable V : Type.
Variable veq : V -> V -> bool.
Hypothesis veq_eq : forall a b, veq a b = true <-> a = b.
Variable arr : nat -> V -> bool.
Variable circ : V.
Variable conv : V -> V -> bool.
Variable n : nat.
Variable f : nat -> prog V.
Hypothesis f_ok : forall i, prog_ok n (f i).
Notation evaluate_scc := (evaluate_scc V veq arr circ conv n f).
Notation full_pass := (full_pass V veq arr circ n f).
Notation live_edges := (live_edges V n).
Notation INV := (INV V n f).

Lemma scc_total : forall pol v0 e0, exists o st p, evaluate_scc pol v0 e0 = Ok (o, st, p) /\ 1 <= p.
Proof.
  intros pol v0 e0. unfold SccModel.evaluate_scc. apply settle_total; auto.
  - now apply full_pass_inv.
  - unfold scc_fuel, budget. destruct pol; lia.
Qed.
Lemma scc_exact : forall pol v0 e0 st p, evaluate_scc pol v0 e0 = Ok (Exact, st, p) ->
  fixpoint n f st /\ (forall i, i < n -> demands f (fun j => if excl st j then Some (vals st j) else None) i (vals st i)).
Proof.
  intros pol v0 e0 st p E. unfold SccModel.evaluate_scc in E.
  apply (settle_ind V veq veq_eq arr circ conv n f f_ok pol (fun _ _ => True)) in E; auto; [|now apply full_pass_inv].
  destruct E as (st1 & sp1 & H & _ & _ & -> & Ac & S). split; [eapply exact_fixpoint|eapply exact_demand]; eauto.
Qed.
Lemma scc_converged : forall pol v0 e0 st p, evaluate_scc pol v0 e0 = Ok (Converged, st, p) ->
  exists st0, st = full_pass st0 /\ forall i, i < n -> excl st i = false -> conv (vals st0 i) (vals st i) = true.
Proof.
  intros pol v0 e0 st p E. apply settle_converged in E; [|discriminate]. destruct E as (st0 & -> & A). exists st0. split; auto.
  intros i Hi Ex. unfold all_converged in A. rewrite forallb_forall in A. apply A. apply evaluable_in. auto.
Qed.
Lemma scc_passes : forall m v0 e0 o st p, evaluate_scc (PIterate m) v0 e0 = Ok (o, st, p) ->
  p <= Nat.max 1 m + (n + 1) /\ (o = CappedIter -> m <= p).
Proof.
  intros m v0 e0 o st p E. unfold SccModel.evaluate_scc in E. split.
  - apply settle_passes_bound in E; lia.
  - intros ->. apply (settle_ind V veq veq_eq arr circ conv n f f_ok (PIterate m) (fun _ _ => True)) in E; auto; [|now apply full_pass_inv].
    destruct E as (_ & _ & _ & _ & _ & _ & _ & m' & [= <-] & L). auto.
Qed.

Section NoArr.
Hypothesis noarr : forall i v, arr i v = false.
Variables (v0 : nat -> V) (e0 : nat -> bool).
Notation fx := (fx V e0 v0).
Notation LI := (LI V n f e0 v0).

Lemma init_LI : LI 1 (full_pass (scc_init V v0 e0)).
Proof.
  apply full_pass_LI; auto.
  - intros i. cbn. auto.
  - intros i v Hi D. cbn in D. unfold SccProofs2.fx in D. cbn. destruct (e0 i); congruence.
Qed.
Lemma loop_LI : forall pol o st p, evaluate_scc pol v0 e0 = Ok (o, st, p) ->
  exists st1 sp1, INV st1 /\ LI p st1 /\ S sp1 <= p /\
    match o with
    | Exact => st = st1 /\ acyclic_now V n st1 /\ stale V n st1 = []
    | StampedCycle => pol = PError /\ exists a, analyze_live_graph n (live_edges st1) = Ok a /\ (0 <? cycle_count a) = true /\ st = error_arm V veq arr circ n f a st1
    | Converged => st = st1 /\ (exists i, i < n /\ on_cycle (reads (live_edges st1)) i) /\ pol <> PError
    | CappedIter => st = st1 /\ (exists i, i < n /\ on_cycle (reads (live_edges st1)) i) /\ exists m, pol = PIterate m /\ m <= p
    | CappedSettle => acyclic_now V n st1 /\ stale V n st1 <> [] /\ n + 2 <= 1 + sp1
    end.
Proof.
  intros pol o st p E. unfold SccModel.evaluate_scc in E.
  eapply (settle_ind V veq veq_eq arr circ conv n f f_ok pol LI); [| | | | |exact E]; auto.
  - intros passes st' H (B & F & _). now apply full_pass_LI.
  - intros passes st' topo H Ac _ L. now apply settle_pass_LI.
  - now apply full_pass_inv.
  - apply init_LI.
Qed.
Lemma scc_budget : forall pol st p, evaluate_scc pol v0 e0 = Ok (CappedSettle, st, p) -> False.
Proof.
  intros pol st p E. apply loop_LI in E. destruct E as (st1 & sp1 & H & L & Lp & Ac & S & Ls). apply S.
  eapply (late_settled V n f f_ok e0 v0 p); eauto. lia.
Qed.
Lemma scc_excl : forall pol st p o, evaluate_scc pol v0 e0 = Ok (o, st, p) -> o <> StampedCycle ->
  forall i, excl st i = e0 i /\ (e0 i = true -> vals st i = v0 i).
Proof.
  intros pol st p o E N. destruct o; try congruence; try (exfalso; eapply scc_budget; exact E); apply loop_LI in E;
    destruct E as (st1 & sp1 & H & (B & _) & _ & -> & _); apply B.
Qed.
Lemma scc_exact_demand : forall pol st p, evaluate_scc pol v0 e0 = Ok (Exact, st, p) ->
  forall i, i < n -> demands f fx i (vals st i).
Proof.
  intros pol st p E i Hi. destruct (scc_excl pol st p Exact E) with (i := i) as [Ei _]; [discriminate|].
  destruct (scc_exact pol v0 e0 st p E) as [_ D]. destruct (D i Hi) as (d & Dd). exists d.
  rewrite <- Dd. assert (Q : forall d i, demand f fx d i = demand f (fun j => if excl st j then Some (vals st j) else None) d i); [|apply Q].
  clear - noarr E veq_eq f_ok. assert (Hf : forall j, fx j = if excl st j then Some (vals st j) else None).
  { intros j. destruct (scc_excl pol st p Exact E) with (i := j) as [Ej Vj]; [discriminate|]. unfold SccProofs2.fx. rewrite Ej.
    destruct (e0 j); auto. now rewrite Vj. }
  induction d as [|d IH]; intros i; cbn; rewrite Hf; auto. destruct (excl st i); auto.
  generalize (f i). intros q. induction q as [v|j k IHq]; cbn; auto. rewrite IH. destruct (demand _ _ d j); auto.
Qed.
Lemma scc_iterate_enough : forall m o st p, evaluate_scc (PIterate m) v0 e0 = Ok (o, st, p) -> n + 1 <= m ->
  (forall i, i < n -> exists v, demands f fx i v) -> o = Exact \/ o = Converged.
Proof.
  intros m o st p E Lm D.
  assert (Dn : forall i, i < n -> exists v, demand f fx n i = Some v).
  { intros i Hi. destruct (D i Hi) as (v & d & Dd). exists v. eapply demand_deep; eauto. }
  destruct o; auto; exfalso.
  - apply loop_LI in E. destruct E as (_ & _ & _ & _ & _ & [=] & _).
  - apply loop_LI in E. destruct E as (st1 & sp1 & H & L & _ & _ & (i & Hi & C) & m' & [= <-] & Lp).
    eapply (late_acyclic V circ conv n f f_ok e0 v0 p st1); eauto; try lia.
  - eapply scc_budget; eauto.
Qed.

(** The Error arm, for formulas whose reads do not depend on the values. *)
Lemma run_all_app : forall l1 l2 st, run_all V veq arr circ f (l1 ++ l2) st = run_all V veq arr circ f l2 (run_all V veq arr circ f l1 st).
Proof. induction l1; intros; cbn; auto. Qed.
Lemma run_all_other : forall l st i, ~ In i l -> vals (run_all V veq arr circ f l st) i = vals st i.
Proof.
  induction l as [|x l IH]; intros st i N; cbn; auto. rewrite IH by (intros Q; apply N; now right).
  destruct (run_member_spec V veq arr circ f x st) as (_ & _ & O). apply O. intros ->. apply N. now left.
Qed.
Lemma run_all_excl : forall l st i, excl (run_all V veq arr circ f l st) i = excl st i.
Proof.
  induction l as [|x l IH]; intros st i; cbn; auto. rewrite IH.
  destruct (run_member_spec V veq arr circ f x st) as ((_ & _ & R) & _ & O). rewrite noarr in R.
  destruct R as [(_ & _ & R)|(R & _)]; [|discriminate]. destruct (Nat.eq_dec i x) as [->|N]; auto. apply O; auto.
Qed.
Lemma run_all_at : forall pre x post st, NoDup (pre ++ x :: post) ->
  let st' := run_all V veq arr circ f (pre ++ x :: post) st in
  exists rho, vals st' x = fst (run_prog (f x) rho) /\ forall t, ~ In t (x :: post) -> rho t = vals st' t.
Proof.
  intros pre x post st ND st'. unfold st'. rewrite run_all_app. set (s1 := run_all V veq arr circ f pre st). exists (vals s1).
  apply NoDup_app_iff in ND. destruct ND as (_ & ND2 & _). inversion ND2; subst. split.
  - cbn. rewrite run_all_other by auto. destruct (run_member_spec V veq arr circ f x s1) as ((_ & _ & R) & _). rewrite noarr in R.
    destruct R as [(_ & R & _)|(R & _)]; [auto|discriminate].
  - intros t Nt. now rewrite run_all_other.
Qed.

Definition straight : Prop := forall i rho rho', snd (run_prog (f i) rho) = snd (run_prog (f i) rho').

Lemma scc_error : forall st p, straight -> evaluate_scc PError v0 e0 = Ok (StampedCycle, st, p) ->
  let E := fun i j => i < n /\ e0 i = false /\ In j (snd (run_prog (f i) v0)) in
  (forall i, i < n -> (excl st i = true <-> e0 i = true \/ on_cycle E i)) /\
  (forall i, i < n -> e0 i = false -> on_cycle E i -> vals st i = circ) /\
  (forall i, i < n -> e0 i = true -> vals st i = v0 i) /\
  fixpoint n f st.
Proof.
  intros st p St Ev E. apply loop_LI in Ev. destruct Ev as (st1 & sp1 & H & (B & _) & _ & _ & a & Ha & _ & ->).
  destruct (analyze_ok n (live_edges st1) (live_recorded V n f f_ok st1 H)) as (a' & Ha' & Cy & _ & (P & T & _)).
  rewrite Ha in Ha'. injection Ha' as <-.
  assert (Eq : forall i j, reads (live_edges st1) i j <-> E i j).
  { intros i j. unfold reads, E. rewrite live_edges_in. destruct (B i) as [-> _]. split; intros (Hi & Ex & It).
    - split; auto. split; auto. destruct (H i Hi) as (rho & R & _). { rewrite (proj1 (B i)). auto. }
      rewrite (St i v0 rho), R. auto.
    - split; auto. split; auto. destruct (H i Hi) as (rho & R & _). { rewrite (proj1 (B i)). auto. }
      rewrite (St i v0 rho), R in It. auto. }
  assert (Oc : forall i, on_cycle (reads (live_edges st1)) i <-> on_cycle E i).
  { intros i. split; intros (y & R & Q); exists y; (split; [now apply Eq|]).
    - eapply reach_ext; [|exact Q]. intros; symmetry; apply Eq.
    - eapply reach_ext; [|exact Q]. intros; apply Eq. }
  unfold error_arm. set (st2 := stamp V circ n (in_cycle a) st1). set (ord := filter _ (topo a)).
  assert (NDt : NoDup (topo a)) by (eapply Permutation_NoDup; [apply Permutation_sym, P|apply seq_NoDup]).
  assert (ND : NoDup ord) by (apply NoDup_filter; auto).
  assert (Ex2 : forall i, i < n -> (excl st2 i = true <-> e0 i = true \/ on_cycle E i)).
  { intros i Hi. unfold st2, stamp. cbn [excl]. rewrite <- Oc. rewrite <- (Cy i Hi). rewrite (proj1 (B i)).
    destruct (Nat.ltb_spec i n); [|lia]. destruct (in_cycle a i), (e0 i) eqn:Q; cbn; rewrite ?(proj1 (B i)), ?Q; intuition congruence. }
  assert (In2 : forall i, In i ord <-> i < n /\ excl st2 i = false).
  { intros i. unfold ord. rewrite filter_In. split.
    - intros [I J]. split; [|now destruct (excl st2 i)]. eapply Permutation_in in I; [|exact P]. apply in_seq in I. lia.
    - intros [I J]. rewrite J. split; auto. eapply Permutation_in; [apply Permutation_sym, P|]. apply in_seq. lia. }
  split; [|split; [|split]].
  - intros i Hi. rewrite run_all_excl. auto.
  - intros i Hi Ei Ci. rewrite run_all_other.
    + unfold st2, stamp. cbn [vals]. apply Oc in Ci. apply (Cy i Hi) in Ci. rewrite Ci. rewrite (proj1 (B i)), Ei. destruct (Nat.ltb_spec i n); [|lia]. reflexivity.
    + intros I. apply In2 in I. destruct I as [_ I]. rewrite (proj2 (Ex2 i Hi)) in I; [discriminate|auto].
  - intros i Hi Ei. rewrite run_all_other.
    + unfold st2, stamp. cbn [vals]. rewrite (proj1 (B i)), Ei. cbn [negb]. rewrite andb_false_r. apply B. auto.
    + intros I. apply In2 in I. destruct I as [_ I]. rewrite (proj2 (Ex2 i Hi)) in I; [discriminate|auto].
  - intros x Hx Ex. rewrite run_all_excl in Ex. assert (I : In x ord) by (apply In2; auto).
    apply in_split in I. destruct I as (pre & post & Eo). rewrite Eo in ND.
    destruct (run_all_at pre x post st2 ND) as (rho & R1 & R2). cbv zeta in *. rewrite <- Eo in *. rewrite R1. f_equal.
    apply run_agree. intros t Ht. apply R2. intros It.
    assert (Exy : reads (live_edges st1) x t).
    { apply Eq. split; auto. split. { destruct (e0 x) eqn:Q; auto. rewrite (proj2 (Ex2 x Hx)) in Ex; [discriminate|auto]. }
      rewrite (St x v0 rho). auto. }
    assert (Nc : ~ on_cycle (reads (live_edges st1)) x).
    { intros C. apply Oc in C. rewrite (proj2 (Ex2 x Hx)) in Ex; [discriminate|auto]. }
    assert (Ix : In x (topo a)). { assert (I : In x ord) by (apply In2; auto). unfold ord in I. now apply filter_In in I. }
    apply in_split in Ix. destruct Ix as (tp & tq & Et).
    destruct (T tp x tq t Et Exy) as [Itp|Sg].
    + assert (Eo' : ord = filter (fun i => negb (excl st2 i)) tp ++ x :: filter (fun i => negb (excl st2 i)) tq).
      { unfold ord. rewrite Et, filter_app. f_equal. unfold filter at 1. fold (filter (fun i => negb (excl st2 i))). rewrite Ex. reflexivity. }
      assert (It' : In t ord) by (rewrite Eo; apply in_or_app; now right).
      assert (Itp' : In t (filter (fun i => negb (excl st2 i)) tp)).
      { apply filter_In. split; auto. apply In2 in It'. destruct It' as [_ ->]. reflexivity. }
      assert (Ep : pre = filter (fun i => negb (excl st2 i)) tp).
      { eapply nodup_split_unique; [exact ND|exact Eo|exact Eo']. }
      rewrite Eo in ND.
      apply NoDup_app_iff in ND. destruct ND as (_ & _ & D). apply (D t); [now rewrite Ep|auto].
    + apply Nc. exists t. split; auto. apply Sg.
Qed.
End NoArr.
End Main.
