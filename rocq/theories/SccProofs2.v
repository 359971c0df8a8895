(** The pass budget, and the loop as a whole. *)
From Coq Require Import Permutation Sorted.
From Verif Require Import Base GraphSpec LiveGraphSpec TarjanModel ListSort LiveGraphModel LiveGraphProofs LiveGraphProps SchedModel SchedProofs SchedProofs2 SccModel SccSpec SccProofs.

Section Cap.
Variable V : Type.
Variable veq : V -> V -> bool.
Hypothesis veq_eq : forall a b, veq a b = true <-> a = b.
Variable arr : nat -> V -> bool.
Variable circ : V.
Variable conv : V -> V -> bool.
Variable n : nat.
Variable f : nat -> prog V.
Hypothesis f_ok : forall i, prog_ok n (f i).
Notation run_member := (run_member V veq arr circ f).
Notation pass_from := (pass_from V veq arr circ f).
Notation full_pass := (full_pass V veq arr circ n f).
Notation settle_pass := (settle_pass V veq arr circ n f).
Notation evaluable := (evaluable V n).
Notation live_edges := (live_edges V n).
Notation stale := (stale V n).
Notation stale_read := (stale_read V).
Notation set_pos := (set_pos V).
Notation reset := (reset V).
Notation INV := (INV V n f).
Notation acyclic_now := (acyclic_now V n).
Notation settle := (settle V veq arr circ conv n f).

(** The loop always ends, within its pass budget, and keeps the read invariant. *)
Lemma cycles_none : forall st a, INV st -> analyze_live_graph n (live_edges st) = Ok a -> (0 <? cycle_count a) = false -> acyclic_now st.
Proof.
  intros st a H Ha L. apply Nat.ltb_ge in L. assert (Z : cycle_count a = 0) by lia. exact (proj1 (C15_no_cycles n (live_edges st) a (live_recorded V n f f_ok st H) Ha) Z).
Qed.
Lemma cycles_some : forall st a, INV st -> analyze_live_graph n (live_edges st) = Ok a -> (0 <? cycle_count a) = true ->
  exists i, i < n /\ on_cycle (reads (live_edges st)) i.
Proof.
  intros st a H Ha L. apply Nat.ltb_lt in L.
  destruct (analyze_ok n (live_edges st) (live_recorded V n f f_ok st H)) as (a' & Ha' & _ & (reps & Hl & _ & H1 & _) & _).
  rewrite Ha in Ha'. injection Ha' as <-. destruct reps as [|r reps]; [cbn in Hl; lia|]. exists r. apply H1. now left.
Qed.

Definition budget (pol : policy) : nat := match pol with PError => 0 | PIterate m => m end.

Lemma settle_total : forall pol fuel passes sp prev st, INV st ->
  (n + 2 - S sp) + (budget pol - passes) < fuel ->
  exists o st' p, settle fuel pol passes sp prev st = Ok (o, st', p) /\ passes <= p.
Proof.
  intros pol. induction fuel as [|fuel IH]; intros passes sp prev st H L; [lia|]. cbn [SccModel.settle].
  destruct (analyze_ok n (live_edges st) (live_recorded V n f f_ok st H)) as (a & Ha & _). rewrite Ha. cbn [rbind].
  destruct (0 <? cycle_count a) eqn:C.
  - destruct pol as [|m]; [eauto 6|]. destruct (match prev with Some pv => _ | None => _ end); [eauto 6|].
    destruct (Nat.leb_spec m passes); [eauto 6|].
    destruct (IH (S passes) sp (Some (vals st)) (full_pass st)) as (o & st' & p & E & Lp).
    { now apply full_pass_inv. } { cbn [budget] in *. lia. }
    exists o, st', p. split; auto. lia.
  - destruct (stale st) as [|s0 sr] eqn:S0; [eauto 6|]. destruct (Nat.leb_spec (n + 2) (1 + sp)); [eauto 6|].
    destruct (IH (S passes) (S sp) None (settle_pass (topo a) st)) as (o & st' & p & E & Lp).
    { apply settle_pass_inv; auto. eapply cycles_none; eauto. } { lia. }
    exists o, st', p. split; auto. lia.
Qed.

(** Induction over the loop for a property of states and pass counts. *)
Lemma settle_ind : forall (pol : policy) (P : nat -> sst V -> Prop),
  (forall passes st, INV st -> P passes st -> P (S passes) (full_pass st)) ->
  (forall passes st topo, INV st -> acyclic_now st -> stale st <> [] -> P passes st -> P (S passes) (settle_pass topo st)) ->
  forall fuel passes sp prev st o st' p, INV st -> P passes st -> S sp <= passes ->
  settle fuel pol passes sp prev st = Ok (o, st', p) ->
  exists st1 sp1, INV st1 /\ P p st1 /\ S sp1 <= p /\
    match o with
    | Exact => st' = st1 /\ acyclic_now st1 /\ stale st1 = []
    | StampedCycle => pol = PError /\ exists a, analyze_live_graph n (live_edges st1) = Ok a /\ (0 <? cycle_count a) = true /\ st' = error_arm V veq arr circ n f a st1
    | Converged => st' = st1 /\ (exists i, i < n /\ on_cycle (reads (live_edges st1)) i) /\ pol <> PError
    | CappedIter => st' = st1 /\ (exists i, i < n /\ on_cycle (reads (live_edges st1)) i) /\ exists m, pol = PIterate m /\ m <= p
    | CappedSettle => acyclic_now st1 /\ stale st1 <> [] /\ n + 2 <= 1 + sp1
    end.
Proof.
  intros pol P Pf Ps. induction fuel as [|fuel IH]; intros passes sp prev st o st' p H HP Hs E; [discriminate|].
  cbn [SccModel.settle] in E.
  destruct (analyze_ok n (live_edges st) (live_recorded V n f f_ok st H)) as (a & Ha & _). rewrite Ha in E. cbn [rbind] in E.
  destruct (0 <? cycle_count a) eqn:C.
  - pose proof (cycles_some st a H Ha C) as Cy. destruct pol as [|m].
    + injection E as <- <- <-. exists st, sp. repeat (split; auto). exists a. auto.
    + destruct (match prev with Some pv => _ | None => _ end).
      * injection E as <- <- <-. exists st, sp. repeat (split; auto). discriminate.
      * destruct (Nat.leb_spec m passes).
        -- injection E as <- <- <-. exists st, sp. repeat (split; auto). exists m. auto.
        -- eapply IH; [| | |exact E]; auto. now apply full_pass_inv.
  - pose proof (cycles_none st a H Ha C) as Ac. destruct (stale st) as [|s0 sr] eqn:S0.
    + injection E as <- <- <-. exists st, sp. repeat (split; auto).
    + assert (Sn : stale st <> []) by (rewrite S0; discriminate). destruct (Nat.leb_spec (n + 2) (1 + sp)).
      * injection E as <- <- <-. exists st, sp. repeat (split; auto).
      * eapply IH; [| | |exact E]; auto; [now apply settle_pass_inv|lia].
Qed.

(** A convergence verdict compares one full pass with the values before it. *)
Lemma settle_converged : forall pol fuel passes sp prev st st' p,
  (forall pv, prev = Some pv -> exists st0, st = full_pass st0 /\ pv = vals st0) ->
  settle fuel pol passes sp prev st = Ok (Converged, st', p) ->
  exists st0, st' = full_pass st0 /\ all_converged V conv n (vals st0) st' = true.
Proof.
  intros pol. induction fuel as [|fuel IH]; intros passes sp prev st st' p H E; [discriminate|]. cbn [SccModel.settle] in E.
  destruct (analyze_live_graph n (live_edges st)) as [a| |]; cbn [rbind] in E; try discriminate.
  destruct (0 <? cycle_count a).
  - destruct pol as [|m]; [discriminate|]. destruct prev as [pv|].
    + destruct (all_converged V conv n pv st) eqn:A.
      * injection E as <- <-. destruct (H pv eq_refl) as (st0 & -> & ->). eauto.
      * destruct (m <=? passes); [discriminate|]. eapply IH; [|exact E]. intros pv' [= <-]. eauto.
    + destruct (m <=? passes); [discriminate|]. eapply IH; [|exact E]. intros pv' [= <-]. eauto.
  - destruct (stale st); [discriminate|]. destruct (n + 2 <=? 1 + sp); [discriminate|].
    eapply IH; [|exact E]. discriminate.
Qed.
Lemma settle_passes_bound : forall m fuel passes sp prev st o st' p,
  settle fuel (PIterate m) passes sp prev st = Ok (o, st', p) -> S sp <= n + 2 ->
  p <= Nat.max passes m + (n + 2 - S sp).
Proof.
  intros m. induction fuel as [|fuel IH]; intros passes sp prev st o st' p E L; [discriminate|]. cbn [SccModel.settle] in E.
  destruct (analyze_live_graph n (live_edges st)) as [a| |]; cbn [rbind] in E; try discriminate.
  destruct (0 <? cycle_count a).
  - destruct (match prev with Some pv => _ | None => _ end); [injection E as _ _ <-; lia|].
    destruct (Nat.leb_spec m passes); [injection E as _ _ <-; lia|]. apply IH in E; auto. lia.
  - destruct (stale st); [injection E as _ _ <-; lia|]. destruct (Nat.leb_spec (n + 2) (1 + sp)); [injection E as _ _ <-; lia|].
    apply IH in E; [|lia]. lia.
Qed.

(** ** Members whose demand-driven evaluation ends *)
Hypothesis noarr : forall i v, arr i v = false.
Variable e0 : nat -> bool.
Variable v0 : nat -> V.
Definition fx (i : nat) : option V := if e0 i then Some (v0 i) else None.
Notation demand := (demand f fx).

Definition baseI (st : sst V) : Prop := forall i, excl st i = e0 i /\ (e0 i = true -> vals st i = v0 i).
Definition fin (k : nat) (st : sst V) : Prop := forall i v, i < n -> demand k i = Some v -> vals st i = v.

Lemma demand_step : forall k i v rho, e0 i = false -> (forall j u, j < n -> demand k j = Some u -> rho j = u) ->
  demand (S k) i = Some v -> fst (run_prog (f i) rho) = v.
Proof.
  intros k i v rho E0 H D. cbn [SccSpec.demand] in D. unfold fx in D at 1. rewrite E0 in D.
  exact (proj1 (run_of_demand_prog V n (demand k) (f i) rho v (f_ok i) H D)).
Qed.
Lemma demand_step' : forall k i v st, e0 i = false -> fin k st -> demand k i = Some v -> fst (run_prog (f i) (vals st)) = v.
Proof.
  intros k i v st E0 H D. destruct k as [|k]; [cbn in D; unfold fx in D; rewrite E0 in D; discriminate|].
  apply (demand_step k); auto. intros j u Hj Dj. apply H; auto. now apply demand_mono.
Qed.

Lemma run_member_base : forall i st, e0 i = false -> baseI st -> baseI (run_member i st).
Proof.
  intros i st E0 B j. destruct (run_member_spec V veq arr circ f i st) as ((_ & _ & R) & _ & O).
  rewrite noarr in R. destruct R as [(_ & Rv & Re)|(R & _)]; [|discriminate]. destruct (Nat.eq_dec j i) as [->|N].
  - split; [rewrite Re; apply B|congruence].
  - destruct (O j N) as (O1 & O2 & _). rewrite O1, O2. apply B.
Qed.
Lemma run_member_fin : forall k i st, e0 i = false -> fin k st -> fin k (run_member i st) /\
  (forall v, demand (S k) i = Some v -> vals (run_member i st) i = v).
Proof.
  intros k i st E0 F. destruct (run_member_spec V veq arr circ f i st) as ((_ & _ & R) & _ & O).
  rewrite noarr in R. destruct R as [(_ & Rv & _)|(R & _)]; [|discriminate].
  assert (G : forall v, demand (S k) i = Some v -> vals (run_member i st) i = v).
  { intros v D. rewrite Rv. apply (demand_step k i v (vals st) E0); auto. }
  split; auto. intros j v Hj D. destruct (Nat.eq_dec j i) as [->|N].
  - apply G. now apply demand_mono.
  - destruct (O j N) as (O1 & _). rewrite O1. auto.
Qed.
Lemma pass_fin : forall k ord p st, NoDup ord -> (forall i, In i ord -> e0 i = false) -> baseI st -> fin k st ->
  let st' := pass_from p ord st in
  baseI st' /\ fin k st' /\ (forall i v, In i ord -> demand (S k) i = Some v -> vals st' i = v).
Proof.
  intros k. induction ord as [|i r IH]; intros p st ND He B F; cbn [SccModel.pass_from].
  - split; auto. split; auto. intros i v [].
  - inversion ND as [|? ? Ni NDr]; subst. assert (E0 : e0 i = false) by (apply He; now left).
    destruct (run_member_fin k i st E0 F) as [F1 G]. pose proof (run_member_base i st E0 B) as B1.
    destruct (IH (S p) (set_pos i p (run_member i st)) NDr) as (I1 & I2 & I3); auto.
    { intros j Hj. apply He. now right. }
    cbv zeta in *. split; auto. split; auto. intros j v [<-|Hj] D; [|eauto].
    destruct (pass_spec V veq arr circ f r (S p) (set_pos i p (run_member i st)) NDr) as [A _]. cbv zeta in A.
    destruct (A i Ni) as (E & _). rewrite E. cbn. auto.
Qed.

(** The invariant of the loop after [k] passes. *)
Definition LI (k : nat) (st : sst V) : Prop := baseI st /\ fin k st /\
  forall t v, t < n -> demand (k - 1) t = Some v -> chg st t = false.

Lemma pass_LI : forall k ord st, NoDup ord -> (forall i, In i ord -> e0 i = false) -> baseI st -> fin k st ->
  (forall i v, i < n -> ~ In i ord -> demand (S k) i = Some v -> vals st i = v) ->
  LI (S k) (pass_from 0 ord (reset st)).
Proof.
  intros k ord st ND He B F Hn. destruct (pass_fin k ord 0 (reset st) ND He B F) as (B' & F' & G). cbv zeta in *.
  destruct (pass_spec V veq arr circ f ord 0 (reset st) ND) as [A R]. cbv zeta in *.
  split; auto. split.
  - intros i v Hi D. destruct (in_dec_nat i ord) as [I|N]; [eauto|]. destruct (A i N) as (E & _). rewrite E. cbn. eauto.
  - intros t v Ht D. replace (S k - 1) with k in D by lia. destruct (in_dec_nat t ord) as [I|N].
    + destruct (R t I) as (rho & q & (_ & Rc & _) & _). rewrite Rc. cbn [SccModel.reset vals].
      rewrite (F t v Ht D), (F' t v Ht D). rewrite (proj2 (veq_eq v v)); auto.
    + destruct (A t N) as (_ & _ & _ & _ & E). rewrite E. reflexivity.
Qed.
Lemma evaluable_e0 : forall st i, baseI st -> In i (evaluable st) -> e0 i = false.
Proof. intros st i B H. apply evaluable_in in H. destruct (B i) as [E _]. rewrite <- E. tauto. Qed.

Lemma full_pass_LI : forall k st, baseI st -> fin k st -> LI (S k) (full_pass st).
Proof.
  intros k st B F. apply pass_LI; auto; [apply evaluable_nd|intros; eapply evaluable_e0; eauto|].
  intros i v Hi N D. destruct (B i) as [E1 E2]. destruct (e0 i) eqn:E0.
  - rewrite E2 by auto. cbn in D. unfold fx in D. rewrite E0 in D. congruence.
  - exfalso. apply N. apply evaluable_in. auto.
Qed.
Lemma settle_pass_LI : forall k st topo, INV st -> acyclic_now st -> LI k st -> LI (S k) (settle_pass topo st).
Proof.
  intros k st topo H Ac (B & F & _). apply pass_LI; auto; [apply settle_ord_nd| |].
  - intros i Hi. rewrite sort_by_in in Hi. apply stale_evaluable in Hi. eapply evaluable_e0; eauto.
  - intros i v Hi N D. rewrite sort_by_in in N. destruct (B i) as [E1 E2]. destruct (e0 i) eqn:E0.
    + rewrite E2 by auto. cbn in D. unfold fx in D. rewrite E0 in D. congruence.
    + assert (St : run_prog (f i) (vals st) = (vals st i, outs st i)) by (apply (settled V n f st i H Ac Hi); congruence).
      pose proof (demand_step k i v (vals st) E0 F D) as Q. rewrite St in Q. exact Q.
Qed.

(** Recursion deeper than the number of members gives nothing new. *)
Definition defd (k : nat) : list nat := filter (fun i => match demand k i with Some _ => true | None => false end) (seq 0 n).
Lemma defd_in : forall k i, In i (defd k) <-> i < n /\ exists v, demand k i = Some v.
Proof.
  intros k i. unfold defd. rewrite filter_In, in_seq. destruct (demand k i) as [v|]; split; intros [A B]; split; auto; try lia; eauto; try discriminate.
  destruct B; discriminate.
Qed.
Lemma demand_same : forall k, (forall i, In i (defd (S k)) -> In i (defd k)) ->
  forall m i v, i < n -> demand m i = Some v -> demand k i = Some v.
Proof.
  intros k H. assert (H1 : forall i v, i < n -> demand (S k) i = Some v -> demand k i = Some v).
  { intros i v Hi D. assert (Hd : In i (defd k)) by (apply H, defd_in; eauto). apply defd_in in Hd. destruct Hd as (_ & w & Dw).
    pose proof (demand_mono V f fx k i w Dw). congruence. }
  induction m as [|m IH]; intros i v Hi D.
  - apply (demand_le V f fx 0 k i v); auto. lia.
  - destruct (e0 i) eqn:E0.
    + cbn in D. unfold fx in D. rewrite E0 in D. destruct k; cbn; unfold fx; rewrite E0; auto.
    + apply H1; auto. cbn [SccSpec.demand] in D |- *. unfold fx in D at 1. unfold fx at 1. rewrite E0 in *.
      pose proof (f_ok i) as Ok. revert D. generalize (f i) at 1 2, Ok. clear - IH.
      intros p Ok. induction Ok as [w|j q Hj _ IHp]; intros D; cbn in *; auto.
      destruct (demand m j) as [u|] eqn:Ej; [|discriminate]. rewrite (IH j u Hj Ej). auto.
Qed.
Lemma demand_deep : forall m i v, i < n -> demand m i = Some v -> demand n i = Some v.
Proof.
  assert (Inc : forall k, incl (defd k) (defd (S k))).
  { intros k i Hi. apply defd_in in Hi. destruct Hi as (Hi & v & D). apply defd_in. split; auto. exists v. now apply demand_mono. }
  assert (NDd : forall k, NoDup (defd k)) by (intros; apply NoDup_filter, seq_NoDup).
  assert (G : forall k, (exists j, j <= k /\ forall i, In i (defd (S j)) -> In i (defd j)) \/ k < length (defd (S k))).
  { induction k as [|k [(j & Hj & Hd)|L]].
    - destruct (Nat.lt_ge_cases (length (defd 0)) (length (defd 1))) as [L|L]; [right; lia|].
      left. exists 0. split; auto. apply NoDup_length_incl; auto.
    - left. exists j. split; auto.
    - destruct (Nat.lt_ge_cases (length (defd (S k))) (length (defd (S (S k))))) as [L'|L']; [right; lia|].
      left. exists (S k). split; auto. apply NoDup_length_incl; auto. }
  intros m i v Hi D. destruct (G n) as [(j & Hj & Hd)|L].
  - apply (demand_le V f fx j n); auto. eapply demand_same; eauto.
  - exfalso. assert (length (defd (S n)) <= n).
    { rewrite <- (seq_length n 0) at 2. apply NoDup_incl_length; auto. intros x Hx. apply defd_in in Hx. apply in_seq. lia. }
    lia.
Qed.

(** After more passes than members: either everything is final and nothing is
    stale, or a cycle is in the recording. *)
Lemma late_defined : forall k st, INV st -> acyclic_now st -> LI k st -> n + 1 <= k ->
  forall i, i < n -> exists v, demand n i = Some v.
Proof.
  intros k st H Ac (B & F & C) Lk.
  assert (Fn : fin n st). { intros i v Hi D. apply (F i v Hi). apply (demand_le V f fx n k); auto. lia. }
  assert (Cn : forall t v, t < n -> demand n t = Some v -> chg st t = false).
  { intros t v Ht D. apply (C t v Ht). apply (demand_le V f fx n (k - 1)); auto. lia. }
  destruct (acyclic_order V n f f_ok st H Ac) as (order & P & T).
  assert (G : forall pre post, order = pre ++ post -> forall i, In i pre -> exists v, demand n i = Some v).
  { intros pre. induction pre as [|x pre IH] using rev_ind; intros post Es i Hi; [destruct Hi|].
    rewrite <- app_assoc in Es. cbn [app] in Es. specialize (IH (x :: post) Es).
    apply in_app_iff in Hi. destruct Hi as [Hi|[<-|[]]]; auto.
    assert (Hx : x < n). { assert (In x (seq 0 n)). { eapply Permutation_in; [exact P|]. rewrite Es. apply in_or_app. right. now left. } apply in_seq in H0. lia. }
    destruct (e0 x) eqn:E0. { exists (v0 x). destruct n; cbn; unfold fx; rewrite E0; auto. }
    assert (Ex : excl st x = false) by (rewrite (proj1 (B x)); auto).
    destruct (H x Hx Ex) as (rho & R & S). exists (vals st x). apply (demand_deep (Datatypes.S n)); auto.
    cbn [SccSpec.demand]. unfold fx at 1. rewrite E0. rewrite (demand_prog_of_run V _ (f x) rho); [now rewrite R|].
    intros t Ht. rewrite R in Ht. cbn in Ht. pose proof (T pre x post t Es Ex Ht) as It. destruct (IH t It) as (u & Du).
    assert (Ht' : t < n) by (eapply outs_bound; eauto).
    assert (Nt : t <> x).
    { intros ->. assert (ND : NoDup order) by (eapply Permutation_NoDup; [apply Permutation_sym, P|apply seq_NoDup]).
      rewrite Es in ND. apply NoDup_remove_2 in ND. apply ND. apply in_or_app. now left. }
    destruct (S t Ht Nt) as [E|E].
    - rewrite E. rewrite Du. f_equal. symmetry. eapply Fn; eauto.
    - unfold SccModel.stale_read in E. rewrite (Cn t u Ht' Du) in E. discriminate. }
  intros i Hi. apply (G order []); [now rewrite app_nil_r|]. eapply Permutation_in; [apply Permutation_sym, P|]. apply in_seq. lia.
Qed.
Lemma late_settled : forall k st, INV st -> acyclic_now st -> LI k st -> n + 1 <= k -> stale st = [].
Proof.
  intros k st H Ac L Lk. pose proof (late_defined k st H Ac L Lk) as D. destruct L as (B & F & C).
  destruct (stale st) as [|i l] eqn:E; auto. exfalso.
  assert (I : In i (stale st)) by (rewrite E; now left). unfold SccModel.stale in I. apply filter_In in I. destruct I as [Iv Ex].
  apply evaluable_in in Iv. destruct Iv as [Hi Ei]. apply existsb_exists in Ex. destruct Ex as (t & It & S).
  assert (Ht : t < n) by (eapply outs_bound; eauto). destruct (D t Ht) as (u & Du).
  unfold SccModel.stale_read in S. rewrite (C t u Ht) in S; [discriminate|]. apply (demand_le V f fx n (k - 1)); auto. lia.
Qed.
(** If every member's demand-driven evaluation ends, a late recording has no cycle. *)
Lemma late_acyclic : forall k st, INV st -> LI k st -> n + 1 <= k -> (forall i, i < n -> exists v, demand n i = Some v) -> acyclic_now st.
Proof.
  intros k st H (B & F & C) Lk D i Hi Cy.
  assert (Fn : fin n st). { intros j v Hj Dj. apply (F j v Hj). apply (demand_le V f fx n k); auto. lia. }
  assert (Cn : forall t, t < n -> chg st t = false).
  { intros t Ht. destruct (D t Ht) as (v & Dv). apply (C t v Ht). apply (demand_le V f fx n (k - 1)); auto. lia. }
  (* at its least depth, a member's reads are of members of smaller depth *)
  assert (Step : forall d x y v, demand (Datatypes.S d) x = Some v -> demand d x = None -> reads (live_edges st) x y -> exists u, demand d y = Some u /\ y < n).
  { intros d x y v Dx Min R. apply live_edges_in in R. destruct R as (Hx & Ex & It).
    destruct (B x) as [Bx _]. rewrite Ex in Bx. symmetry in Bx.
    destruct (H x Hx Ex) as (rho & R & S).
    cbn [SccSpec.demand] in Dx. unfold fx in Dx at 1. rewrite Bx in Dx.
    assert (W : forall p, prog_ok n p -> (forall t, In t (snd (run_prog p rho)) -> In t (outs st x)) -> demand_prog (demand d) p = Some v ->
       forall t, In t (snd (run_prog p rho)) -> exists u, demand d t = Some u /\ t < n).
    { intros p Ok. induction Ok as [w|j q Hj _ IHp]; intros Inc Dp t Ht; cbn in *; [tauto|].
      destruct (demand d j) as [u|] eqn:Ej; [|discriminate].
      assert (Ij : In j (outs st x)). { apply Inc. destruct (run_prog (q (rho j)) rho). now left. }
      assert (Nj : j <> x) by congruence.
      assert (Er : rho j = u).
      { destruct (S j Ij Nj) as [E|E].
        - rewrite E. apply (Fn j u Hj). apply (demand_deep d); auto.
        - unfold SccModel.stale_read in E. rewrite (Cn j Hj) in E. discriminate. }
      rewrite Er in *. specialize (IHp u).
      destruct (run_prog (q u) rho) as [w tr] eqn:Eq. cbn in *. destruct Ht as [<-|Ht]; [eauto|].
      apply IHp; auto. }
    apply (W (f x) (f_ok x)); auto; rewrite R; cbn; auto. }
  assert (NC : forall d x v, demand d x = Some v -> x < n -> on_cycle (reads (live_edges st)) x -> False).
  { induction d as [|d IH]; intros x v Dx Hx (y & R & P).
    - pose proof R as R'. apply live_edges_in in R'. destruct R' as (_ & Ex & _). destruct (B x) as [Bx _].
      cbn in Dx. unfold fx in Dx. rewrite <- Bx, Ex in Dx. discriminate.
    - destruct (demand d x) as [w|] eqn:Ed; [apply (IH x w Ed Hx); exists y; auto|].
      destruct (Step d x y v Dx Ed R) as (u & Du & Hy). apply (IH y u Du Hy).
      inversion P as [z E1 E2|z y' z' E1 P1]; subst; [exists x|exists y']; split; auto.
      eapply reach_trans'; [exact P1|]. eapply r_step; [exact R|constructor]. }
  destruct (D i Hi) as (v & Dv). eapply NC; eauto.
Qed.
End Cap.
