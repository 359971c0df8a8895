(** Lemmas about SccModel: one pass, the read invariant, exactness. *)
From Coq Require Import Permutation Sorted.
From Verif Require Import Base GraphSpec LiveGraphSpec TarjanModel ListSort LiveGraphModel LiveGraphProofs SchedModel SchedProofs SchedProofs2 SccModel SccSpec.

Lemma run_agree : forall V (p : prog V) rho rho', (forall t, In t (snd (run_prog p rho)) -> rho t = rho' t) ->
  run_prog p rho' = run_prog p rho.
Proof.
  intros V p rho rho'. induction p as [v|j k IH]; intros H; cbn in *; auto.
  assert (Ej : rho j = rho' j). { apply H. destruct (run_prog (k (rho j)) rho). now left. }
  rewrite <- Ej. rewrite IH; auto. intros t Ht. apply H. destruct (run_prog (k (rho j)) rho). now right.
Qed.
Lemma run_reads : forall V n (p : prog V) rho t, prog_ok n p -> In t (snd (run_prog p rho)) -> t < n.
Proof.
  intros V n p rho t H. induction H as [v|j k Hj _ IH]; cbn; [tauto|]. intros Ht. specialize (IH (rho j)).
  destruct (run_prog (k (rho j)) rho) as [v tr]. cbn in *. destruct Ht as [<-|Ht]; auto.
Qed.

Section Scc.
Variable V : Type.
Variable veq : V -> V -> bool.
Hypothesis veq_eq : forall a b, veq a b = true <-> a = b.
Variable arr : nat -> V -> bool.
Variable circ : V.
Variable conv : V -> V -> bool.
Variable n : nat.
Variable f : nat -> prog V.
Hypothesis f_ok : forall i, prog_ok n (f i).
Notation run_member := (run_member V veq arr circ f).
Notation pass_from := (pass_from V veq arr circ f).
Notation full_pass := (full_pass V veq arr circ n f).
Notation settle_pass := (settle_pass V veq arr circ n f).
Notation evaluable := (evaluable V n).
Notation live_edges := (live_edges V n).
Notation stale := (stale V n).
Notation stale_read := (stale_read V).
Notation set_pos := (set_pos V).
Notation reset := (reset V).

(** What running i on rho leaves behind. *)
Definition ran (st0 st : sst V) (i : nat) (rho : nat -> V) : Prop :=
  outs st i = snd (run_prog (f i) rho) /\
  chg st i = negb (veq (vals st0 i) (vals st i)) /\
  ((arr i (fst (run_prog (f i) rho)) = false /\ vals st i = fst (run_prog (f i) rho) /\ excl st i = excl st0 i) \/
   (arr i (fst (run_prog (f i) rho)) = true /\ vals st i = circ /\ excl st i = true)).

Lemma run_member_spec : forall i st, let st' := run_member i st in
  ran st st' i (vals st) /\ pos st' = pos st /\
  (forall j, j <> i -> vals st' j = vals st j /\ excl st' j = excl st j /\ outs st' j = outs st j /\ chg st' j = chg st j).
Proof.
  intros i st. unfold ran, SccModel.run_member. destruct (run_prog (f i) (vals st)) as [v tr] eqn:E. cbn [fst snd].
  destruct (arr i v) eqn:A; cbn [vals excl outs pos chg]; rewrite !fupd_same; (split; [|split; [reflexivity|]]);
    try (intros j Hj; rewrite !fupd_other by auto; auto).
  - repeat split; auto.
  - repeat split; auto.
Qed.

Lemma pass_spec : forall ord p st, NoDup ord -> let st' := pass_from p ord st in
  (forall i, ~ In i ord -> vals st' i = vals st i /\ excl st' i = excl st i /\ outs st' i = outs st i /\ pos st' i = pos st i /\ chg st' i = chg st i) /\
  (forall i, In i ord -> exists rho q, ran st st' i rho /\ pos st' i = Some q /\ p <= q /\ rho i = vals st i /\
     forall t, t <> i -> rho t = vals st' t \/ (rho t = vals st t /\ In t ord /\ exists q', pos st' t = Some q' /\ q < q')).
Proof.
  induction ord as [|i r IH]; intros p st ND; cbn [SccModel.pass_from].
  - split; [auto|]. intros i [].
  - inversion ND as [|? ? Ni NDr]; subst. destruct (run_member_spec i st) as (R & P & O). set (st1 := run_member i st) in *.
    destruct (IH (S p) (set_pos i p st1) NDr) as [A B]. cbv zeta in *. set (st' := pass_from (S p) r (set_pos i p st1)) in *.
    cbn [SccModel.set_pos vals excl outs pos chg] in A, B.
    destruct (A i Ni) as (A1 & A2 & A3 & A4 & A5). rewrite fupd_same in A4.
    split.
    + intros j Hj. destruct (A j) as (B1 & B2 & B3 & B4 & B5). { intros H. apply Hj. now right. }
      assert (Nj : j <> i). { intros ->. apply Hj. now left. }
      destruct (O j Nj) as (O1 & O2 & O3 & O4). rewrite fupd_other in B4 by auto. rewrite B1, B2, B3, B4, B5, O1, O2, O3, O4, P. auto.
    + intros j [<-|Hj].
      * exists (vals st), p. split; [|split; [exact A4|split; [lia|split; [reflexivity|]]]].
        -- unfold ran in *. now rewrite A1, A2, A3, A5.
        -- intros t Ht. destruct (in_dec_nat t r) as [I|N].
           ++ right. split; auto. split; [now right|]. destruct (B t I) as (_ & q & _ & Pq & Lq & _). exists q. split; auto.
           ++ left. destruct (A t N) as (E & _). rewrite E. symmetry. now apply O.
      * assert (Nj : j <> i) by (intros ->; auto). destruct (B j Hj) as (rho & q & Rj & Pq & Lq & Ej & T). exists rho, q.
        destruct (O j Nj) as (O1 & O2 & _). split; [|split; [exact Pq|split; [lia|split]]].
        -- unfold ran in *. cbn [SccModel.set_pos vals excl outs pos chg] in Rj. rewrite O1, O2 in Rj. exact Rj.
        -- now rewrite Ej.
        -- intros t Ht. destruct (T t Ht) as [E|(E & I & Q)]; auto. right.
           assert (t <> i) by (intros ->; auto). split; [rewrite E; now apply O|]. split; auto. now right.
Qed.

(** Every member not excluded has the value and reads of a run on some values, which
    agree with the present ones except for reads flagged stale. *)
Definition INV (st : sst V) : Prop := forall i, i < n -> excl st i = false ->
  exists rho, run_prog (f i) rho = (vals st i, outs st i) /\
    forall t, In t (outs st i) -> t <> i -> rho t = vals st t \/ stale_read st i t = true.

Lemma evaluable_in : forall st i, In i (evaluable st) <-> i < n /\ excl st i = false.
Proof. intros. unfold SccModel.evaluable. rewrite filter_In, in_seq. destruct (excl st i); cbn; split; intros []; split; auto; try lia; discriminate. Qed.
Lemma evaluable_nd : forall st, NoDup (evaluable st).
Proof. intros. apply NoDup_filter, seq_NoDup. Qed.

(** After a pass, for a member that ran. *)
Lemma pass_ran_inv : forall ord st i, NoDup ord -> In i ord ->
  let st' := pass_from 0 ord (reset st) in excl st' i = false ->
  exists rho, run_prog (f i) rho = (vals st' i, outs st' i) /\
    forall t, t <> i -> rho t = vals st' t \/ stale_read st' i t = true.
Proof.
  intros ord st i ND Hi st' Ex. destruct (pass_spec ord 0 (reset st) ND) as [_ B]. cbv zeta in B. fold st' in B.
  destruct (B i Hi) as (rho & q & (Ro & Rc & Rv) & Pq & _ & Ei & T). exists rho. split.
  - destruct Rv as [(_ & Rv & _)|(_ & _ & Rv)]; [|congruence]. rewrite Rv, Ro. now destruct (run_prog (f i) rho).
  - intros t Ht. destruct (T t Ht) as [E|(E & It & q' & Pq' & Lq)]; auto.
    destruct (B t It) as (rho' & q2 & (_ & Rc' & _) & Pt & _). cbn [SccModel.reset vals] in *.
    destruct (veq (vals st t) (vals st' t)) eqn:Ev.
    + left. apply veq_eq in Ev. congruence.
    + right. unfold SccModel.stale_read. rewrite Rc', Pq, Pq'. cbn. apply Nat.ltb_lt. exact Lq.
Qed.
Lemma pass_excl_mono : forall ord st i, NoDup ord -> excl (pass_from 0 ord (reset st)) i = false -> excl st i = false.
Proof.
  intros ord st i ND H. destruct (pass_spec ord 0 (reset st) ND) as [A B]. cbv zeta in *.
  destruct (in_dec_nat i ord) as [I|N].
  - destruct (B i I) as (rho & q & (_ & _ & [(_ & _ & E)|(_ & _ & E)]) & _); cbn in *; congruence.
  - destruct (A i N) as (_ & E & _). cbn in *. congruence.
Qed.

Lemma full_pass_inv : forall st, INV (full_pass st).
Proof.
  intros st i Hi Ex. unfold SccModel.full_pass in *.
  assert (I : In i (evaluable st)). { apply evaluable_in. split; auto. eapply pass_excl_mono; [apply evaluable_nd|exact Ex]. }
  destruct (pass_ran_inv (evaluable st) st i (evaluable_nd st) I Ex) as (rho & R & T). exists rho. split; auto.
Qed.

Lemma outs_bound : forall st i t, INV st -> i < n -> excl st i = false -> In t (outs st i) -> t < n.
Proof.
  intros st i t H Hi Ex Ht. destruct (H i Hi Ex) as (rho & R & _). apply (run_reads V n (f i) rho); auto. now rewrite R.
Qed.
Lemma live_edges_in : forall st i t, In (i, t) (live_edges st) <-> i < n /\ excl st i = false /\ In t (outs st i).
Proof.
  clear veq_eq f_ok veq arr circ conv f. intros. unfold SccModel.live_edges. rewrite in_flat_map. split.
  - intros (x & Hx & H). apply in_map_iff in H. destruct H as (y & [= -> ->] & Hy). apply evaluable_in in Hx.
    rewrite sort_nat_in, dedup_in in Hy. tauto.
  - intros (H1 & H2 & H3). exists i. split; [apply evaluable_in; auto|]. apply in_map_iff. exists t. split; auto.
    now rewrite sort_nat_in, dedup_in.
Qed.
Lemma flat_sorted : forall (g : nat -> list nat) l, StronglySorted lt l ->
  StronglySorted (fun a b : nat * nat => fst a <= fst b) (flat_map (fun i => map (fun t => (i, t)) (g i)) l).
Proof.
  intros g l H. induction H as [|i l H IH F]; cbn; [constructor|].
  assert (Fl : Forall (fun b : nat * nat => i <= fst b) (flat_map (fun i => map (fun t => (i, t)) (g i)) l)).
  { apply Forall_forall. intros [a b] I. apply in_flat_map in I. destruct I as (x & Hx & I). apply in_map_iff in I.
    destruct I as (y & [= -> ->] & _). rewrite Forall_forall in F. specialize (F a Hx). cbn. lia. }
  induction (g i) as [|t ts IHt]; cbn; auto. constructor; auto. apply Forall_app. split; auto.
  apply Forall_forall. intros [a b] I. apply in_map_iff in I. destruct I as (y & [= -> ->] & _). cbn. lia.
Qed.
Lemma filter_seq_sorted : forall (p : nat -> bool) k m, StronglySorted lt (filter p (seq m k)).
Proof.
  intros p. induction k as [|k IH]; intros m; cbn; [constructor|]. destruct (p m); auto. constructor; auto.
  apply Forall_forall. intros x H. apply filter_In in H. destruct H as [H _]. apply in_seq in H. lia.
Qed.
Lemma live_recorded : forall st, INV st -> recorded n (live_edges st).
Proof.
  intros st H. split.
  - intros i t I. apply live_edges_in in I. destruct I as (Hi & Ex & It). split; auto. eapply outs_bound; eauto.
  - apply flat_sorted. apply filter_seq_sorted.
Qed.

Definition acyclic_now (st : sst V) : Prop := forall i, i < n -> ~ on_cycle (reads (live_edges st)) i.

(** Not stale and not cyclic: recomputing changes nothing. *)
Lemma settled : forall st i, INV st -> acyclic_now st -> i < n -> excl st i = false -> ~ In i (stale st) ->
  run_prog (f i) (vals st) = (vals st i, outs st i).
Proof.
  intros st i H Ac Hi Ex Ns. destruct (H i Hi Ex) as (rho & R & T). rewrite <- R. apply run_agree.
  intros t Ht. rewrite R in Ht. cbn in Ht. assert (t <> i).
  { intros ->. apply (Ac i Hi). exists i. split; [apply live_edges_in; auto|constructor]. }
  destruct (T t Ht H0) as [|S]; auto. exfalso. apply Ns. unfold SccModel.stale. apply filter_In. split; [apply evaluable_in; auto|].
  apply existsb_exists. eauto.
Qed.

Lemma stale_evaluable : forall st i, In i (stale st) -> In i (evaluable st).
Proof. intros st i H. unfold SccModel.stale in H. now apply filter_In in H. Qed.
Lemma settle_ord_nd : forall topo st, NoDup (sort_by (topo_pos topo) (stale st)).
Proof.
  intros. eapply Permutation_NoDup; [apply Permutation_sym, sort_by_perm|]. apply NoDup_filter, evaluable_nd.
Qed.

Lemma settle_pass_inv : forall topo st, INV st -> acyclic_now st -> INV (settle_pass topo st).
Proof.
  intros topo st H Ac i Hi Ex. unfold SccModel.settle_pass in *. set (ord := sort_by (topo_pos topo) (stale st)) in *.
  assert (ND : NoDup ord) by apply settle_ord_nd.
  destruct (in_dec_nat i ord) as [I|N].
  - destruct (pass_ran_inv ord st i ND I Ex) as (rho & R & T). exists rho. split; auto.
  - pose proof (pass_excl_mono ord st i ND Ex) as Ex0.
    assert (Ns : ~ In i (stale st)). { intros K. apply N. unfold ord. now apply sort_by_in. }
    pose proof (settled st i H Ac Hi Ex0 Ns) as S0. destruct (pass_spec ord 0 (reset st) ND) as [A B]. cbv zeta in *.
    destruct (A i N) as (A1 & A2 & A3 & A4 & A5). cbn [SccModel.reset vals outs pos] in A1, A3, A4. exists (vals st). rewrite A1, A3. split; auto.
    intros t Ht Nt. destruct (in_dec_nat t ord) as [It|Nt'].
    + destruct (B t It) as (rho' & q2 & (_ & Rc' & _) & Pt & _). cbn [SccModel.reset vals] in *.
      destruct (veq (vals st t) (vals (pass_from 0 ord (reset st)) t)) eqn:Ev.
      * left. now apply veq_eq in Ev.
      * right. unfold SccModel.stale_read. rewrite Rc', A4. reflexivity.
    + left. destruct (A t Nt') as (E & _). cbn in E. now rewrite E.
Qed.

(** Leaving the loop with nothing stale and no cycle. *)
Lemma exact_fixpoint : forall st, INV st -> acyclic_now st -> stale st = [] -> fixpoint n f st.
Proof.
  intros st H Ac S i Hi Ex. rewrite (settled st i H Ac Hi Ex); auto. rewrite S. auto.
Qed.

(** Demand-driven evaluation. *)
Lemma demand_prog_mono : forall (m m' : nat -> option V) p v, (forall j u, m j = Some u -> m' j = Some u) ->
  demand_prog m p = Some v -> demand_prog m' p = Some v.
Proof.
  intros m m' p v H. revert v. induction p as [w|j k IH]; intros v D; cbn in *; auto. destruct (m j) as [u|] eqn:E; [|discriminate].
  rewrite (H j u E). now apply IH.
Qed.
Lemma demand_mono : forall fixed d i v, demand f fixed d i = Some v -> demand f fixed (S d) i = Some v.
Proof.
  intros fixed. induction d as [|d IH]; intros i v D.
  - cbn in *. destruct (fixed i); [exact D|discriminate].
  - cbn [demand] in *. destruct (fixed i); auto. eapply demand_prog_mono; [|exact D]. intros j u E. now apply IH.
Qed.
Lemma demand_le : forall fixed d d' i v, d <= d' -> demand f fixed d i = Some v -> demand f fixed d' i = Some v.
Proof. intros fixed d d' i v L D. induction L; auto. now apply demand_mono. Qed.
Lemma demand_prog_of_run : forall (m : nat -> option V) (p : prog V) rho, (forall t, In t (snd (run_prog p rho)) -> m t = Some (rho t)) ->
  demand_prog m p = Some (fst (run_prog p rho)).
Proof.
  intros m p rho. induction p as [v|j k IH]; intros H; cbn in *; auto. specialize (IH (rho j)).
  destruct (run_prog (k (rho j)) rho) as [v tr]. cbn in *. rewrite (H j) by now left. apply IH. auto.
Qed.
Lemma run_of_demand_prog : forall (m : nat -> option V) (p : prog V) rho v, prog_ok n p -> (forall t u, t < n -> m t = Some u -> rho t = u) ->
  demand_prog m p = Some v -> fst (run_prog p rho) = v /\ forall t, In t (snd (run_prog p rho)) -> exists u, m t = Some u.
Proof.
  intros m p rho v Hp H. revert v. induction Hp as [w|j k Hj _ IH]; intros v D; cbn in *.
  - injection D as ->. split; auto. intros t [].
  - destruct (m j) as [u|] eqn:E; [|discriminate]. rewrite (H j u Hj E). destruct (IH u v D) as [I1 I2].
    destruct (run_prog (k u) rho) as [w tr]. cbn in *. split; auto. intros t [<-|Ht]; eauto.
Qed.

(** In an acyclic recording the members can be ordered. *)
Lemma acyclic_order : forall st, INV st -> acyclic_now st ->
  exists order, Permutation order (seq 0 n) /\
    forall pre x post t, order = pre ++ x :: post -> excl st x = false -> In t (outs st x) -> In t pre.
Proof.
  intros st H Ac. destruct (analyze_ok n (live_edges st) (live_recorded st H)) as (a & _ & _ & _ & (P & T & _)).
  exists (topo a). split; auto. intros pre x post t Es Ex Ht.
  assert (Hx : x < n). { assert (In x (seq 0 n)). { eapply Permutation_in; [exact P|]. rewrite Es. apply in_or_app. right. now left. } apply in_seq in H0. lia. }
  assert (R : reads (live_edges st) x t) by (apply live_edges_in; auto).
  destruct (T pre x post t Es R) as [|[_ S]]; auto. exfalso. apply (Ac x Hx). exists t. auto.
Qed.

Lemma exact_demand : forall st, INV st -> acyclic_now st -> stale st = [] ->
  forall i, i < n -> demands f (fun i => if excl st i then Some (vals st i) else None) i (vals st i).
Proof.
  intros st H Ac S. set (fx := fun i => if excl st i then Some (vals st i) else None).
  destruct (acyclic_order st H Ac) as (order & P & T).
  assert (G : forall pre post, order = pre ++ post -> forall i, In i pre -> demand f fx (length pre) i = Some (vals st i)).
  { intros pre. induction pre as [|x pre IH] using rev_ind; intros post Es i Hi; [destruct Hi|].
    rewrite app_length. cbn [length]. rewrite Nat.add_1_r. rewrite <- app_assoc in Es. cbn [app] in Es.
    specialize (IH (x :: post) Es). apply in_app_iff in Hi. destruct Hi as [Hi|[<-|[]]].
    - apply demand_mono. auto.
    - assert (Hx : x < n). { assert (In x (seq 0 n)). { eapply Permutation_in; [exact P|]. rewrite Es. apply in_or_app. right. now left. } apply in_seq in H0. lia. }
      cbn [demand]. unfold fx at 1. destruct (excl st x) eqn:Ex; auto.
      rewrite (demand_prog_of_run _ (f x) (vals st)).
      + f_equal. apply (exact_fixpoint st H Ac S x Hx Ex).
      + intros t Ht. rewrite (settled st x H Ac Hx Ex) in Ht by (rewrite S; auto). cbn in Ht. apply IH. eapply T; eauto. }
  intros i Hi. exists (length order). apply (G order []); [now rewrite app_nil_r|].
  eapply Permutation_in; [apply Permutation_sym, P|]. apply in_seq. lia.
Qed.
End Scc.
