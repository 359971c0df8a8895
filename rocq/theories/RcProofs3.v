(** Proofs about RcModel.v: the invariant of histories. *)
From Coq Require Import Permutation.
From Verif Require Import Base ListSort GraphSpec TarjanModel SchedModel SchedSpec SchedProofs2 SchedProofs5
  DirtyModel DirtyProofs RcModel RcSpec RcProofs RcProofs2.

Lemma reach_imp : forall (E E' : nat -> nat -> Prop), (forall x y, E x y -> E' x y) -> forall x y, reach E x y -> reach E' x y.
Proof. intros E E' H x y R. induction R; econstructor; eauto. Qed.
Lemma cycle_imp : forall (E E' : nat -> nat -> Prop), (forall x y, E x y -> E' x y) -> forall x, on_cycle E x -> on_cycle E' x.
Proof. intros E E' H x (y & e & R). exists y. split; auto. eapply reach_imp; eauto. Qed.
Lemma strong_imp : forall (E E' : nat -> nat -> Prop), (forall x y, E x y -> E' x y) -> forall x y, strong E x y -> strong E' x y.
Proof. intros E E' H x y [A B]. split; eapply reach_imp; eauto. Qed.
Lemma good_ext : forall (E E' : nat -> nat -> Prop) vs s, (forall x y, E x y <-> E' x y) -> good_schedule E vs s -> good_schedule E' vs s.
Proof.
  intros E E' vs s H (A1 & A2 & A3 & A4 & A5 & A6 & A7).
  assert (H1 : forall x y, E x y -> E' x y) by (intros; now apply H). assert (H2 : forall x y, E' x y -> E x y) by (intros; now apply H).
  split; [exact A1|]. split; [exact A2|]. split; [exact A3|]. split; [exact A4|]. split; [|split].
  - intros i x I J K. apply (A5 i x I J). apply (cycle_imp E' E H2 x K).
  - intros i x y I J. destruct (A6 i x y I J) as [B1 B2]. split; [apply (cycle_imp E E' H1 x B1)|].
    rewrite B2. split; [apply (strong_imp E E' H1)|apply (strong_imp E' E H2)].
  - intros pre u post x y Q I J. destruct (A7 pre u post x y Q I (H2 x y J)) as [K|(K1 & K2 & K3)]; [now left|right].
    split; auto. split; auto. apply (strong_imp E E' H1 x y K2).
Qed.

Section P.
Variable V : Type.
Variable circ : V.
Variable ho : list nat -> list nat.
Hypothesis HO : forall l, Permutation (ho l) l.
Implicit Types b : book V.

Definition closed b : Prop := forall u f F, In u (b_dirty b) -> b_form b u = Some F -> reads b f u -> In f (b_dirty b).
Definition steady b (f : nat) : Prop := forall F, b_form b f = Some F -> f_volatile F = false.
Definition clean b : Prop := forall f t, ~ In f (b_dirty b) -> steady b f -> settled circ t b f.
Definition volflag b : Prop := forall v F, b_form b v = Some F -> f_volatile F = true -> In v (b_vol b).
Definition voldirty b : Prop := forall v F, b_form b v = Some F -> In v (b_vol b) -> In v (b_dirty b).
Definition cache_ok b : Prop := match b_cache b with
  | Some (topo, vs, s) => topo <= b_topo b /\ (topo = b_topo b -> good_schedule (needs (deps_of b) vs) vs s)
  | None => True
  end.
Definition core b : Prop := wf V b /\ plain_book V b /\ closed b /\ clean b /\ volflag b /\ cache_ok b.
Definition inv b : Prop := core b /\ voldirty b.

(** ** Schedules *)
Lemma deps_reads : forall b v u, In u (deps_of b v) -> reads b v u.
Proof.
  intros b v u H. unfold deps_of in H. destruct (b_form b v) as [F|] eqn:E; [|destruct H]. exists F. split; auto.
  apply dedup_in, in_app_or in H. unfold f_reads. apply in_or_app. destruct H as [H|H]; auto.
  destruct (memb v (f_cells F)) eqn:M; [|destruct H]. destruct H as [<-|[]]. right. now apply memb_spec.
Qed.
Lemma vdeps_in : forall b v u, In u (vdeps b v) <-> exists F, b_form b v = Some F /\ In u (f_cells F) /\ is_form b u = true
  /\ (In u (b_dirty b) \/ In u (b_vol b)) /\ u <> v.
Proof.
  intros b v u. unfold vdeps. destruct (b_form b v) as [F|] eqn:E.
  - rewrite sort_nat_in, dedup_in, filter_In, !andb_true_iff, orb_true_iff, !memb_spec, negb_true_iff, Nat.eqb_neq. split.
    + intros (A & (B & C) & D). exists F. auto 10.
    + intros (F' & Q & A & B & C & D). injection Q as <-. auto.
  - split; [intros []|intros (F & Q & _); discriminate].
Qed.
Lemma vdeps_reads : forall b v u, In u (vdeps b v) -> reads b v u.
Proof. intros b v u H. apply vdeps_in in H. destruct H as (F & E & I & _). exists F. split; auto. apply in_or_app; now right. Qed.
Lemma mirrored_ok : forall b vs, wf V b -> incl vs (b_ids b) -> mirrored (deps_of b) (dependents_of b) vs.
Proof.
  intros b vs [ND W] Inc u v Hu Hv.
  assert (ND1 : NoDup (deps_of b v)) by (unfold deps_of; destruct (b_form b v); [apply dedup_NoDup|constructor]).
  assert (ND2 : NoDup (dependents_of b u)) by (apply NoDup_filter, ND).
  rewrite (NoDup_count_occ' Nat.eq_dec) in ND1, ND2.
  assert (K : In v (dependents_of b u) <-> In u (deps_of b v)).
  { unfold dependents_of. rewrite filter_In, memb_spec. split; [tauto|]. intros; split; auto. }
  destruct (in_dec Nat.eq_dec u (deps_of b v)) as [I|I].
  - rewrite (ND1 u I), (ND2 v (proj2 K I)). reflexivity.
  - rewrite (proj1 (count_occ_not_In Nat.eq_dec _ _) I). apply count_occ_not_In. tauto.
Qed.

Definition all_deps b (v : nat) : list nat := deps_of b v ++ vdeps b v.
Lemma fresh_ok : forall b vs, wf V b -> incl vs (b_ids b) ->
  exists s, fresh_schedule V ho b vs = Some s /\ good_schedule (needs (all_deps b) vs) vs s.
Proof.
  intros b vs W Inc. unfold fresh_schedule.
  destruct (forallb (fun v => match vdeps b v with [] => true | _ => false end) vs) eqn:Fb.
  - destruct (create_schedule_ok (deps_of b) (dependents_of b) ho vs HO (mirrored_ok b vs W Inc)) as (s & E & Go).
    rewrite E. exists s. split; auto. apply (good_ext (needs (deps_of b) vs)); auto.
    intros x y. unfold needs, all_deps. rewrite in_app_iff. rewrite forallb_forall in Fb. split; [tauto|].
    intros (A & B & [C|C]); auto. pose proof (Fb x A) as Q. destruct (vdeps b x); [destruct C|discriminate].
  - destruct (create_schedule_virtual_ok (deps_of b) ho vs (vdeps b) HO) as (s & E & Go).
    + intros v _ H. apply vdeps_in in H. destruct H as (F & _ & _ & _ & _ & Ne). congruence.
    + rewrite E. exists s. auto.
Qed.
Lemma no_ranges_vdeps : forall b vs v, forallb (fun v => negb (has_ranges b v)) vs = true -> In v vs -> vdeps b v = [].
Proof.
  intros b vs v H I. rewrite forallb_forall in H. specialize (H v I). unfold has_ranges in H. unfold vdeps.
  destruct (b_form b v) as [F|]; auto. destruct (f_cells F); [reflexivity|discriminate].
Qed.
Lemma no_ranges_needs : forall b vs, forallb (fun v => negb (has_ranges b v)) vs = true ->
  forall x y, needs (deps_of b) vs x y <-> needs (all_deps b) vs x y.
Proof.
  intros b vs H x y. unfold needs, all_deps. rewrite in_app_iff. split; [tauto|]. intros (A & B & [C|C]); auto.
  rewrite (no_ranges_vdeps b vs x H A) in C. destruct C.
Qed.
Lemma eval_schedule_ok : forall b vs, wf V b -> cache_ok b -> incl vs (b_ids b) ->
  exists s c, eval_schedule V ho b vs = Some (s, set_cache b c) /\ good_schedule (needs (all_deps b) vs) vs s /\ cache_ok (set_cache b c).
Proof.
  intros b vs W C Inc. destruct (fresh_ok b vs W Inc) as (s0 & E0 & G0). unfold eval_schedule.
  assert (Hb : b = set_cache b (b_cache b)) by (destruct b; reflexivity).
  destruct (forallb (fun v => negb (has_ranges b v)) vs) eqn:Fb.
  - assert (New : cache_ok (set_cache b (Some (b_topo b, vs, s0)))).
    { unfold cache_ok; cbn. split; [lia|]. intros _. apply (good_ext (needs (all_deps b) vs)); auto.
      intros x y. change (needs (all_deps b) vs x y <-> needs (deps_of b) vs x y). symmetry. now apply no_ranges_needs. }
    pose proof C as C0. unfold cache_ok in C. destruct (b_cache b) as [[[topo vs'] s]|] eqn:Ec.
    + destruct ((topo =? b_topo b) && list_eqb vs' vs) eqn:Hit.
      * apply andb_true_iff in Hit. destruct Hit as [H1 H2]. apply Nat.eqb_eq in H1. unfold list_eqb in H2.
        destruct (list_eq_dec Nat.eq_dec vs' vs) as [->|]; [|discriminate]. destruct C as [_ C].
        exists s, (b_cache b). rewrite Ec, <- Hb. split; auto. split; auto.
        apply (good_ext (needs (deps_of b) vs)); [|auto]. now apply no_ranges_needs.
      * rewrite E0. exists s0, (Some (b_topo b, vs, s0)). auto.
    + rewrite E0. exists s0, (Some (b_topo b, vs, s0)). auto.
  - rewrite E0. exists s0, (b_cache b). rewrite <- Hb. auto.
Qed.

(** ** One pass *)
Lemma settled_ext : forall t b b' f, b_form b' = b_form b -> b_val b' f = b_val b f ->
  (forall u, reads b f u -> b_val b' u = b_val b u) -> settled circ t b f -> settled circ t b' f.
Proof.
  intros t b b' f Ef Ev Er S F E. rewrite Ef in E. destruct (S F E) as [S1 S2].
  assert (Q : forall x y, reads b' x y -> reads b x y) by (unfold reads; now rewrite Ef).
  assert (Q' : forall x y, reads b x y -> reads b' x y) by (unfold reads; now rewrite Ef).
  rewrite Ev. split.
  - intros C. apply S1. now apply (cycle_imp (reads b')).
  - intros C. rewrite S2; [|intros K; apply C; now apply (cycle_imp (reads b))]. do 2 f_equal. apply map_ext_in. intros u Hu.
    symmetry. apply Er. exists F. auto.
Qed.

Lemma cycle_same : forall b vs f, closed b ->
  (forall v, In v vs -> is_form b v = true /\ In v (b_dirty b)) ->
  (forall v u, In v vs -> reads b v u -> is_form b u = true -> In u (b_dirty b) -> In u vs) ->
  In f vs -> (on_cycle (needs (all_deps b) vs) f <-> on_cycle (reads b) f).
Proof.
  intros b vs f Cl A B I. split.
  - apply cycle_imp. intros x y (_ & _ & H). unfold all_deps in H. apply in_app_or in H.
    destruct H; [now apply deps_reads|now apply vdeps_reads].
  - assert (N : forall x y, In x vs -> In y vs -> reads b x y -> needs (all_deps b) vs x y).
    { intros x y Hx Hy (F & E & R). split; auto. split; auto. unfold all_deps. apply in_or_app. unfold f_reads in R.
      apply in_app_or in R. unfold deps_of. rewrite E. rewrite dedup_in, in_app_iff.
      destruct R as [R|R]; auto. destruct (Nat.eq_dec y x) as [->|Ne].
      - left; right. rewrite (proj2 (memb_spec x (f_cells F)) R). now left.
      - right. apply vdeps_in. exists F. destruct (A y Hy). auto 10. }
    intros (y & R & Re).
    assert (K : forall x z, reach (reads b) x z -> z = f -> is_form b x = true /\ In x (b_dirty b)).
    { intros x z H. induction H as [x|x w z H1 H2 IH]; intros Q; [subst; auto|].
      destruct (IH Q) as [IF ID]. apply is_form_spec in IF. destruct IF as (Fw & Ew). split.
      - destruct H1 as (Fx & Ex & _). apply is_form_spec; eauto.
      - apply (Cl w x Fw); auto. }
    assert (L : forall x z, reach (reads b) x z -> z = f -> In x vs -> reach (needs (all_deps b) vs) x z).
    { intros x z H. induction H as [x|x w z H1 H2 IH]; intros Q Ix; [constructor|].
      destruct (K w z H2 Q) as [IF ID]. assert (Iw : In w vs) by (apply (B x w); auto).
      apply (r_step _ x w z); auto. }
    destruct (K y f Re eq_refl) as [IF ID]. assert (Iy : In y vs) by (apply (B f y); auto).
    exists y. split; auto.
Qed.

Lemma pass_ok : forall pool t b vs s, core b ->
  (forall v, In v vs -> is_form b v = true /\ In v (b_dirty b)) ->
  (forall v u, In v vs -> reads b v u -> is_form b u = true -> In u (b_dirty b) -> In u vs) ->
  good_schedule (needs (all_deps b) vs) vs s ->
  exists b', pass V circ pool t b vs s = Some b' /\ core b' /\
    b_ids b' = b_ids b /\ b_form b' = b_form b /\ b_vol b' = b_vol b /\
    b_dirty b' = filter (fun v => negb (memb v vs)) (b_dirty b) /\
    (forall u, ~ In u vs -> b_val b' u = b_val b u) /\ (forall f, In f vs -> settled circ t b' f).
Proof.
  intros pool t b vs s (W & P & Cl & Cn & Vf & Ca) A B Go.
  destruct (run_schedule_ok V circ pool t b vs s (all_deps b) Go P) as (b1 & R & Fr & Out & Se).
  - intros v I. destruct (A v I) as [H _]. apply is_form_spec in H. destruct H as (F & ->). discriminate.
  - intros f u If Iu (F & E & Re). unfold all_deps. apply in_or_app. unfold f_reads in Re. apply in_app_or in Re.
    unfold deps_of. rewrite E, dedup_in, in_app_iff. destruct Re as [Re|Re]; auto.
    destruct (Nat.eq_dec u f) as [->|Ne].
    + left; right. rewrite (proj2 (memb_spec f (f_cells F)) Re). now left.
    + right. apply vdeps_in. exists F. destruct (A u Iu). auto 10.
  - unfold pass. rewrite R. exists (clear_dirty b1 vs). split; auto.
    pose proof Fr as (F1 & F2 & F3 & F4 & F5 & F6).
    assert (Rd : forall x y, reads (clear_dirty b1 vs) x y <-> reads b x y).
    { intros x y. unfold reads; cbn. rewrite F2. tauto. }
    assert (Di : forall v, In v (b_dirty (clear_dirty b1 vs)) <-> In v (b_dirty b) /\ ~ In v vs).
    { intros v. cbn. rewrite filter_In, F3, negb_true_iff, memb_false. tauto. }
    assert (St : forall f, In f vs -> settled circ t (clear_dirty b1 vs) f).
    { intros f I F E. cbn in E. rewrite F2 in E. destruct (Se f I) as [S1 S2].
      pose proof (cycle_same b vs f Cl A B I) as CS.
      assert (CR : on_cycle (reads (clear_dirty b1 vs)) f <-> on_cycle (reads b) f)
        by (split; apply cycle_imp; intros x y H; now apply Rd).
      rewrite CR, <- CS. split; intros C; [exact (S1 C)|]. cbn [b_val clear_dirty set_dirty]. rewrite (S2 C).
      unfold val_of, evalv. now rewrite F2, E. }
    split; [|cbn; rewrite F3; auto 10].
    split; [|split; [|split; [|split; [|split]]]].
    + destruct W as [W1 W2]. split; cbn; rewrite F1; auto. intros v F. rewrite F2. apply W2.
    + intros v F. cbn. rewrite F2. apply P.
    + intros u f F Hu E Hr. apply Di in Hu. cbn in E. rewrite F2 in E. apply Rd in Hr. apply Di.
      split; [apply (Cl u f F); tauto|]. intros K. apply (proj2 Hu). apply (B f u); try tauto. apply is_form_spec; eauto.
    + intros f t' Hf Sy. destruct (in_dec Nat.eq_dec f vs) as [I|N].
      * (* evaluated and no volatile: the clock does not matter *)
        intros F E. destruct (St f I F E) as [S1 S2]. split; auto. intros C. rewrite (S2 C).
        cbn in E. rewrite F2 in E.
        pose proof (Sy F) as Q. cbn in Q. rewrite F2 in Q. now rewrite (Q E).
      * assert (Nd : ~ In f (b_dirty b)) by (intros K; apply Hf, Di; auto).
        apply (settled_ext t' b); auto; [| |apply Cn; auto; intros F E; apply Sy; cbn; now rewrite F2].
        -- cbn. now rewrite Out.
        -- intros u Hr. cbn. apply Out. intros K. apply Nd. destruct (A u K) as [IF ID]. apply is_form_spec in IF.
           destruct IF as (Fu & Eu). apply (Cl u f Fu); auto.
    + intros v F. cbn. rewrite F2, F4. apply Vf.
    + unfold cache_ok in *. cbn. rewrite F6, F5. destruct (b_cache b) as [[[topo vs'] s']|]; auto.
      destruct Ca as [Ca1 Ca2]. split; auto. intros Q. specialize (Ca2 Q).
      replace (deps_of (clear_dirty b1 vs)) with (deps_of b); auto. unfold deps_of; cbn. now rewrite F2.
Qed.
End P.
