(** Proofs about RcModel.v: edits, requests and histories keep the invariant. *)
From Coq Require Import Permutation.
From Verif Require Import Base ListSort GraphSpec TarjanModel SchedModel SchedSpec SchedProofs2 SchedProofs5
  DirtyModel DirtyProofs RcModel RcSpec RcProofs RcProofs2 RcProofs3.

Section P.
Variable V : Type.
Variable circ : V.
Variable ho : list nat -> list nat.
Hypothesis HO : forall l, Permutation (ho l) l.
Implicit Types b : book V.
Notation core := (core V circ). Notation inv := (inv V circ). Notation clean := (clean V circ).
Notation closed := (closed V). Notation down := (down V). Notation wf := (wf V).

Lemma reads_dirty : forall b d, reads (set_dirty b d) = reads b.
Proof. reflexivity. Qed.
Lemma core_more : forall b d, core b -> (forall u f, In u d -> reads b f u -> In f d) -> core (set_dirty b (b_dirty b ++ d)).
Proof.
  intros b d (W & P & Cl & Cn & Vf & Ca) H. split; [exact W|]. split; [exact P|]. split; [|split; [|split; [exact Vf|exact Ca]]].
  - intros u f F Hu E R. cbn in *. apply in_app_or in Hu. apply in_or_app. destruct Hu as [Hu|Hu].
    + left. apply (Cl u f F); auto.
    + right. apply (H u f); auto.
  - intros f t N Sy. apply (settled_ext V circ t b); auto. apply Cn; auto. intros K. apply N. cbn. apply in_or_app; now left.
Qed.

(** Marking the volatile formulas again. *)
Lemma remark_ok : forall b, core b -> exists d, mark b (b_vol b) = Some (set_dirty b (b_dirty b ++ d)) /\
  (forall v, In v d <-> down b (b_vol b) v) /\ inv (set_dirty b (b_dirty b ++ d)).
Proof.
  intros b C. destruct (mark_ok V b (b_vol b) (proj1 C)) as (d & M & D). exists d. split; auto. split; auto. split.
  - apply core_more; auto. intros u f Hu R. apply D. apply D in Hu. now apply (down_reads V b _ u).
  - intros v F E I. cbn. apply in_or_app; right. apply D. exists v. split; auto. constructor.
Qed.

(** Formulas of [b'] are those of [b] except at [v]; so are the values. *)
Lemma edit_down : forall b b' v, (forall u, u <> v -> b_form b' u = b_form b u) ->
  forall x z, reach (reads b) x z -> z = v -> down b' [v] x.
Proof.
  intros b b' v H x z R. induction R as [x|x w z R1 R2 IH]; intros Q.
  - subst. exists v. split; [now left|constructor].
  - destruct (Nat.eq_dec x v) as [->|Ne]; [exists v; split; [now left|constructor]|].
    apply (down_reads V b' [v] w); auto. destruct R1 as (F & E & I). exists F. split; auto. now rewrite H.
Qed.
Lemma edit_cycle : forall b b' v, (forall u, u <> v -> b_form b' u = b_form b u) ->
  forall f, ~ down b' [v] f -> (on_cycle (reads b') f <-> on_cycle (reads b) f).
Proof.
  intros b b' v H f N.
  assert (H' : forall u, u <> v -> b_form b u = b_form b' u) by (intros; symmetry; auto).
  assert (Nb' : forall z, reach (reads b') f z -> z <> v) by (intros z R ->; apply N; exists v; split; [now left|exact R]).
  assert (Nb : forall z, reach (reads b) f z -> z <> v) by (intros z R Q; apply N; eapply edit_down; eauto).
  assert (K : forall c c' : book V, (forall u, u <> v -> b_form c' u = b_form c u) -> (forall z, reach (reads c) f z -> z <> v) ->
    forall x z, reach (reads c) f x -> reach (reads c) x z -> reach (reads c') x z).
  { intros c c' Hc Nc x z Rx R. induction R as [x|x w z R1 R2 IH]; [constructor|].
    apply (r_step _ x w z); [|apply IH; eapply reach_end; eauto].
    destruct R1 as (F & E & I). exists F. split; auto. rewrite Hc; auto. }
  assert (L : forall c c' : book V, (forall u, u <> v -> b_form c' u = b_form c u) -> (forall z, reach (reads c) f z -> z <> v) ->
    on_cycle (reads c) f -> on_cycle (reads c') f).
  { intros c c' Hc Nc (y & R & Re). exists y. split.
    - destruct R as (F & E & I). exists F. split; auto. rewrite Hc; auto. apply Nc; constructor.
    - apply (K c c' Hc Nc); auto. apply (r_step _ f y y); auto. constructor. }
  split; [apply (L b' b)|apply (L b b')]; auto.
Qed.

Lemma edit_inv : forall b b' v, inv b -> wf b' -> plain_book V b' ->
  (forall u, u <> v -> b_form b' u = b_form b u) -> (forall u, u <> v -> b_val b' u = b_val b u) ->
  b_dirty b' = b_dirty b ->
  (forall u, u <> v -> (In u (b_vol b') <-> In u (b_vol b))) -> (forall F, b_form b' v = Some F -> f_volatile F = true -> In v (b_vol b')) ->
  cache_ok V b' ->
  exists d, mark b' [v] = Some (set_dirty b' (b_dirty b' ++ d)) /\ (forall u, In u d <-> down b' [v] u) /\ inv (set_dirty b' (b_dirty b' ++ d)).
Proof.
  intros b b' v ((W & P & Cl & Cn & Vf & Ca) & Vd) W' P' Hf Hv Hd Hvol Hvv Ca'.
  destruct (mark_ok V b' [v] W') as (d & M & D). exists d. split; auto. split; auto.
  assert (Dv : In v d) by (apply D; exists v; split; [now left|constructor]).
  assert (Cl' : closed (set_dirty b' (b_dirty b' ++ d))).
  { intros u f F Hu E R. cbn in *. rewrite Hd in *. apply in_or_app.
    destruct (in_dec Nat.eq_dec f d) as [|Nf]; [now right|left].
    assert (Fv : f <> v) by congruence.
    destruct (in_dec Nat.eq_dec u d) as [Iu|Nu]; [exfalso; apply Nf, D; apply D in Iu; now apply (down_reads V b' [v] u)|].
    assert (Uv : u <> v) by congruence. apply in_app_or in Hu. destruct Hu as [Hu|Hu]; [|contradiction].
    apply (Cl u f F); auto; [now rewrite <- Hf|]. destruct R as (G & Eg & I). exists G. split; auto. cbn in Eg. now rewrite <- Hf. }
  assert (Vf' : volflag V b').
  { intros u F E Vo. destruct (Nat.eq_dec u v) as [->|Ne]; [eauto|]. apply Hvol; auto. apply (Vf u F); auto. now rewrite <- Hf. }
  split.
  - split; [exact W'|]. split; [exact P'|]. split; [exact Cl'|]. split; [|split; [exact Vf'|exact Ca']].
    intros f t N Sy. cbn in N. rewrite Hd in N.
    assert (Nd : ~ In f d) by (intros K; apply N, in_or_app; now right).
    assert (No : ~ In f (b_dirty b)) by (intros K; apply N, in_or_app; now left).
    assert (Fv : f <> v) by congruence.
    assert (Nn : ~ down b' [v] f) by (intros K; apply Nd, D, K).
    assert (Syb : steady V b f) by (intros F E; apply Sy; cbn; now rewrite Hf).
    intros F E. cbn in E. destruct (Cn f t No Syb F) as [S1 S2]; [now rewrite <- Hf|].
    rewrite reads_dirty. cbn [b_val set_dirty]. rewrite (edit_cycle b b' v Hf f Nn), (Hv f Fv). split; auto.
    intros C. rewrite (S2 C). do 2 f_equal. apply map_ext_in. intros u Hu. symmetry. apply Hv. intros ->. apply Nn.
    exists v. split; [now left|]. apply (r_step _ f v v); [|constructor]. exists F; auto.
  - intros u F E I. cbn in *. rewrite Hd. apply in_or_app. destruct (Nat.eq_dec u v) as [->|Ne]; [now right|left].
    apply (Vd u F); [now rewrite <- Hf|now apply Hvol].
Qed.

Lemma upd_other : forall A (m : nat -> A) v x u, u <> v -> upd m v x u = m u.
Proof. intros. unfold upd. destruct (Nat.eqb_spec u v); congruence. Qed.
Lemma upd_same : forall A (m : nat -> A) v x, upd m v x v = x.
Proof. intros. unfold upd. now rewrite Nat.eqb_refl. Qed.

Lemma set_value_inv : forall b v x, inv b -> exists b', set_value b v x = Some b' /\ inv b' /\
  (forall u, b_form b' u = upd (b_form b) v None u) /\ (forall u, b_val b' u = upd (b_val b) v x u) /\
  (forall u, In u (b_dirty b') <-> In u (b_dirty b) \/ down b' [v] u).
Proof.
  intros b v x I. pose proof I as ((W & P & Cl & Cn & Vf & Ca) & Vd). unfold set_value.
  match goal with |- context [mark ?z [v]] => set (b1 := z) end.
  assert (Ef : forall u F, b_form b1 u = Some F -> u <> v /\ b_form b u = Some F).
  { intros u F E. cbn in E. destruct (Nat.eq_dec u v) as [->|Ne]; [rewrite upd_same in E; discriminate|].
    rewrite upd_other in E; auto. }
  destruct (edit_inv b b1 v) as (d & M & D & I'); auto.
  - destruct W as [W1 W2]. split; auto. intros u F E. apply (W2 u F). now apply Ef.
  - intros u F E. apply (P u F). now apply Ef.
  - intros u N. cbn. now apply upd_other.
  - intros u N. cbn. now apply upd_other.
  - intros u _. cbn. tauto.
  - intros F E. apply Ef in E. tauto.
  - unfold cache_ok in *. cbn. destruct (b_cache b) as [[[topo vs] s]|]; auto. destruct Ca as [C1 C2].
    destruct (is_form b v) eqn:Fo; [split; [lia|intros ->; lia]|]. split; auto. intros Q.
    apply (good_ext (needs (deps_of b) vs)); [|now apply C2]. intros x0 y. unfold needs.
    replace (deps_of b1 x0) with (deps_of b x0); [tauto|]. unfold deps_of; cbn. unfold upd.
    destruct (Nat.eqb_spec x0 v) as [->|]; auto. unfold is_form in Fo. destruct (b_form b v); [discriminate|reflexivity].
  - rewrite M. eexists. split; [reflexivity|]. split; auto. split; [reflexivity|]. split; [reflexivity|].
    intros u. cbn [b_dirty set_dirty]. rewrite in_app_iff, D. tauto.
Qed.

Lemma set_formula_inv : forall b v F, inv b -> plain F -> exists b', set_formula b v F = Some b' /\ inv b' /\
  (forall u, b_form b' u = if memb v (f_edges F) then b_form b u else upd (b_form b) v (Some F) u) /\ b_val b' = b_val b /\
  (forall u, In u (b_dirty b') <-> In u (b_dirty b) \/ (memb v (f_edges F) = false /\ down b' [v] u)).
Proof.
  intros b v F I PF. pose proof I as ((W & P & Cl & Cn & Vf & Ca) & Vd). unfold set_formula.
  destruct (memb v (f_edges F)) eqn:Se; [exists b; split; [reflexivity|]; split; [exact I|]; split; [reflexivity|]; split; [reflexivity|]; intros u; split; [auto|intros [H|[H _]]; [auto|discriminate]]|].
  match goal with |- context [mark ?z [v]] => set (b1 := z) end.
  assert (Ids : NoDup (b_ids b1) /\ forall u, In u (b_ids b1) <-> u = v \/ In u (b_ids b)).
  { cbn. destruct W as [W1 _]. destruct (memb v (b_ids b)) eqn:M.
    - split; auto. intros u. apply memb_spec in M. split; auto. intros [->|]; auto.
    - apply memb_false in M. split.
      + apply (Permutation_NoDup (l := v :: b_ids b)); [apply Permutation_cons_append|]. now constructor.
      + intros u. rewrite in_app_iff. cbn. intuition. }
  destruct (edit_inv b b1 v) as (d & M & D & I'); auto.
  - destruct W as [W1 W2]. split; [tauto|]. intros u G E. apply Ids. cbn in E. destruct (Nat.eq_dec u v); auto.
    rewrite upd_other in E; eauto.
  - intros u G E. cbn in E. destruct (Nat.eq_dec u v) as [->|]; [rewrite upd_same in E; injection E as <-; auto|].
    rewrite upd_other in E; auto. apply (P u G E).
  - intros u N. cbn. now apply upd_other.
  - intros u N. cbn. destruct (f_volatile F); [rewrite in_app_iff; cbn; intuition congruence|].
    rewrite filter_In, negb_true_iff, Nat.eqb_neq. tauto.
  - intros G E Vo. cbn in E. rewrite upd_same in E. injection E as <-. cbn. rewrite Vo. apply in_or_app; right; now left.
  - unfold cache_ok in *. cbn. destruct (b_cache b) as [[[topo vs] s]|]; auto. split; [lia|intros ->; lia].
  - rewrite M. eexists. split; [reflexivity|]. split; auto. split; [reflexivity|]. split; [reflexivity|].
    intros u. cbn [b_dirty set_dirty]. rewrite in_app_iff, D. intuition.
Qed.

(** ** Requests *)
Lemma to_evaluate_in : forall b v, inv b -> (In v (to_evaluate b) <-> is_form b v = true /\ In v (b_dirty b)).
Proof.
  intros b v (_ & Vd). unfold to_evaluate. rewrite sort_nat_in, dedup_in, filter_In, in_app_iff. split; [|tauto].
  intros ([H|H] & Fo); auto. split; auto. apply is_form_spec in Fo. destruct Fo as (F & E). eauto.
Qed.
Lemma core_cache : forall b c, core b -> cache_ok V (set_cache b c) -> core (set_cache b c).
Proof. intros b c (W & P & Cl & Cn & Vf & _) H. repeat (split; auto). Qed.

Lemma evaluate_all_inv : forall pool t b, inv b -> exists b', evaluate_all V circ ho pool t b = Some b' /\ inv b' /\
  b_form b' = b_form b /\ (forall u, is_form b u = false -> b_val b' u = b_val b u) /\
  (forall f, settled circ t b' f) /\
  (forall f, is_form b f = true -> (In f (b_dirty b') <-> down b' (b_vol b') f)) /\ b_vol b' = b_vol b.
Proof.
  intros pool t b I. pose proof I as ((W & P & Cl & Cn & Vf & Ca) & Vd). unfold evaluate_all.
  assert (E0 : forall v, In v (to_evaluate b) <-> is_form b v = true /\ In v (b_dirty b)) by (intros; now apply to_evaluate_in).
  destruct (to_evaluate b) as [|v0 vs0] eqn:Te.
  - destruct (remark_ok b (proj1 I)) as (d & M & D & I'). rewrite M. eexists. split; [reflexivity|]. split; [exact I'|].
    split; [reflexivity|]. split; [reflexivity|]. split.
    + intros f F E. cbn in E. assert (Nd : ~ In f (b_dirty b)).
      { intros K. apply (E0 f). split; auto. apply is_form_spec; eauto. }
      apply (settled_ext V circ t b); auto. apply Cn; auto.
      intros G Eg. destruct (f_volatile G) eqn:Vo; auto. exfalso. apply Nd. eauto.
    + split; [|reflexivity]. intros f Fo. cbn [b_dirty b_vol set_dirty]. rewrite in_app_iff, D. split; [|now right].
      intros [H|H]; auto. exfalso. apply (E0 f). auto.
  - rewrite <- Te in *. clear v0 vs0 Te. set (vs := to_evaluate b) in *.
    assert (Inc : incl vs (b_ids b)).
    { intros v H. apply E0 in H. destruct H as [Fo _]. apply is_form_spec in Fo. destruct Fo as (F & E). destruct W as [_ W2]. eauto. }
    destruct (eval_schedule_ok V ho HO b vs W Ca Inc) as (s & c & Es & Go & Cc). rewrite Es.
    destruct (pass_ok V circ pool t (set_cache b c) vs s) as (b2 & Pa & Co & Ei & Ef & Ev & Ed & Out & St).
    + apply core_cache; auto. apply I.
    + intros v H. apply E0. exact H.
    + intros v u Hv R Fo Di. apply E0. auto.
    + exact Go.
    + rewrite Pa. destruct (remark_ok b2 Co) as (d & M & D & I'). rewrite M. eexists. split; [reflexivity|]. split; [exact I'|].
      cbn [b_form b_val b_dirty b_vol set_dirty]. split; [exact Ef|]. split.
      { intros u Fo. rewrite Out; auto. intros K. apply E0 in K. destruct K; congruence. }
      split.
      { intros f. destruct (in_dec Nat.eq_dec f vs) as [H|N].
        - apply (settled_ext V circ t b2); auto.
        - intros F E. assert (Nd : ~ In f (b_dirty b)).
          { intros K. apply N, E0. split; auto. apply is_form_spec. exists F. cbn in E. rewrite Ef in E. exact E. }
          apply (settled_ext V circ t b2); auto. destruct Co as (_ & _ & _ & Cn2 & _). apply Cn2.
          + rewrite Ed. intros K. apply filter_In in K. apply Nd. apply K.
          + intros G Eg. destruct (f_volatile G) eqn:Vo; auto. exfalso. apply Nd. rewrite Ef in Eg. cbn in Eg. eauto. }
      split; [|exact Ev]. intros f Fo. rewrite in_app_iff, D. split; [|now right]. intros [H|H]; auto. exfalso.
      rewrite Ed in H. apply filter_In in H. destruct H as [H1 H2]. apply negb_true_iff, memb_false in H2. apply H2, E0. auto.
Qed.

(** ** Chosen cells *)
Lemma demand_ok : forall b targets, inv b -> exists vs, demand b targets = Some vs /\
  (forall v, In v vs -> is_form b v = true /\ In v (b_dirty b)) /\
  (forall v, In v vs -> exists g, In g targets /\ uses b g v) /\
  (forall g, In g targets -> is_form b g = true -> In g (b_dirty b) -> In g vs) /\
  (forall v u, In v vs -> reads b v u -> is_form b u = true -> In u (b_dirty b) -> In u vs).
Proof.
  intros b targets ((W & P & Cl & Cn & Vf & Ca) & Vd). unfold demand.
  set (next := fun v => deps_of b v ++ vdeps b v).
  assert (Nx : forall v, incl (next v) (flat_map next (b_ids b))).
  { intros v x Hx. apply in_flat_map. exists v. split; auto. unfold next in Hx. apply in_app_or in Hx.
    assert (R : reads b v x) by (destruct Hx; [now apply deps_reads|now apply vdeps_reads]).
    destruct R as (F & E & _). destruct W as [_ W2]. eauto. }
  destruct (propagate_some next (flat_map next (b_ids b)) targets Nx) as (vis & Pr). rewrite Pr. eexists. split; [reflexivity|].
  assert (In_vs : forall v, In v (sort_nat (filter (fun v => is_form b v && (memb v (b_dirty b) || memb v (b_vol b))) vis)) <->
                            In v vis /\ is_form b v = true /\ In v (b_dirty b)).
  { intros v. rewrite sort_nat_in, filter_In, andb_true_iff, orb_true_iff, !memb_spec. split; [|tauto].
    intros (A & B & [C|C]); auto. split; auto. split; auto. apply is_form_spec in B. destruct B as (F & E). eauto. }
  split; [|split; [|split]].
  - intros v H. apply In_vs in H. tauto.
  - intros v H. apply In_vs in H. destruct H as [H _]. revert v H.
    apply (propagate_sound _ _ (fun v => exists g, In g targets /\ uses b g v) _ _ _ Pr).
    + intros v [[]|H]. exists v. split; auto. constructor.
    + intros v d (g & Ig & U) Hd. exists g. split; auto. apply (reach_end _ g v d U). unfold next in Hd. apply in_app_or in Hd.
      destruct Hd; [now apply deps_reads|now apply vdeps_reads].
  - intros g Ig Fo Di. apply In_vs. split; auto. apply (propagate_more _ _ _ _ _ Pr). now right.
  - intros v u Hv (F & E & R) Fo Di. apply In_vs in Hv. destruct Hv as [Hv _]. apply In_vs. split; auto.
    destruct (Nat.eq_dec u v) as [->|Ne]; auto.
    apply (propagate_closed _ _ _ _ _ Pr) with (v := v); [intros ? ? []|auto|]. unfold next. apply in_or_app.
    unfold f_reads in R. apply in_app_or in R. destruct R as [R|R].
    + left. unfold deps_of. rewrite E, dedup_in, in_app_iff. now left.
    + right. apply vdeps_in. exists F. auto 10.
Qed.

Lemma evaluate_cells_inv : forall pool t b targets, inv b -> exists b' vs, evaluate_cells V circ ho pool t b targets = Some b' /\ inv b' /\
  demand b targets = Some vs /\ b_form b' = b_form b /\ b_vol b' = b_vol b /\
  (forall u, ~ In u vs -> b_val b' u = b_val b u) /\ (forall f, In f vs -> settled circ t b' f) /\
  (forall f, ~ In f (b_dirty b) -> settled circ t b' f) /\
  (forall f, In f (b_dirty b') <-> (In f (b_dirty b) /\ ~ In f vs) \/ down b' (b_vol b') f).
Proof.
  intros pool t b targets I. pose proof I as ((W & P & Cl & Cn & Vf & Ca) & Vd). unfold evaluate_cells.
  destruct (demand_ok b targets I) as (vs & De & A & _ & _ & B). rewrite De.
  destruct vs as [|v0 vs0].
  - destruct (remark_ok b (proj1 I)) as (d & M & D & I'). rewrite M. eexists; exists []. split; [reflexivity|]. split; [exact I'|].
    split; [reflexivity|]. split; [reflexivity|]. split; [reflexivity|]. split; [reflexivity|]. split; [intros f []|]. split.
    + intros f N. intros F E. cbn in E. apply (settled_ext V circ t b); auto. apply Cn; auto.
      intros G Eg. destruct (f_volatile G) eqn:Vo; auto. exfalso. apply N. eauto.
    + intros f. cbn [b_dirty b_vol set_dirty]. rewrite in_app_iff, D. cbn [In]. intuition.
  - set (vs := v0 :: vs0) in *.
    destruct (create_schedule_virtual_ok (deps_of b) ho vs (vdeps b) HO) as (s & Es & Go).
    { intros v _ H. apply vdeps_in in H. destruct H as (F & _ & _ & _ & _ & Ne). congruence. }
    rewrite Es. destruct (pass_ok V circ pool t b vs s (proj1 I) A B Go) as (b2 & Pa & Co & Ei & Ef & Ev & Ed & Out & St).
    rewrite Pa. destruct (remark_ok b2 Co) as (d & M & D & I'). rewrite M. eexists; exists vs. split; [reflexivity|]. split; [exact I'|].
    cbn [b_form b_val b_dirty b_vol set_dirty]. split; [reflexivity|]. split; [exact Ef|]. split; [exact Ev|]. split; [exact Out|].
    assert (Sd : forall f, settled circ t b2 f -> settled circ t (set_dirty b2 (b_dirty b2 ++ d)) f) by (intros f; apply settled_ext; auto).
    split; [intros f H; apply Sd; auto|]. split.
    + intros f N. apply Sd. destruct Co as (_ & _ & _ & Cn2 & _). intros F E. rewrite Ef in E. apply Cn2.
      * rewrite Ed. intros K. apply filter_In in K. apply N, K.
      * intros G Eg. destruct (f_volatile G) eqn:Vo; auto. exfalso. apply N. rewrite Ef in Eg. eauto.
      * now rewrite Ef.
    + intros f. rewrite in_app_iff, D, Ed, filter_In, negb_true_iff, memb_false. tauto.
Qed.

(** ** Histories *)
Lemma new_inv : forall blank, inv (new_book V blank).
Proof.
  intros. repeat split; try (intros; discriminate); try constructor; intros; try discriminate; try contradiction.
Qed.
Lemma rstep_inv : forall b o, inv b -> plain_op o -> exists b', rstep V circ ho b o = Some b' /\ inv b'.
Proof.
  intros b [v x|v F|pool t|pool t l] I P; cbn [rstep].
  - destruct (set_value_inv b v x I) as (b' & E & I' & _). eauto.
  - destruct (set_formula_inv b v F I P) as (b' & E & I' & _). eauto.
  - destruct (evaluate_all_inv pool t b I) as (b' & E & I' & _). eauto.
  - destruct (evaluate_cells_inv pool t b l I) as (b' & vs & E & I' & _). eauto.
Qed.
Lemma rrun_inv : forall os b, inv b -> Forall (@plain_op V) os -> exists b', rrun V circ ho b os = Some b' /\ inv b'.
Proof.
  induction os as [|o os IH]; intros b I P; cbn [rrun]; [eauto|]. inversion P; subst.
  destruct (rstep_inv b o I) as (b1 & E & I1); auto. rewrite E. auto.
Qed.
Lemma rrun_app : forall os os' b, rrun V circ ho b (os ++ os') =
  match rrun V circ ho b os with Some b' => rrun V circ ho b' os' | None => None end.
Proof. induction os as [|o os IH]; intros; cbn; auto. destruct (rstep V circ ho b o); auto. Qed.
End P.
