(** The dirty closure recomputes nothing else, when its rules are cell by cell. *)
From Coq Require Import ZifyN ZifyNat ZifyBool Permutation.
From Verif Require Import Base Maps IntervalModel IntervalProofs FpModel FpSpec FpProofs FpProofs2 FpProofs3 FpProofs4 FpProofs5 FpProofs6 FpProofs7.

Open Scope N_scope.

Section Run.
  Variable ord : list N -> list N.
  Hypothesis ordp : forall l, Permutation (ord l) l.
  Variable result_of : producer -> option region.
  Variable es : list rentry.
  Hypothesis eok : forall e, In e es -> entry_ok result_of e.
  Hypothesis e64 : forall e, In e es -> rule_i64 (erule e).
  Hypothesis eread_of : forall e, In e es -> entry_read e.
  Variable changed : list region.

  Definition inch (y : cell) : Prop := exists r, In r changed /\ within r y.
  Local Notation because := (because es changed).
  Lemma because_stale : forall c p, ucell p -> because c p -> stale es changed p.
  Proof.
    intros c p U (e & y & I & _ & Uy & A & B & C & [K|K]).
    - apply (stale_read es changed p y); auto. exists e. auto.
    - apply (stale_step es changed p y); auto. exists e. auto.
  Qed.
  Record exactly (st : cstate) : Prop := Exactly {
    x_seen : Forall rg_ok (seen st) /\ forall r y, In r (seen st) -> ucell y -> within r y -> inch y \/ stale es changed y;
    x_dirty : forall c d, mget N.eqb (cdirty st) c = Some d -> exists result, result_of c = Some result /\ forall p, ucell p -> dirty_cell d result p -> because c p;
    x_fall : cfall st = [] }.

  Lemma apply_exactly : forall e ch d st, In e es -> exactly st -> dirty_ok d ->
    (forall p, ucell p -> dirty_cell d (eresult e) p -> within (eresult e) p /\ because (consumer e) p) ->
    exactly (apply_dirty result_of (consumer e) ch d st).
  Proof.
    intros e ch d st I [[G0 G1] G2 G3] D W. destruct (eok e I) as (O1 & O2 & O3). set (c := consumer e) in *. set (res := eresult e) in *.
    assert (RR := result_regions_ok d res D O2). rewrite Forall_forall in RR.
    assert (Emit : forall m, (exists result, result_of c = Some result /\ forall p, ucell p -> dirty_cell m result p -> because c p) ->
      exactly (fold_left emit (result_regions d res) (CState (queue st) (seen st) (mput N.eqb (cdirty st) c m) (cout st) (cfall st)))).
    { intros m Hm. destruct (emit_all (result_regions d res) (CState (queue st) (seen st) (mput N.eqb (cdirty st) c m) (cout st) (cfall st))) as (E1 & E2 & (new & E3 & E4 & E5 & E6) & E7).
      cbn [queue seen cdirty cout cfall] in *. split.
      - rewrite E4. split; [apply Forall_app; split; auto; rewrite Forall_forall; auto|]. intros r y R U K. apply in_app_iff in R. destruct R as [R|R]; [eauto|].
        right. apply (because_stale c y U). apply (W y U). apply result_regions_within. exists r. auto.
      - rewrite E1. intros k d' K. destruct (N.eq_dec k c) as [->|E].
        + rewrite mget_put_same in K by apply N_eqb_spec. injection K as <-. auto.
        + rewrite mget_put_other in K by (auto using N_eqb_spec). auto.
      - rewrite E2. auto. }
    unfold apply_dirty. fold c. destruct (mget N.eqb (cdirty st) c) as [old|] eqn:M.
    - destruct (G2 c old M) as (res' & R' & Wold). assert (res' = res) by congruence. subst res'.
      assert (MC : exists result, result_of c = Some result /\ forall p, ucell p -> dirty_cell (merge old d) result p -> because c p).
      { exists res. split; auto. intros p U H. apply merge_cells in H.
        - destruct H as [H|H]; [auto|apply (W p U H)].
        - intros [K|K]; [|apply (W p U K)]. destruct (Wold p U K) as (e' & y & I' & Ec & _ & Wi & _). destruct (eok e' I') as (_ & _ & R2).
          rewrite Ec in R2. assert (eresult e' = res) by congruence. congruence. }
      destruct (negb (dirty_eqb (merge old d) old)) eqn:E; cbn [negb].
      + rewrite O3. apply Emit. exact MC.
      + split; cbn [seen cdirty cfall]; auto. intros k d' K. destruct (N.eq_dec k c) as [->|NE].
        * rewrite mget_put_same in K by apply N_eqb_spec. injection K as <-. auto.
        * rewrite mget_put_other in K by (auto using N_eqb_spec). auto.
    - cbn [negb]. rewrite O3. apply Emit. exists res. split; auto. intros p U H. now apply W.
  Qed.

  Hypothesis whole : forall e, In e es -> not_whole (erule e).

  Lemma candidate_exactly : forall ch e st, In e es -> rg_ok ch -> In ch (seen st) -> exactly st -> exactly (candidate result_of ch st e).
  Proof.
    intros ch e st I C S G. unfold candidate. destruct (eok e I) as (O1 & O2 & O3). destruct (eread_of e I) as (s & rs & R1 & R2).
    destruct (project (erule e) ch (eread e) (eresult e)) as [d|d r| |r] eqn:P.
    - destruct (project_ok _ _ _ _ _ (e64 e I) C O2 P) as [D W]. apply apply_exactly; auto. intros p U K. assert (Wp := W p U K). split; auto.
      destruct (project_exact (erule e) s ch (eread e) (eresult e) rs d p (e64 e I) (whole e I) C O2 R1 R2 P U K) as (_ & y & Uy & Y1 & Y2 & Y3).
      exists e, y. repeat (split; auto). destruct G as [[_ G1] _ _]. eauto.
    - exfalso. eapply no_conservative; eauto.
    - auto.
    - exfalso. exact (project_supported _ _ _ _ _ _ _ (e64 e I) O2 R1 P).
  Qed.
  Lemma candidates_exactly : forall ch ms st, (forall e, In e ms -> In e es) -> rg_ok ch -> In ch (seen st) -> good result_of st -> exactly st ->
    exactly (fold_left (candidate result_of ch) ms st).
  Proof.
    intros ch. induction ms as [|e ms IH]; intros st S C Sn G X; cbn [fold_left]; auto.
    assert (I : In e es) by (apply S; now left). destruct (candidate_good result_of es eok e64 ch e st I C G) as (G1 & ((new & _ & N2 & _) & _) & _).
    apply IH; auto.
    - intros x Hx. apply S. now right.
    - rewrite N2. apply in_or_app. auto.
    - now apply candidate_exactly.
  Qed.
  Lemma loop_exactly : forall limit st out, good result_of st -> exactly st -> (forall r, In r (queue st) -> In r (seen st)) ->
    closure_loop ord result_of limit (built es) st = Ok out -> incomplete out = false ->
    exists st', exactly st' /\ work out = cdirty st' /\ fallbacks out = cfall st'.
  Proof.
    induction limit as [|n IH]; intros st out G X Q H N; destruct st as [qu se di co fa]; cbn [queue seen cdirty cout cfall] in *; cbn [closure_loop queue] in H; destruct qu as [|ch q].
    - apply Ok_inj in H. subst out. eexists. split; [exact X|]. auto.
    - apply Ok_inj in H. subst out. discriminate N.
    - apply Ok_inj in H. subst out. eexists. split; [exact X|]. auto.
    - assert (C : rg_ok ch). { destruct G as [G1 _ _]. rewrite Forall_forall in G1. apply G1. apply Q. now left. }
      destruct (matches_spec ord es ch ordp) as (ms & M1 & M2); auto. { rewrite Forall_forall. intros e I. apply (eok e I). }
      rewrite M1 in H. cbn [rbind] in H. cbn [seen cdirty cout cfall] in H. set (st0 := CState q se di co fa) in *.
      assert (G0 : good result_of st0) by (destruct G as [G1 G2 G3]; split; auto). assert (X0 : exactly st0) by (destruct X as [X1 X2 X3]; split; auto).
      assert (Sub : forall e, In e ms -> In e es). { intros e I. apply (Permutation_in _ M2) in I. apply filter_In in I. apply I. }
      destruct (candidates_good result_of es eok e64 ch ms st0 Sub C G0) as (G1 & ((new & N1 & N2 & _) & _) & _).
      apply (IH (fold_left (candidate result_of ch) ms st0) out); auto.
      + apply candidates_exactly; auto. cbn. apply Q. now left.
      + intros r R. rewrite N1 in R. rewrite N2. cbn [queue seen st0] in *. apply in_app_iff in R. apply in_or_app. destruct R; [left; apply Q; now right|now right].
  Qed.
  Theorem closure_exact : forall limit out, Forall rg_ok changed -> dirty_closure ord result_of limit (built es) changed = Ok out -> incomplete out = false ->
    fallbacks out = [] /\ forall c p, ucell p -> worked (work out) result_of c p -> because c p /\ stale es changed p.
  Proof.
    intros limit out F H N. unfold dirty_closure in H. cbv zeta in H. apply loop_exactly in H; auto.
    - destruct H as (st & [_ X2 X3] & E1 & E2). split; [congruence|]. intros c p U (d & r & A & B & C). rewrite E1 in A. destruct (X2 c d A) as (r' & B' & K).
      assert (r' = r) by congruence. subst r'. assert (Bc := K p U C). split; auto. now apply (because_stale c).
    - now apply start_good.
    - split; cbn [seen cdirty cfall]; auto; [|intros c d K; discriminate]. rewrite Forall_forall in *. split.
      + intros r I. apply (append_unique_in _ _ rg_eqb_spec) in I. destruct I as [[]|I]. auto.
      + intros r y I U W. apply (append_unique_in _ _ rg_eqb_spec) in I. destruct I as [[]|I]. left. exists r. auto.
  Qed.
End Run.

(** Accepted reads never fall back. *)
Section Supported.
  Variable ord : list N -> list N.
  Hypothesis ordp : forall l, Permutation (ord l) l.
  Variable result_of : producer -> option region.
  Variable es : list rentry.
  Hypothesis eok : forall e, In e es -> entry_ok result_of e.
  Hypothesis e64 : forall e, In e es -> rule_i64 (erule e).
  Hypothesis eread_of : forall e, In e es -> entry_read e.

  Lemma emit_fall : forall rs st, cfall (fold_left emit rs st) = cfall st.
  Proof. intros rs st. apply (emit_all rs st). Qed.
  Lemma candidate_fall : forall ch e st, In e es -> cfall (candidate result_of ch st e) = cfall st.
  Proof.
    intros ch e st I. unfold candidate. destruct (eok e I) as (O1 & O2 & O3). destruct (eread_of e I) as (s & rs & R1 & R2).
    destruct (project (erule e) ch (eread e) (eresult e)) as [d|d r| |r] eqn:P.
    - unfold apply_dirty. rewrite O3. destruct (mget N.eqb (cdirty st) (consumer e)) as [old|]; [destruct (negb (dirty_eqb (merge old d) old))|]; cbn [negb]; rewrite ?emit_fall; reflexivity.
    - exfalso. eapply no_conservative; eauto.
    - auto.
    - exfalso. exact (project_supported _ _ _ _ _ _ _ (e64 e I) O2 R1 P).
  Qed.
  Lemma candidates_fall : forall ch ms st, (forall e, In e ms -> In e es) -> cfall (fold_left (candidate result_of ch) ms st) = cfall st.
  Proof. intros ch. induction ms as [|e ms IH]; intros st S; cbn [fold_left]; auto. rewrite IH by (intros x X; apply S; now right). apply candidate_fall. apply S. now left. Qed.
  Lemma loop_fall : forall limit st out, good result_of st -> (forall r, In r (queue st) -> In r (seen st)) ->
    closure_loop ord result_of limit (built es) st = Ok out -> incomplete out = false -> fallbacks out = cfall st.
  Proof.
    induction limit as [|n IH]; intros st out G Q H N; destruct st as [qu se di co fa]; cbn [queue seen cdirty cout cfall] in *; cbn [closure_loop queue] in H; destruct qu as [|ch q].
    - apply Ok_inj in H. now subst out.
    - apply Ok_inj in H. subst out. discriminate N.
    - apply Ok_inj in H. now subst out.
    - assert (C : rg_ok ch). { destruct G as [G1 _ _]. rewrite Forall_forall in G1. apply G1. apply Q. now left. }
      destruct (matches_spec ord es ch ordp) as (ms & M1 & M2); auto. { rewrite Forall_forall. intros e I. apply (eok e I). }
      rewrite M1 in H. cbn [rbind] in H. cbn [seen cdirty cout cfall] in H. set (st0 := CState q se di co fa) in *.
      assert (G0 : good result_of st0) by (destruct G as [G1 G2 G3]; split; auto).
      assert (Sub : forall e, In e ms -> In e es). { intros e I. apply (Permutation_in _ M2) in I. apply filter_In in I. apply I. }
      destruct (candidates_good result_of es eok e64 ch ms st0 Sub C G0) as (G1 & ((new & N1 & N2 & _) & _) & _).
      apply IH in H; auto.
      + rewrite H. now apply candidates_fall.
      + intros r R. rewrite N1 in R. rewrite N2. cbn [queue seen st0] in *. apply in_app_iff in R. apply in_or_app. destruct R; [left; apply Q; now right|now right].
  Qed.
  Theorem closure_no_fallback : forall limit changed out, Forall rg_ok changed -> dirty_closure ord result_of limit (built es) changed = Ok out -> incomplete out = false -> fallbacks out = [].
  Proof. intros limit changed out F H N. unfold dirty_closure in H. cbv zeta in H. apply loop_fall in H; auto. now apply start_good. Qed.
End Supported.
