(** Summaries of reads, and the algebra of dirty domains. *)
From Coq Require Import ZifyN ZifyNat ZifyBool.
From Verif Require Import Base Maps IntervalModel FpModel FpSpec FpProofs FpProofs2 FpProofs3.

Open Scope N_scope.

(** * Summaries *)
Lemma from_ref_at : forall a q x z, from_ref a = Ok q -> (ref_at a x z <-> z = at_axis q x).
Proof.
  intros a q x z H. destruct a as [off|i| | | |]; cbn [from_ref] in H; try discriminate.
  - apply Ok_inj in H. subst q. cbn. tauto.
  - destruct (N.eqb i 0) eqn:E; [discriminate|]. apply Ok_inj in H. subst q. cbn [ref_at at_axis]. lia.
Qed.
Lemma from_ref_i64 : forall a q, ref_ok a -> from_ref a = Ok q -> pi64 q.
Proof.
  intros a q A H. destruct a as [off|i| | | |]; cbn [from_ref ref_ok] in *; try discriminate.
  - apply Ok_inj in H. subst q. exact A.
  - destruct (N.eqb i 0) eqn:E; [discriminate|]. apply Ok_inj in H. subst q. cbn. lia.
Qed.
Lemma from_ref_finite : forall a q, from_ref a = Ok q -> finite_ref a = true.
Proof. intros [] q H; cbn in *; try discriminate; auto. Qed.
Lemma axis_reads_finite : forall a b qa qb x y, from_ref a = Ok qa -> from_ref b = Ok qb ->
  (axis_reads a b x y <-> between (at_axis qa x) (at_axis qb x) y).
Proof.
  intros a b qa qb x y A B. assert (Fa := from_ref_finite _ _ A). assert (Fb := from_ref_finite _ _ B).
  assert (G : axis_reads a b x y <-> exists u v, ref_at a x u /\ ref_at b x v /\ between u v y) by (destruct a, b; try discriminate; reflexivity).
  rewrite G. split.
  - intros (u & v & U & V & K). apply (from_ref_at _ _ _ _ A) in U. apply (from_ref_at _ _ _ _ B) in V. now subst.
  - intros K. exists (at_axis qa x), (at_axis qb x). rewrite (from_ref_at _ _ _ _ A), (from_ref_at _ _ _ _ B). auto.
Qed.
Lemma precedent_rule_reads : forall pr s ru p y, precedent_rule pr = Ok (s, ru) ->
  (precedent_reads pr p y <-> csh y = s /\ reads ru p y).
Proof.
  intros pr s ru p y H. assert (SS : forall t : N, Some t = Some (csh y) <-> csh y = t) by (intros t; split; [intros K; now injection K|intros ->; auto]).
  destruct pr as [[t|] r c|[t|] r0 r1 c0 c1]; cbn [precedent_rule] in H; try discriminate.
  - destruct (from_ref r) as [a| |] eqn:A; try discriminate. cbn [rbind] in H. destruct (from_ref c) as [b| |] eqn:B; try discriminate. cbn [rbind] in H.
    apply Ok_inj in H. injection H as <- <-. cbn [precedent_reads reads]. rewrite SS, (from_ref_at _ _ _ _ A), (from_ref_at _ _ _ _ B). tauto.
  - destruct (is_whole c0 && is_whole c1); [discriminate|]. destruct (_ && _) eqn:W in H.
    + destruct (from_ref c0) as [a| |] eqn:A; try discriminate. cbn [rbind] in H. destruct (from_ref c1) as [b| |] eqn:B; try discriminate. cbn [rbind] in H.
      apply Ok_inj in H. injection H as <- <-. cbn [precedent_reads reads]. rewrite SS, (axis_reads_finite _ _ _ _ _ _ A B).
      rewrite !andb_true_iff in W. destruct W as [[[W1 W2] _] _]. destruct r0; try discriminate. destruct r1; try discriminate. cbn [axis_reads]. tauto.
    + destruct (from_ref r0) as [a0| |] eqn:A0; try discriminate. cbn [rbind] in H. destruct (from_ref r1) as [b0| |] eqn:B0; try discriminate. cbn [rbind] in H.
      destruct (from_ref c0) as [a| |] eqn:A; try discriminate. cbn [rbind] in H. destruct (from_ref c1) as [b| |] eqn:B; try discriminate. cbn [rbind] in H.
      apply Ok_inj in H. injection H as <- <-. cbn [precedent_reads reads]. rewrite SS, (axis_reads_finite _ _ _ _ _ _ A B), (axis_reads_finite _ _ _ _ _ _ A0 B0). tauto.
Qed.
Lemma precedent_rule_i64 : forall pr s ru, precedent_ok pr -> precedent_rule pr = Ok (s, ru) -> rule_i64 ru.
Proof.
  intros pr s ru O H. destruct pr as [[t|] r c|[t|] r0 r1 c0 c1]; cbn [precedent_rule precedent_ok] in *; try discriminate.
  - destruct (from_ref r) as [a| |] eqn:A; try discriminate. cbn [rbind] in H. destruct (from_ref c) as [b| |] eqn:B; try discriminate. cbn [rbind] in H.
    apply Ok_inj in H. injection H as <- <-. destruct O as [Oa Ob]. split; [exact (from_ref_i64 _ _ Oa A)|exact (from_ref_i64 _ _ Ob B)].
  - destruct O as (O1 & O2 & O3 & O4). destruct (is_whole c0 && is_whole c1); [discriminate|]. destruct (_ && _) eqn:W in H.
    + destruct (from_ref c0) as [a| |] eqn:A; try discriminate. cbn [rbind] in H. destruct (from_ref c1) as [b| |] eqn:B; try discriminate. cbn [rbind] in H.
      apply Ok_inj in H. injection H as <- <-. split; [exact (from_ref_i64 _ _ O3 A)|exact (from_ref_i64 _ _ O4 B)].
    + destruct (from_ref r0) as [a0| |] eqn:A0; try discriminate. cbn [rbind] in H. destruct (from_ref r1) as [b0| |] eqn:B0; try discriminate. cbn [rbind] in H.
      destruct (from_ref c0) as [a| |] eqn:A; try discriminate. cbn [rbind] in H. destruct (from_ref c1) as [b| |] eqn:B; try discriminate. cbn [rbind] in H.
      apply Ok_inj in H. injection H as <- <-. cbn [rule_i64]. repeat split; [exact (from_ref_i64 _ _ O1 A0)|exact (from_ref_i64 _ _ O2 B0)|exact (from_ref_i64 _ _ O3 A)|exact (from_ref_i64 _ _ O4 B)].
Qed.

Lemma summary_deps_in : forall result ps acc deps, summary_deps result ps acc = Ok deps ->
  (forall pr, In pr ps -> exists s ru rs, precedent_rule pr = Ok (s, ru) /\ read_regions ru s result = Ok rs /\ forall r, In r rs -> In (r, ru) deps) /\
  (forall r ru, In (r, ru) deps -> In (r, ru) acc \/ exists pr s rs, In pr ps /\ precedent_rule pr = Ok (s, ru) /\ read_regions ru s result = Ok rs /\ In r rs) /\
  (forall x, In x acc -> In x deps).
Proof.
  intros result. induction ps as [|pr ps IH]; intros acc deps H; cbn [summary_deps] in H.
  - apply Ok_inj in H. subst deps. repeat split; auto. intros pr [].
  - destruct (precedent_rule pr) as [[s ru]| |] eqn:P; try discriminate. cbn [rbind fst snd] in H.
    destruct (read_regions ru s result) as [rs| |] eqn:R; try discriminate. cbn [rbind] in H.
    apply IH in H. destruct H as (H1 & H2 & H3).
    assert (AU := append_unique_in dep dep_eqb dep_eqb_spec (map (fun x => (x, ru)) rs) acc).
    split; [|split].
    + intros q [<-|Q]; [|auto]. exists s, ru, rs. repeat (split; auto). intros r I. apply H3, AU. right. now apply in_map_iff; exists r.
    + intros r u I. destruct (H2 r u I) as [I2|(q & t & us & Q & Q1 & Q2 & Q3)].
      * apply AU in I2. destruct I2 as [I2|I2]; [now left|]. apply in_map_iff in I2. destruct I2 as (x & E & X). injection E as -> <-.
        right. exists pr, s, rs. cbn [In]. auto.
      * right. exists q, t, us. cbn [In]. auto.
    + intros x I. apply H3, AU. now left.
Qed.

Lemma of_domain_ok : forall d, dom_ok d -> rg_ok (of_domain d).
Proof. intros [] H; cbn in *; unfold rg_ok; cbn; lia. Qed.
Lemma of_domain_within : forall d p, within (of_domain d) p <-> placed_at d p.
Proof. intros [] p; unfold within; cbn; tauto. Qed.

Theorem summary_reads : forall d ps deps, dom_ok d -> Forall precedent_ok ps -> summary d ps = Ok deps ->
  (forall p y, ucell y -> placed_at d p ->
     ((exists r ru, In (r, ru) deps /\ within r y /\ reads ru p y) <-> exists pr, In pr ps /\ precedent_reads pr p y)) /\
  (forall y, ucell y -> ((exists r ru, In (r, ru) deps /\ within r y) <-> exists p pr, placed_at d p /\ In pr ps /\ precedent_reads pr p y)).
Proof.
  intros d ps deps D O H. unfold summary in H. apply summary_deps_in in H. destruct H as (H1 & H2 & _). rewrite Forall_forall in O.
  assert (RO := of_domain_ok d D). split.
  - intros p y U P. split.
    + intros (r & ru & I & W & R). destruct (H2 r ru I) as [[]|(pr & s & rs & Q & Q1 & Q2 & Q3)]. exists pr. split; auto.
      apply (precedent_rule_reads _ _ _ p y Q1). split; auto.
      assert (I64 := precedent_rule_i64 _ _ _ (O pr Q) Q1). destruct (read_regions_exact _ _ _ _ I64 RO Q2) as [_ EX].
      apply (EX y U). eauto.
    + intros (pr & Q & PR). destruct (H1 pr Q) as (s & ru & rs & Q1 & Q2 & Q3). apply (precedent_rule_reads _ _ _ p y Q1) in PR. destruct PR as [E R].
      assert (I64 := precedent_rule_i64 _ _ _ (O pr Q) Q1). destruct (read_regions_exact _ _ _ _ I64 RO Q2) as [_ EX].
      destruct (proj2 (EX y U)) as (r & I & W); [split; auto; exists p; split; auto; now apply of_domain_within|]. exists r, ru. auto.
  - intros y U. split.
    + intros (r & ru & I & W). destruct (H2 r ru I) as [[]|(pr & s & rs & Q & Q1 & Q2 & Q3)].
      assert (I64 := precedent_rule_i64 _ _ _ (O pr Q) Q1). destruct (read_regions_exact _ _ _ _ I64 RO Q2) as [_ EX].
      destruct (proj1 (EX y U)) as (E & p & P & R); [eauto|]. exists p, pr. rewrite <- of_domain_within. repeat (split; auto).
      apply (precedent_rule_reads _ _ _ p y Q1). auto.
    + intros (p & pr & P & Q & PR). destruct (H1 pr Q) as (s & ru & rs & Q1 & Q2 & Q3). apply (precedent_rule_reads _ _ _ p y Q1) in PR. destruct PR as [E R].
      assert (I64 := precedent_rule_i64 _ _ _ (O pr Q) Q1). destruct (read_regions_exact _ _ _ _ I64 RO Q2) as [_ EX].
      destruct (proj2 (EX y U)) as (r & I & W); [split; auto; exists p; split; auto; now apply of_domain_within|]. exists r, ru. auto.
Qed.

(** * Dirty domains *)
Lemma point_within : forall c x, within (point c) x <-> x = c.
Proof. intros [s r c] [s' r' c']. unfold within, point. cbn. split; [intros (-> & -> & ->); auto|intros H; injection H as -> -> ->; auto]. Qed.
Lemma point_ok : forall c, ucell c -> rg_ok (point c).
Proof. intros c [A B]. split; cbn; auto. Qed.
Lemma result_regions_within : forall d result c, (exists r, In r (result_regions d result) /\ within r c) <-> dirty_cell d result c.
Proof.
  intros [|l|l] result c; cbn [result_regions dirty_cell].
  - split; [intros (r & [<-|[]] & W); auto|intros W; exists result; split; [now left|auto]].
  - split.
    + intros (r & I & W). apply in_map_iff in I. destruct I as (x & <- & X). apply point_within in W. now subst.
    + intros I. exists (point c). split; [now apply in_map|now apply point_within].
  - tauto.
Qed.
Lemma result_regions_ok : forall d result, dirty_ok d -> rg_ok result -> Forall rg_ok (result_regions d result).
Proof.
  intros [|l|l] result D R; cbn [result_regions dirty_ok] in *; auto.
  rewrite Forall_forall in *. intros r I. apply in_map_iff in I. destruct I as (x & <- & X). apply point_ok. auto.
Qed.
Theorem merge_cells : forall a b result c,
  (dirty_cell a result c \/ dirty_cell b result c -> within result c) ->
  (dirty_cell (merge a b) result c <-> dirty_cell a result c \/ dirty_cell b result c).
Proof.
  intros a b result c W. assert (AC := append_unique_in cell cl_eqb cl_eqb_spec). assert (AR := append_unique_in region rg_eqb rg_eqb_spec).
  destruct a as [|x|x], b as [|y|y]; cbn [merge dirty_cell] in *.
  - tauto.
  - split; [tauto|]. intros [H|H]; auto.
  - split; [tauto|]. intros [H|H]; auto.
  - split; [tauto|]. intros [H|H]; auto.
  - apply AC.
  - split.
    + intros (r & I & K). apply AR in I. destruct I as [I|I]; [|right; eauto]. apply in_map_iff in I. destruct I as (q & <- & Q). apply point_within in K. subst. now left.
    + intros [I|(r & I & K)]; [exists (point c); split; [apply AR; left; now apply in_map|now apply point_within]|exists r; split; auto; apply AR; auto].
  - split; [tauto|]. intros [H|H]; auto.
  - split.
    + intros (r & I & K). apply AR in I. destruct I as [I|I]; [left; eauto|]. apply in_map_iff in I. destruct I as (q & <- & Q). apply point_within in K. subst. now right.
    + intros [(r & I & K)|I]; [exists r; split; auto; apply AR; auto|exists (point c); split; [apply AR; right; now apply in_map|now apply point_within]].
  - split.
    + intros (r & I & K). apply AR in I. destruct I; [left|right]; eauto.
    + intros [(r & I & K)|(r & I & K)]; exists r; split; auto; apply AR; auto.
Qed.
Lemma merge_ok : forall a b, dirty_ok a -> dirty_ok b -> dirty_ok (merge a b).
Proof.
  intros a b A B. assert (AC := append_unique_in cell cl_eqb cl_eqb_spec). assert (AR := append_unique_in region rg_eqb rg_eqb_spec).
  destruct a as [|x|x], b as [|y|y]; cbn [merge dirty_ok] in *; auto; rewrite Forall_forall in *; intros r I.
  - apply AC in I. destruct I; auto.
  - apply AR in I. destruct I as [I|I]; auto. apply in_map_iff in I. destruct I as (q & <- & Q). apply point_ok; auto.
  - apply AR in I. destruct I as [I|I]; auto. apply in_map_iff in I. destruct I as (q & <- & Q). apply point_ok; auto.
  - apply AR in I. destruct I; auto.
Qed.
Lemma list_eqb_spec : forall A (eqb : A -> A -> bool), (forall a b, eqb a b = true <-> a = b) -> forall a b, list_eqb eqb a b = true <-> a = b.
Proof.
  intros A eqb E. induction a as [|x a IH]; intros [|y b]; cbn [list_eqb]; try (split; [discriminate|intros H; discriminate H]); [tauto|].
  rewrite andb_true_iff, E, IH. split; [intros [-> ->]; auto|]. intros H. injection H as -> ->. auto.
Qed.
Lemma dirty_eqb_spec : forall a b, dirty_eqb a b = true <-> a = b.
Proof.
  intros a b. destruct a as [|x|x], b as [|y|y]; cbn [dirty_eqb]; try (split; [discriminate|intros H; discriminate H]); [tauto| |].
  - rewrite (list_eqb_spec _ _ cl_eqb_spec). split; [intros ->; auto|intros H; now injection H].
  - rewrite (list_eqb_spec _ _ rg_eqb_spec). split; [intros ->; auto|intros H; now injection H].
Qed.

(** Demand. *)
Lemma demand_row : forall d ms acc r, In r (fold_left (fun acc m =>
    match inter d m with Some r => if existsb (rg_eqb r) acc then acc else acc ++ [r] | None => acc end) ms acc) <->
  In r acc \/ exists m, In m ms /\ inter d m = Some r.
Proof.
  intros d. induction ms as [|m ms IH]; intros acc r; cbn [fold_left]; [firstorder|]. rewrite IH. destruct (inter d m) as [q|] eqn:E.
  - assert (G : In r (if existsb (rg_eqb q) acc then acc else acc ++ [q]) <-> In r acc \/ r = q).
    { destruct (existsb (rg_eqb q) acc) eqn:X.
      - apply existsb_exists in X. destruct X as (z & Z & X). apply rg_eqb_spec in X. subst z. split; [auto|intros [H | ->]; auto].
      - rewrite in_app_iff. cbn [In]. intuition. }
    rewrite G. split.
    + intros [[H | ->]|(k & K & K')]; [auto|right; exists m; cbn; auto|right; exists k; cbn; auto].
    + intros [H|(k & [<-|K] & K')]; [auto|left; right; congruence|right; eauto].
  - split.
    + intros [H|(k & K & K')]; [auto|right; exists k; cbn; auto].
    + intros [H|(k & [<-|K] & K')]; [auto|congruence|right; eauto].
Qed.
Lemma demanded_in : forall ds ms r, In r (demanded_regions ds ms) <-> exists d m, In d ds /\ In m ms /\ inter d m = Some r.
Proof.
  intros ds ms r. unfold demanded_regions.
  assert (G : forall ds acc, In r (fold_left (fun acc d => fold_left (fun acc m =>
    match inter d m with Some r => if existsb (rg_eqb r) acc then acc else acc ++ [r] | None => acc end) ms acc) ds acc) <->
    In r acc \/ exists d m, In d ds /\ In m ms /\ inter d m = Some r).
  { clear ds. induction ds as [|d ds IH]; intros acc; cbn [fold_left].
    - split; [auto|]. intros [H|(d & m & [] & _)]; auto.
    - rewrite IH, demand_row. split.
      + intros [[H|(m & M & E)]|(e & m & E & M & X)]; [auto|right; exists d, m; cbn; auto|right; exists e, m; cbn; auto].
      + intros [H|(e & m & [<-|E] & M & X)]; [auto|left; right; eauto|right; eauto]. }
  rewrite G. cbn [In]. tauto.
Qed.
Theorem demanded_cells : forall d result ms, dirty_ok d -> rg_ok result -> Forall rg_ok ms ->
  match intersect_demanded d result ms with
  | Some e => (forall c, dirty_cell e result c <-> dirty_cell d result c /\ exists m, In m ms /\ within m c) /\ exists c, ucell c /\ dirty_cell e result c
  | None => forall c, ~ (dirty_cell d result c /\ exists m, In m ms /\ within m c)
  end.
Proof.
  intros d result ms D R M. rewrite Forall_forall in M.
  assert (RO := result_regions_ok d result D R). rewrite Forall_forall in RO.
  assert (G : forall c, (exists r, In r (demanded_regions (result_regions d result) ms) /\ within r c) <-> dirty_cell d result c /\ exists m, In m ms /\ within m c).
  { intros c. rewrite <- result_regions_within. split.
    - intros (r & I & W). apply demanded_in in I. destruct I as (x & m & X & I & E). assert (K := inter_within x m (RO x X) (M m I)). rewrite E in K.
      destruct K as (_ & K & _). apply K in W. destruct W. split; eauto.
    - intros ((x & X & W) & m & I & V). assert (K := inter_within x m (RO x X) (M m I)). destruct (inter x m) as [r|] eqn:E.
      + destruct K as (_ & K & _). exists r. split; [apply demanded_in; eauto 6|now apply K].
      + exfalso. apply (K c). auto. }
  assert (NE : forall r, In r (demanded_regions (result_regions d result) ms) -> exists c, ucell c /\ within r c).
  { intros r I. apply demanded_in in I. destruct I as (x & m & X & I & E). assert (K := inter_within x m (RO x X) (M m I)). rewrite E in K. tauto. }
  unfold intersect_demanded. destruct ms as [|m0 ms0]; [intros c (_ & m & [] & _)|].
  set (ms := m0 :: ms0) in *. destruct (demanded_regions (result_regions d result) ms) as [|r [|q l]] eqn:E.
  - intros c K. apply G in K. destruct K as (x & [] & _).
  - assert (One : forall c, dirty_cell (Regions [r]) result c <-> dirty_cell d result c /\ exists m, In m ms /\ within m c) by exact G.
    destruct (NE r (or_introl eq_refl)) as (c0 & U0 & W0).
    assert (Done : (forall c, dirty_cell (Regions [r]) result c <-> dirty_cell d result c /\ exists m, In m ms /\ within m c) /\ exists c, ucell c /\ dirty_cell (Regions [r]) result c).
    { split; auto. exists c0. split; auto. exists r. split; [now left|auto]. }
    destruct d; auto. destruct (rg_eqb r result) eqn:Q; auto. apply rg_eqb_spec in Q. subst r. split.
    + intros c. rewrite <- One. cbn [dirty_cell]. split; [intros W; exists result; split; [now left|auto]|intros (x & [<-|[]] & W); auto].
    + exists c0. auto.
  - split; [exact G|]. destruct (NE r (or_introl eq_refl)) as (c0 & U0 & W0). exists c0. split; auto. exists r. split; [now left|auto].
Qed.
