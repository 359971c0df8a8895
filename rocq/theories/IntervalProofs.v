(** The interval index. *)
From Coq Require Import Permutation.
From Verif Require Import Base Maps ListSort IntervalModel IntervalSpec.

Lemma N_eqb_spec : forall a b, N.eqb a b = true <-> a = b.
Proof. intros; apply N.eqb_eq. Qed.
Lemma memN_spec : forall x l, memN x l = true <-> In x l.
Proof.
  intros. unfold memN. rewrite existsb_exists. split.
  - intros (y & H & E). apply N.eqb_eq in E. now subst.
  - intros H. exists x. split; auto. apply N.eqb_refl.
Qed.
Lemma memN_false : forall x l, memN x l = false <-> ~ In x l.
Proof. intros. rewrite <- memN_spec. destruct (memN x l); split; intros; try discriminate; auto. now destruct H. Qed.
Lemma set_add_in : forall x l y, In y (set_add x l) <-> y = x \/ In y l.
Proof.
  intros. unfold set_add. destruct (memN x l) eqn:M; cbn; [|intuition congruence].
  apply memN_spec in M. split; auto. intros [->|H]; auto.
Qed.
Lemma set_add_nodup : forall x l, NoDup l -> NoDup (set_add x l).
Proof. intros. unfold set_add. destruct (memN x l) eqn:M; auto. constructor; auto. now apply memN_false. Qed.
Lemma set_del_in : forall x l y, In y (set_del x l) <-> In y l /\ y <> x.
Proof. intros. unfold set_del. rewrite filter_In, negb_true_iff, N.eqb_neq. intuition congruence. Qed.
Lemma set_del_nodup : forall x l, NoDup l -> NoDup (set_del x l).
Proof. intros. now apply NoDup_filter. Qed.
Lemma fold_add_in : forall set l y, In y (fold_right set_add l set) <-> In y set \/ In y l.
Proof. induction set as [|x set IH]; intros l y; cbn; [tauto|]. rewrite set_add_in, IH. intuition congruence. Qed.
Lemma fold_add_nodup : forall set l, NoDup l -> NoDup (fold_right set_add l set).
Proof. induction set as [|x set IH]; intros l H; cbn; auto. apply set_add_nodup; auto. Qed.

(** Lookup of an exact interval. *)
Definition vals_at (t : itree) (lo hi : N) : option (list N) :=
  match mget N.eqb (imap t) lo with Some ns => mget N.eqb ns hi | None => None end.
Lemma vals_at_nodes : forall t lo hi, vals_at t lo hi = mget N.eqb (nodes_at t lo) hi.
Proof. intros. unfold vals_at, nodes_at. now destruct (mget N.eqb (imap t) lo). Qed.
Definition stored (t : itree) (lo hi v : N) : Prop := exists vals, vals_at t lo hi = Some vals /\ In v vals.

Record wf (t : itree) : Prop := Wf {
  w_keys : NoDup (map fst (imap t));
  w_nodes : forall lo ns, In (lo, ns) (imap t) -> NoDup (map fst ns) }.

Lemma nodes_at_keys : forall t lo, wf t -> NoDup (map fst (nodes_at t lo)).
Proof.
  intros t lo W. unfold nodes_at. destruct (mget N.eqb (imap t) lo) as [ns|] eqn:G; [|constructor].
  apply mget_In in G; [|apply N_eqb_spec]. apply (w_nodes _ W _ _ G).
Qed.

(** Writing one interval. *)
Definition it_set (t : itree) (lo hi : N) (vals : list N) (n : N) : itree :=
  ITree (mput N.eqb (imap t) lo (mput N.eqb (nodes_at t lo) hi vals)) n.
Lemma it_set_at : forall t lo hi vals n a b,
  vals_at (it_set t lo hi vals n) a b = if N.eqb a lo && N.eqb b hi then Some vals else vals_at t a b.
Proof.
  intros. unfold it_set, vals_at at 1. cbn [imap]. destruct (N.eqb_spec a lo) as [->|E].
  - rewrite mget_put_same by apply N_eqb_spec. destruct (N.eqb_spec b hi) as [->|E']; cbn [andb].
    + now rewrite mget_put_same by apply N_eqb_spec.
    + rewrite mget_put_other by (auto using N_eqb_spec). now rewrite vals_at_nodes.
  - cbn [andb]. now rewrite mget_put_other by (auto using N_eqb_spec).
Qed.
Lemma it_set_wf : forall t lo hi vals n, wf t -> wf (it_set t lo hi vals n).
Proof.
  intros t lo hi vals n W. split; cbn [it_set imap].
  - apply mput_keys_NoDup; [apply N_eqb_spec|apply (w_keys _ W)].
  - intros a ns H. destruct H as [E|H].
    + inversion E; subst. apply mput_keys_NoDup; [apply N_eqb_spec|now apply nodes_at_keys].
    + apply mdel_In in H; [|apply N_eqb_spec]. apply (w_nodes _ W a). tauto.
Qed.

(** Dropping one interval. *)
Definition it_drop (t : itree) (lo hi : N) (n : N) : itree :=
  let ns' := mdel N.eqb (nodes_at t lo) hi in
  ITree (match ns' with [] => mdel N.eqb (imap t) lo | _ => mput N.eqb (imap t) lo ns' end) n.
Lemma it_drop_at : forall t lo hi n a b,
  vals_at (it_drop t lo hi n) a b = if N.eqb a lo && N.eqb b hi then None else vals_at t a b.
Proof.
  intros. unfold it_drop, vals_at at 1. cbn [imap]. destruct (N.eqb_spec a lo) as [->|E].
  - assert (X : match mget N.eqb (match mdel N.eqb (nodes_at t lo) hi with [] => mdel N.eqb (imap t) lo | _ => mput N.eqb (imap t) lo (mdel N.eqb (nodes_at t lo) hi) end) lo
               with Some ns => mget N.eqb ns b | None => None end = mget N.eqb (mdel N.eqb (nodes_at t lo) hi) b).
    { destruct (mdel N.eqb (nodes_at t lo) hi) eqn:D.
      - now rewrite mget_del_same by apply N_eqb_spec.
      - now rewrite mget_put_same by apply N_eqb_spec. }
    rewrite X. destruct (N.eqb_spec b hi) as [->|E']; cbn [andb].
    + now rewrite mget_del_same by apply N_eqb_spec.
    + rewrite mget_del_other by (auto using N_eqb_spec). now rewrite vals_at_nodes.
  - cbn [andb]. destruct (mdel N.eqb (nodes_at t lo) hi).
    + now rewrite mget_del_other by (auto using N_eqb_spec).
    + now rewrite mget_put_other by (auto using N_eqb_spec).
Qed.
Lemma mdel_keys_NoDup : forall V (m : list (N * V)) k, NoDup (map fst m) -> NoDup (map fst (mdel N.eqb m k)).
Proof.
  intros V m k H. unfold mdel. induction m as [|p m IH]; cbn; [constructor|]. inversion H as [|x l H1 H2]; subst.
  destruct (negb (N.eqb k (fst p))); cbn; auto. constructor; auto.
  intros I. apply in_map_iff in I. destruct I as (q & E & I). apply filter_In in I.
  apply H1. rewrite <- E. apply in_map. tauto.
Qed.
Lemma it_drop_wf : forall t lo hi n, wf t -> wf (it_drop t lo hi n).
Proof.
  intros t lo hi n W. pose proof (mdel_keys_NoDup _ _ hi (nodes_at_keys t lo W)) as ND.
  split; cbn [it_drop imap]; destruct (mdel N.eqb (nodes_at t lo) hi) eqn:D.
  - apply mdel_keys_NoDup, (w_keys _ W).
  - apply mput_keys_NoDup; [apply N_eqb_spec|apply (w_keys _ W)].
  - intros a ns H. apply mdel_In in H; [|apply N_eqb_spec]. apply (w_nodes _ W a). tauto.
  - intros a ns [E|H].
    + inversion E; subst. exact ND.
    + apply mdel_In in H; [|apply N_eqb_spec]. apply (w_nodes _ W a). tauto.
Qed.

(** The operations in those terms. *)
Lemma it_insert_eq : forall lo hi v t, it_insert lo hi v t =
  match vals_at t lo hi with
  | Some vals => it_set t lo hi (set_add v vals) (isize t)
  | None => it_set t lo hi [v] (isize t + 1)
  end.
Proof. intros. unfold it_insert. rewrite vals_at_nodes. now destruct (mget N.eqb (nodes_at t lo) hi). Qed.
Lemma it_entry_eq : forall lo hi v t, it_entry_insert lo hi v t =
  match vals_at t lo hi with
  | Some vals => it_set t lo hi (set_add v vals) (isize t)
  | None => it_set (it_set t lo hi [] (isize t + 1)) lo hi [v] (isize t + 1)
  end.
Proof.
  intros. unfold it_entry_insert. rewrite vals_at_nodes. destruct (mget N.eqb (nodes_at t lo) hi) as [w|] eqn:G.
  - now rewrite G.
  - fold (it_set t lo hi [] (isize t + 1)). rewrite <- (vals_at_nodes (it_set t lo hi [] (isize t + 1))).
    rewrite it_set_at, !N.eqb_refl. cbn [andb]. reflexivity.
Qed.
Lemma it_remove_eq : forall lo hi v t, it_remove lo hi v t =
  match vals_at t lo hi with
  | Some vals => if memN v vals
                 then match set_del v vals with
                      | [] => (it_drop t lo hi (isize t - 1), true)
                      | vals' => (it_set t lo hi vals' (isize t), true)
                      end
                 else (t, false)
  | None => (t, false)
  end.
Proof.
  intros. unfold it_remove, vals_at, it_drop, it_set, nodes_at. destruct (mget N.eqb (imap t) lo); auto.
Qed.

(** The tree stands for a set of triples. *)
Definition rep (t : itree) (s : iset) : Prop := wf t /\ forall lo hi v, stored t lo hi v <-> s lo hi v.
Lemma stored_set : forall t lo hi vals n a b x,
  stored (it_set t lo hi vals n) a b x <-> (a = lo /\ b = hi /\ In x vals) \/ (~ (a = lo /\ b = hi) /\ stored t a b x).
Proof.
  intros. unfold stored. rewrite it_set_at. destruct (N.eqb_spec a lo) as [->|E]; destruct (N.eqb_spec b hi) as [->|E']; cbn [andb].
  - split.
    + intros (w & H & I). inversion H; subst. auto.
    + intros [(_ & _ & I)|[H _]]; [eauto|tauto].
  - split; [intros H; right; split; [tauto|exact H]|]. intros [(_ & H & _)|[_ H]]; [contradiction|exact H].
  - split; [intros H; right; split; [tauto|exact H]|]. intros [(H & _)|[_ H]]; [contradiction|exact H].
  - split; [intros H; right; split; [tauto|exact H]|]. intros [(H & _)|[_ H]]; [contradiction|exact H].
Qed.
Lemma stored_drop : forall t lo hi n a b x,
  stored (it_drop t lo hi n) a b x <-> ~ (a = lo /\ b = hi) /\ stored t a b x.
Proof.
  intros. unfold stored. rewrite it_drop_at. destruct (N.eqb_spec a lo) as [->|E]; destruct (N.eqb_spec b hi) as [->|E']; cbn [andb].
  - split; [intros (w & H & _); discriminate|]. tauto.
  - split; [intros H; split; [tauto|exact H]|tauto].
  - split; [intros H; split; [tauto|exact H]|tauto].
  - split; [intros H; split; [tauto|exact H]|tauto].
Qed.
Lemma pair_dec : forall a b lo hi : N, (a = lo /\ b = hi) \/ ~ (a = lo /\ b = hi).
Proof. intros. destruct (N.eq_dec a lo); destruct (N.eq_dec b hi); tauto. Qed.

Lemma stored_insert : forall lo hi v t a b x,
  stored (it_insert lo hi v t) a b x <-> (a = lo /\ b = hi /\ x = v) \/ stored t a b x.
Proof.
  intros. rewrite it_insert_eq. destruct (vals_at t lo hi) as [w|] eqn:G; rewrite stored_set.
  - rewrite set_add_in. destruct (pair_dec a b lo hi) as [[-> ->]|D]; [|tauto].
    assert (X : stored t lo hi x <-> In x w).
    { unfold stored. rewrite G. split; [intros (y & E & I); congruence|eauto]. }
    rewrite X. tauto.
  - cbn [In]. destruct (pair_dec a b lo hi) as [[-> ->]|D]; [|intuition congruence].
    assert (X : ~ stored t lo hi x) by (unfold stored; rewrite G; intros (y & E & _); discriminate).
    intuition congruence.
Qed.
Lemma stored_entry : forall lo hi v t a b x,
  stored (it_entry_insert lo hi v t) a b x <-> (a = lo /\ b = hi /\ x = v) \/ stored t a b x.
Proof.
  intros. rewrite <- stored_insert, it_insert_eq, it_entry_eq. destruct (vals_at t lo hi); [reflexivity|].
  rewrite !stored_set. tauto.
Qed.
Lemma stored_remove : forall lo hi v t a b x,
  stored (fst (it_remove lo hi v t)) a b x <-> stored t a b x /\ ~ (a = lo /\ b = hi /\ x = v).
Proof.
  intros. rewrite it_remove_eq. destruct (vals_at t lo hi) as [w|] eqn:G.
  - assert (X : forall y, stored t lo hi y <-> In y w).
    { intros y. unfold stored. rewrite G. split; [intros (z & E & I); congruence|eauto]. }
    destruct (memN v w) eqn:M.
    + destruct (set_del v w) as [|y l] eqn:D; cbn [fst]; [rewrite stored_drop|rewrite stored_set].
      * destruct (pair_dec a b lo hi) as [[-> ->]|N]; [|tauto]. rewrite X. split; [tauto|]. intros [H1 H2].
        exfalso. assert (H : In x (set_del v w)) by (apply set_del_in; tauto). rewrite D in H. destruct H.
      * rewrite <- D, set_del_in. destruct (pair_dec a b lo hi) as [[-> ->]|N]; [|tauto]. rewrite X. tauto.
    + cbn [fst]. apply memN_false in M. split; [|tauto]. intros H. split; auto. intros (-> & -> & ->). apply X in H. tauto.
  - cbn [fst]. split; [|tauto]. intros H. split; auto. intros (-> & -> & ->). destruct H as (y & E & _). congruence.
Qed.
Lemma remove_result : forall lo hi v t, snd (it_remove lo hi v t) = true <-> stored t lo hi v.
Proof.
  intros. rewrite it_remove_eq. unfold stored. destruct (vals_at t lo hi) as [w|].
  - destruct (memN v w) eqn:M.
    + apply memN_spec in M. split; [eauto|]. intros _. now destruct (set_del v w).
    + apply memN_false in M. cbn. split; [discriminate|]. intros (y & E & I). congruence.
  - cbn. split; [discriminate|]. intros (y & E & _). discriminate.
Qed.
Lemma bulk_one_eq : forall t c set, bulk_one t (c, set) =
  match vals_at t c c with
  | Some vals => it_set t c c (fold_right set_add vals set) (isize t)
  | None => it_set t c c set (isize t + 1)
  end.
Proof. intros. unfold bulk_one. rewrite vals_at_nodes. now destruct (mget N.eqb (nodes_at t c) c). Qed.
Lemma stored_bulk_one : forall t c set a b x,
  stored (bulk_one t (c, set)) a b x <-> stored t a b x \/ (a = c /\ b = c /\ In x set).
Proof.
  intros. rewrite bulk_one_eq. destruct (vals_at t c c) as [w|] eqn:G; rewrite stored_set.
  - rewrite fold_add_in. destruct (pair_dec a b c c) as [[-> ->]|D]; [|tauto].
    assert (X : stored t c c x <-> In x w).
    { unfold stored. rewrite G. split; [intros (y & E & I); congruence|eauto]. }
    rewrite X. tauto.
  - destruct (pair_dec a b c c) as [[-> ->]|D]; [|tauto].
    assert (X : ~ stored t c c x) by (unfold stored; rewrite G; intros (y & E & _); discriminate). tauto.
Qed.
Lemma stored_bulk : forall items t a b x,
  stored (it_bulk items t) a b x <-> stored t a b x \/ (a = b /\ exists set, In (a, set) items /\ In x set).
Proof.
  intros items t a b x. unfold it_bulk. destruct (it_is_empty t).
  - revert t. induction items as [|[c set] items IH]; intros t; cbn [fold_left].
    + split; auto. intros [H|(_ & s & [] & _)]; auto.
    + rewrite IH, stored_bulk_one. split.
      * intros [[H|(-> & -> & H)]|(-> & s & H & I)]; auto; right; split; auto.
        -- exists set. cbn. auto.
        -- exists s. cbn. auto.
      * intros [H|(-> & s & [E|H] & I)]; auto.
        -- inversion E; subst. auto.
        -- right. split; auto. exists s. auto.
  - revert t. induction items as [|[c set] items IH]; intros t; cbn [fold_left].
    + split; auto. intros [H|(_ & s & [] & _)]; auto.
    + rewrite IH. cbn [fst snd].
      assert (X : forall l u, stored (fold_left (fun t v => it_insert c c v t) l u) a b x <-> stored u a b x \/ (a = c /\ b = c /\ In x l)).
      { induction l as [|y l IHl]; intros u; cbn [fold_left]; [cbn; tauto|]. rewrite IHl, stored_insert. cbn. intuition congruence. }
      rewrite X. split.
      * intros [[H|(-> & -> & H)]|(-> & s & H & I)]; auto; right; split; auto.
        -- exists set. cbn. auto.
        -- exists s. cbn. auto.
      * intros [H|(-> & s & [E|H] & I)]; auto.
        -- inversion E; subst. auto.
        -- right. split; auto. exists s. auto.
Qed.

Lemma insert_wf : forall lo hi v t, wf t -> wf (it_insert lo hi v t).
Proof. intros. rewrite it_insert_eq. destruct (vals_at t lo hi); now apply it_set_wf. Qed.
Lemma entry_wf : forall lo hi v t, wf t -> wf (it_entry_insert lo hi v t).
Proof. intros. rewrite it_entry_eq. destruct (vals_at t lo hi); repeat apply it_set_wf; auto. Qed.
Lemma remove_wf : forall lo hi v t, wf t -> wf (fst (it_remove lo hi v t)).
Proof.
  intros. rewrite it_remove_eq. destruct (vals_at t lo hi) as [w|]; auto. destruct (memN v w); auto.
  destruct (set_del v w); [now apply it_drop_wf|now apply it_set_wf].
Qed.
Lemma bulk_one_wf : forall t i, wf t -> wf (bulk_one t i).
Proof. intros t [c set] H. rewrite bulk_one_eq. destruct (vals_at t c c); now apply it_set_wf. Qed.
Lemma bulk_wf : forall items t, wf t -> wf (it_bulk items t).
Proof.
  intros items t W. unfold it_bulk. destruct (it_is_empty t).
  - revert t W. induction items as [|i items IH]; intros t W; cbn [fold_left]; auto. now apply IH, bulk_one_wf.
  - revert t W. induction items as [|[c set] items IH]; intros t W; cbn [fold_left]; auto. apply IH. cbn [fst snd].
    revert t W. induction set as [|v set IHs]; intros t W; cbn [fold_left]; auto. apply IHs. now apply insert_wf.
Qed.

Lemma rep_step : forall o t s, rep t s -> rep (istep o t) (ispec_step o s).
Proof.
  intros o t s [W R]. destruct o; cbn [istep ispec_step].
  - split; [now apply insert_wf|]. intros. now rewrite stored_insert, R.
  - split; [now apply remove_wf|]. intros. now rewrite stored_remove, R.
  - split; [now apply entry_wf|]. intros. now rewrite stored_entry, R.
  - split; [now apply bulk_wf|]. intros. now rewrite stored_bulk, R.
Qed.
Lemma wf_empty : wf it_empty.
Proof. split; cbn; [constructor|tauto]. Qed.
Lemma rep_empty : rep it_empty (fun _ _ _ => False).
Proof. split; [apply wf_empty|]. intros lo hi v. unfold stored. cbn. split; [intros (? & ? & _); discriminate|tauto]. Qed.
Lemma rep_run : forall os t s, rep t s -> rep (irun os t) (fold_left (fun s o => ispec_step o s) os s).
Proof. induction os as [|o os IH]; intros t s R; auto. cbn. apply IH. now apply rep_step. Qed.

(** Queries. *)
Lemma query_at : forall t ql qh lo hi vals, wf t ->
  (In (lo, hi, vals) (it_query ql qh t) <-> vals_at t lo hi = Some vals /\ (lo <= qh)%N /\ (ql <= hi)%N).
Proof.
  intros t ql qh lo hi vals W. unfold it_query. rewrite in_flat_map. split.
  - intros ([l ns] & H & I). apply filter_In in H. destruct H as [H B]. cbn [fst snd] in *.
    apply in_map_iff in I. destruct I as ([h w] & E & I). apply filter_In in I. destruct I as [I B']. cbn [fst snd] in *.
    inversion E; subst. apply N.leb_le in B. apply N.leb_le in B'. split; auto.
    unfold vals_at. rewrite (mget_NoDup N.eqb N_eqb_spec _ lo ns); auto; [|apply (w_keys _ W)].
    apply mget_NoDup; auto using N_eqb_spec. apply (w_nodes _ W _ _ H).
  - intros (H & A & B). unfold vals_at in H. destruct (mget N.eqb (imap t) lo) as [ns|] eqn:G; [|discriminate].
    exists (lo, ns). split.
    + apply filter_In. split; [apply mget_In in G; auto using N_eqb_spec|]. now apply N.leb_le.
    + cbn [fst snd]. apply in_map_iff. exists (hi, vals). split; auto. apply filter_In. split.
      * apply mget_In in H; auto using N_eqb_spec.
      * now apply N.leb_le.
Qed.
Lemma query_raw : forall t s ql qh lo hi v, rep t s ->
  (reported (it_query ql qh t) lo hi v <-> s lo hi v /\ (lo <= qh)%N /\ (ql <= hi)%N).
Proof.
  intros t s ql qh lo hi v [W R]. rewrite <- R. unfold reported, stored. split.
  - intros (vals & H & I). apply query_at in H; auto. destruct H as (H & A & B). eauto.
  - intros ((vals & H & I) & A & B). exists vals. rewrite query_at; auto.
Qed.
Lemma share_iff : forall a b c d, (a <= b)%N -> (c <= d)%N -> (share a b c d <-> (c <= b)%N /\ (a <= d)%N).
Proof.
  intros a b c d H1 H2. unfold share. split.
  - intros (x & H). lia.
  - intros [H3 H4]. exists (N.max a c). lia.
Qed.
Lemma ispec_proper : forall os (s : iset), (forall lo hi v, s lo hi v -> (lo <= hi)%N) -> Forall proper_op os ->
  forall lo hi v, fold_left (fun s o => ispec_step o s) os s lo hi v -> (lo <= hi)%N.
Proof.
  induction os as [|o os IH]; intros s P F; auto. inversion F; subst. cbn [fold_left]. apply IH; auto.
  intros lo hi v. destruct o; cbn [ispec_step proper_op] in *.
  - intros [(-> & -> & _)|H]; eauto.
  - intros [H _]. eauto.
  - intros [(-> & -> & _)|H]; eauto.
  - intros [H|(-> & _)]; [eauto|lia].
Qed.
Lemma interval_query : forall os ql qh lo hi v, Forall proper_op os -> (ql <= qh)%N ->
  (reported (it_query ql qh (irun os it_empty)) lo hi v <-> ispec os lo hi v /\ share ql qh lo hi).
Proof.
  intros os ql qh lo hi v F Q. rewrite (query_raw _ (ispec os)); [|apply rep_run, rep_empty]. split.
  - intros (H & A & B). split; auto. apply share_iff; auto.
    eapply (ispec_proper os); eauto. intros; contradiction.
  - intros [H S]. split; auto. apply share_iff in S; auto. eapply (ispec_proper os); eauto. intros; contradiction.
Qed.
Lemma interval_remove : forall os lo hi v,
  snd (it_remove lo hi v (irun os it_empty)) = true <-> ispec os lo hi v.
Proof. intros. rewrite remove_result. apply (proj2 (rep_run os _ _ rep_empty)). Qed.
Lemma query_once : forall os ql qh, NoDup (map fst (it_query ql qh (irun os it_empty))).
Proof.
  intros os ql qh. destruct (rep_run os _ _ rep_empty) as [W _]. revert W. generalize (irun os it_empty). intros t W.
  unfold it_query. destruct W as [K Nn]. induction (imap t) as [|[l ns] m IH]; cbn; [constructor|].
  inversion K as [|x y K1 K2]; subst.
  assert (IH' := IH K2 ltac:(intros; eapply Nn; right; eauto)). destruct (N.leb l qh) eqn:L; auto.
  cbn [flat_map fst snd]. rewrite map_app, map_map. cbn [fst].
  apply NoDup_app_iff. split; [|split; auto].
  - assert (X : NoDup (map fst ns)) by (apply (Nn l); now left). revert X. clear. induction ns as [|[h w] ns IH]; intros X; cbn; [constructor|].
    inversion X as [|x y X1 X2]; subst. destruct (N.leb ql h); auto. cbn. constructor; auto.
    intros H. apply in_map_iff in H. destruct H as ([h' w'] & E & H). inversion E; subst. apply filter_In in H.
    apply X1. apply in_map_iff. exists (h, w'). split; [reflexivity|tauto].
  - intros [l' h'] H1 H2. apply in_map_iff in H1. destruct H1 as ([h w] & E & _). inversion E; subst.
    apply in_map_iff in H2. destruct H2 as ([[l2 h2] w2] & E2 & H2). cbn in E2. inversion E2; subst.
    apply in_flat_map in H2. destruct H2 as ([l3 ns3] & H3 & H4). apply in_map_iff in H4. destruct H4 as (q & E4 & _).
    inversion E4; subst. apply filter_In in H3. apply K1. apply in_map_iff. exists (l', ns3). split; [reflexivity|tauto].
Qed.
