(** The size of the interval index; point queries. *)
From Coq Require Import Permutation ZifyN ZifyNat ZifyBool.
From Verif Require Import Base Maps ListSort IntervalModel IntervalSpec IntervalProofs.

Definition ivs (t : itree) : list (N * N) := flat_map (fun p => map (fun n => (fst p, fst n)) (snd p)) (imap t).
Lemma mget_key : forall V (m : list (N * V)) k, In k (map fst m) -> mget N.eqb m k <> None.
Proof.
  intros V m k H X. apply in_map_iff in H. destruct H as ([k' v] & <- & H). cbn in X.
  apply (mget_None_In N.eqb N_eqb_spec _ _ v X H).
Qed.
Lemma ivs_in : forall t lo hi, wf t -> (In (lo, hi) (ivs t) <-> vals_at t lo hi <> None).
Proof.
  intros t lo hi W. unfold ivs, vals_at. rewrite in_flat_map. split.
  - intros ([l ns] & H & I). cbn [fst snd] in I. apply in_map_iff in I. destruct I as ([h w] & E & I). inversion E; subst. cbn [fst].
    rewrite (mget_NoDup N.eqb N_eqb_spec _ lo ns); auto; [|apply (w_keys _ W)].
    apply mget_key. apply in_map_iff. eexists; split; [|exact I]; reflexivity.
  - intros H. destruct (mget N.eqb (imap t) lo) as [ns|] eqn:G; [|congruence].
    destruct (mget N.eqb ns hi) as [w|] eqn:G'; [|congruence]. exists (lo, ns).
    split; [apply mget_In in G; auto using N_eqb_spec|]. cbn [fst snd]. apply in_map_iff. exists (hi, w).
    split; auto. apply mget_In in G'; auto using N_eqb_spec.
Qed.
Lemma ivs_nodup : forall t, wf t -> NoDup (ivs t).
Proof.
  intros t [K Nn]. unfold ivs. induction (imap t) as [|[l ns] m IH]; cbn; [constructor|].
  inversion K as [|x y K1 K2]; subst. apply NoDup_app_iff. split; [|split].
  - assert (X : NoDup (map fst ns)) by (apply (Nn l); now left).
    replace (map (fun n => (l, fst n)) ns) with (map (pair l) (map fst ns)) by (now rewrite map_map).
    apply FinFun.Injective_map_NoDup; auto. intros a b E. congruence.
  - apply IH; auto. intros; eapply Nn; right; eauto.
  - intros [a b] H1 H2. apply in_map_iff in H1. destruct H1 as (n & E & _). inversion E; subst.
    apply in_flat_map in H2. destruct H2 as ([l2 ns2] & H2 & H3). cbn [fst snd] in H3.
    apply in_map_iff in H3. destruct H3 as (n2 & E2 & _). inversion E2; subst.
    apply K1. apply in_map_iff. exists (a, ns2). auto.
Qed.
Lemma same_length : forall (l m : list (N * N)), NoDup l -> NoDup m -> (forall x, In x l <-> In x m) -> length l = length m.
Proof. intros l m A B H. apply Permutation_length. now apply NoDup_Permutation. Qed.
Lemma ivs_set : forall t lo hi vals n, wf t ->
  length (ivs (it_set t lo hi vals n)) = length (ivs t) + match vals_at t lo hi with None => 1 | Some _ => 0 end.
Proof.
  intros t lo hi vals n W. pose proof (it_set_wf t lo hi vals n W) as W'.
  assert (X : forall x, In x (ivs (it_set t lo hi vals n)) <-> x = (lo, hi) \/ In x (ivs t)).
  { intros [a b]. rewrite !ivs_in by auto. rewrite it_set_at. destruct (N.eqb_spec a lo) as [->|E]; destruct (N.eqb_spec b hi) as [->|E']; cbn [andb].
    - split; [auto|discriminate].
    - split; [auto|]. intros [H|H]; [congruence|auto].
    - split; [auto|]. intros [H|H]; [congruence|auto].
    - split; [auto|]. intros [H|H]; [congruence|auto]. }
  destruct (vals_at t lo hi) as [w|] eqn:G.
  - rewrite Nat.add_0_r. apply same_length; auto using ivs_nodup. intros x. rewrite X. split; auto. intros [->|H]; auto.
    apply ivs_in; auto. congruence.
  - rewrite Nat.add_comm. change (1 + length (ivs t)) with (length ((lo, hi) :: ivs t)). apply same_length.
    + auto using ivs_nodup.
    + constructor; [|auto using ivs_nodup]. rewrite ivs_in by auto. congruence.
    + intros x. rewrite X. cbn. intuition congruence.
Qed.
Lemma ivs_drop : forall t lo hi n, wf t -> vals_at t lo hi <> None -> length (ivs t) = S (length (ivs (it_drop t lo hi n))).
Proof.
  intros t lo hi n W H. pose proof (it_drop_wf t lo hi n W) as W'.
  change (S (length (ivs (it_drop t lo hi n)))) with (length ((lo, hi) :: ivs (it_drop t lo hi n))). apply same_length.
  - auto using ivs_nodup.
  - constructor; [|auto using ivs_nodup]. rewrite ivs_in, it_drop_at, !N.eqb_refl by auto. cbn. congruence.
  - intros [a b]. cbn [In]. rewrite !ivs_in, it_drop_at by auto.
    destruct (N.eqb_spec a lo) as [->|E]; destruct (N.eqb_spec b hi) as [->|E']; cbn [andb]; intuition congruence.
Qed.

Record tidy (t : itree) : Prop := Tidy {
  t_wf : wf t;
  t_vals : forall lo hi w, vals_at t lo hi = Some w -> w <> [] /\ NoDup w;
  t_size : isize t = N.of_nat (length (ivs t)) }.
Lemma set_add_ne : forall v w, set_add v w <> [].
Proof. intros v w. unfold set_add. destruct (memN v w) eqn:M; [|discriminate]. apply memN_spec in M. intros ->. destruct M. Qed.
Lemma tidy_set_some : forall t lo hi w vals, tidy t -> vals_at t lo hi = Some w -> vals <> [] -> NoDup vals -> tidy (it_set t lo hi vals (isize t)).
Proof.
  intros t lo hi w vals T G A B. split.
  - apply it_set_wf, T.
  - intros a b x. rewrite it_set_at. destruct (_ && _); [|apply (t_vals _ T)]. intros E. inversion E; subst. auto.
  - rewrite ivs_set by apply T. rewrite G, Nat.add_0_r. cbn. apply (t_size _ T).
Qed.
Lemma tidy_set_none : forall t lo hi vals, tidy t -> vals_at t lo hi = None -> vals <> [] -> NoDup vals -> tidy (it_set t lo hi vals (isize t + 1)).
Proof.
  intros t lo hi vals T G A B. split.
  - apply it_set_wf, T.
  - intros a b x. rewrite it_set_at. destruct (_ && _); [|apply (t_vals _ T)]. intros E. inversion E; subst. auto.
  - rewrite ivs_set by apply T. rewrite G. cbn [isize it_set]. rewrite (t_size _ T). lia.
Qed.
Lemma NoDup_one : forall v : N, NoDup [v].
Proof. intros. constructor; [intros []|constructor]. Qed.
Lemma tidy_insert : forall lo hi v t, tidy t -> tidy (it_insert lo hi v t).
Proof.
  intros lo hi v t T. rewrite it_insert_eq. destruct (vals_at t lo hi) as [w|] eqn:G.
  - eapply tidy_set_some; eauto using set_add_ne. apply set_add_nodup. apply (t_vals _ T _ _ _ G).
  - apply tidy_set_none; auto using NoDup_one. discriminate.
Qed.
Lemma tidy_entry : forall lo hi v t, tidy t -> tidy (it_entry_insert lo hi v t).
Proof.
  intros lo hi v t T. pose proof (tidy_insert lo hi v t T) as X. rewrite it_entry_eq. rewrite it_insert_eq in X.
  destruct (vals_at t lo hi) as [w|] eqn:G; auto. split.
  - repeat apply it_set_wf. apply T.
  - intros a b x. rewrite it_set_at. destruct (N.eqb a lo && N.eqb b hi) eqn:E.
    + intros E'. inversion E'; subst. auto using NoDup_one. split; [discriminate|apply NoDup_one].
    + rewrite it_set_at, E. apply (t_vals _ T).
  - rewrite ivs_set by (apply it_set_wf, T). rewrite it_set_at, !N.eqb_refl. cbn [andb]. rewrite ivs_set by apply T. rewrite G.
    cbn [isize it_set]. rewrite (t_size _ T). lia.
Qed.
Lemma tidy_remove : forall lo hi v t, tidy t -> tidy (fst (it_remove lo hi v t)).
Proof.
  intros lo hi v t T. rewrite it_remove_eq. destruct (vals_at t lo hi) as [w|] eqn:G; auto. destruct (memN v w); auto.
  pose proof (set_del_nodup v w (proj2 (t_vals _ T _ _ _ G))) as N. destruct (set_del v w) as [|x l] eqn:D; cbn [fst].
  - split.
    + apply it_drop_wf, T.
    + intros a b y. rewrite it_drop_at. destruct (_ && _); [discriminate|]. apply (t_vals _ T).
    + pose proof (ivs_drop t lo hi (isize t - 1) (t_wf _ T) ltac:(congruence)) as Y. pose proof (t_size _ T) as Z. change (isize (it_drop t lo hi (isize t - 1))) with (isize t - 1)%N. lia.
  - eapply tidy_set_some; eauto. discriminate.
Qed.
Lemma tidy_bulk : forall items t, (forall c set, In (c, set) items -> set <> [] /\ NoDup set) -> tidy t -> tidy (it_bulk items t).
Proof.
  intros items t F T. unfold it_bulk. destruct (it_is_empty t).
  - revert t T. induction items as [|[c set] items IH]; intros t T; cbn [fold_left]; auto.
    apply IH; [intros; eapply F; right; eauto|]. destruct (F c set (or_introl eq_refl)) as [A B].
    rewrite bulk_one_eq. destruct (vals_at t c c) as [w|] eqn:G.
    + eapply tidy_set_some; eauto.
      * destruct set as [|v set]; [congruence|]. cbn. apply set_add_ne.
      * apply fold_add_nodup. apply (t_vals _ T _ _ _ G).
    + apply tidy_set_none; auto.
  - clear F. revert t T. induction items as [|[c set] items IH]; intros t T; cbn [fold_left]; auto. apply IH. cbn [fst snd].
    revert t T. induction set as [|v set IHs]; intros t T; cbn [fold_left]; auto. apply IHs. now apply tidy_insert.
Qed.
Lemma tidy_step : forall o t, filled_op o -> tidy t -> tidy (istep o t).
Proof. intros [] t F T; cbn [istep]; auto using tidy_insert, tidy_remove, tidy_entry, tidy_bulk. Qed.
Lemma tidy_empty : tidy it_empty.
Proof. split; [apply wf_empty|discriminate|reflexivity]. Qed.
Lemma tidy_run : forall os t, Forall filled_op os -> tidy t -> tidy (irun os t).
Proof. induction os as [|o os IH]; intros t F T; auto. inversion F; subst. cbn. apply IH; auto. now apply tidy_step. Qed.

Lemma interval_size : forall os, Forall filled_op os ->
  exists l, NoDup l /\ isize (irun os it_empty) = N.of_nat (length l)
            /\ forall lo hi, In (lo, hi) l <-> exists v, ispec os lo hi v.
Proof.
  intros os F. pose proof (tidy_run os _ F tidy_empty) as T. exists (ivs (irun os it_empty)).
  split; [apply ivs_nodup, T|]. split; [apply T|]. intros lo hi. rewrite ivs_in by apply T.
  destruct (rep_run os _ _ rep_empty) as [_ R]. split.
  - intros H. destruct (vals_at (irun os it_empty) lo hi) as [w|] eqn:G; [|congruence].
    destruct (t_vals _ T _ _ _ G) as [A _]. destruct w as [|v w]; [congruence|]. exists v. apply R. exists (v :: w).
    cbn. auto.
  - intros [v H]. apply R in H. destruct H as (w & H & _). congruence.
Qed.

(** Point queries. *)
Lemma points_in : forall t a b v, wf t -> (In v (it_points a b t) <-> exists x, (a <= x <= b)%N /\ stored t x x v).
Proof.
  intros t a b v W. unfold it_points. destruct (N.ltb_spec b a) as [L|L].
  - split; [intros []|]. intros (x & H & _). lia.
  - rewrite in_flat_map. split.
    + intros ([x ns] & H & I). apply filter_In in H. destruct H as [H B]. cbn [fst snd] in *.
      apply in_flat_map in I. destruct I as ([h w] & I & J). cbn [fst snd] in J. destruct (N.eqb_spec h x) as [->|]; [|destruct J].
      exists x. split; [lia|]. exists w. split; auto. unfold vals_at.
      rewrite (mget_NoDup N.eqb N_eqb_spec _ x ns); auto; [|apply (w_keys _ W)].
      apply mget_NoDup; auto using N_eqb_spec. apply (w_nodes _ W _ _ H).
    + intros (x & B & w & G & I). unfold vals_at in G. destruct (mget N.eqb (imap t) x) as [ns|] eqn:G'; [|discriminate].
      exists (x, ns). split.
      * apply filter_In. split; [apply mget_In in G'; auto using N_eqb_spec|]. cbn [fst]. lia.
      * cbn [fst snd]. apply in_flat_map. exists (x, w). split; [apply mget_In in G; auto using N_eqb_spec|].
        cbn [fst snd]. now rewrite N.eqb_refl.
Qed.
Lemma points_nodup : forall t a b, wf t -> (forall lo hi w, vals_at t lo hi = Some w -> NoDup w) ->
  (forall x y v, stored t x x v -> stored t y y v -> x = y) -> NoDup (it_points a b t).
Proof.
  intros t a b W V U. unfold it_points. destruct (N.ltb b a); [constructor|].
  assert (X : forall l, incl l (imap t) -> NoDup (map fst l) ->
     NoDup (flat_map (fun p => flat_map (fun n => if N.eqb (fst n) (fst p) then snd n else []) (snd p)) l)).
  { induction l as [|[x ns] l IH]; intros I D; cbn; [constructor|]. inversion D as [|? ? D1 D2]; subst.
    assert (Ix : In (x, ns) (imap t)) by (apply I; now left).
    assert (Gx : mget N.eqb (imap t) x = Some ns) by (apply mget_NoDup; auto using N_eqb_spec; apply W).
    assert (Sx : forall v, In v (flat_map (fun n => if N.eqb (fst n) x then snd n else []) ns) -> stored t x x v).
    { intros v H. apply in_flat_map in H. destruct H as ([h w] & H & J). cbn [fst snd] in J.
      destruct (N.eqb_spec h x) as [->|]; [|destruct J]. exists w. split; auto. unfold vals_at. rewrite Gx.
      apply mget_NoDup; auto using N_eqb_spec. apply (w_nodes _ W _ _ Ix). }
    apply NoDup_app_iff. split; [|split].
    - assert (Vx : forall h w, In (h, w) ns -> NoDup w).
      { intros h w H. apply (V x h). unfold vals_at. rewrite Gx. apply mget_NoDup; auto using N_eqb_spec. apply (w_nodes _ W _ _ Ix). }
      assert (Kx : NoDup (map fst ns)) by (apply (w_nodes _ W _ _ Ix)). clear - Vx Kx.
      induction ns as [|[h w] ns IH]; cbn; [constructor|]. inversion Kx as [|? ? K1 K2]; subst.
      assert (IH' := IH ltac:(intros; eapply Vx; right; eauto) K2).
      destruct (N.eqb_spec h x) as [->|E]; [|exact IH'].
      apply NoDup_app_iff. split; [apply (Vx x); now left|]. split; [exact IH'|].
      intros v _ H. apply in_flat_map in H. destruct H as ([h2 w2] & H & J). cbn [fst snd] in J.
      destruct (N.eqb_spec h2 x) as [->|]; [|destruct J]. apply K1. apply in_map_iff. exists (x, w2). auto.
    - apply IH; auto. intros p H. apply I. now right.
    - intros v H1 H2. apply Sx in H1. apply in_flat_map in H2. destruct H2 as ([y ns2] & H2 & J). cbn [fst snd] in J.
      apply in_flat_map in J. destruct J as ([h w] & J & J'). cbn [fst snd] in J'. destruct (N.eqb_spec h y) as [->|]; [|destruct J'].
      assert (Sy : stored t y y v).
      { exists w. split; auto. unfold vals_at. rewrite (mget_NoDup N.eqb N_eqb_spec _ y ns2); [|apply W|apply I; now right].
        apply mget_NoDup; auto using N_eqb_spec. apply (w_nodes _ W y). apply I. now right. }
      pose proof (U _ _ _ H1 Sy). subst y. apply D1. apply in_map_iff. exists (x, ns2). auto. }
  apply X.
  - intros p H. apply filter_In in H. tauto.
  - pose proof (w_keys _ W) as K. revert K. generalize (imap t). induction l as [|p l IH]; cbn; intros K; [constructor|].
    inversion K as [|? ? K1 K2]; subst. destruct (_ && _); cbn; auto. constructor; auto.
    intros H. apply K1. apply in_map_iff in H. destruct H as (q & E & H). apply filter_In in H. rewrite <- E. apply in_map. tauto.
Qed.
Lemma point_spec : forall t x, it_point x t = vals_at t x x.
Proof. reflexivity. Qed.
