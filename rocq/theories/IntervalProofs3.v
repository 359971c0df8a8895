(** The sheet index. *)
From Coq Require Import ZifyN ZifyNat ZifyBool.
From Verif Require Import Base Maps ListSort IntervalModel IntervalSpec IntervalProofs IntervalProofs2.

(** An axis tree holds exactly the points of the placed vertices. *)
Definition axis (t : itree) (f : N -> option N) : Prop :=
  tidy t /\ forall lo hi v, stored t lo hi v <-> lo = hi /\ f v = Some lo.
Definition fstp (f : places) (v : N) : option N := option_map fst (f v).
Definition sndp (f : places) (v : N) : option N := option_map snd (f v).

Record sinv (x : sindex) (f : places) : Prop := SInv {
  s_mem : forall v, In v (members x) <-> f v <> None;
  s_row : axis (rowt x) (fstp f);
  s_col : axis (colt x) (sndp f) }.

Lemma sinv_empty : sinv si_empty (fun _ => None).
Proof.
  split; cbn.
  - intros v. split; [tauto|congruence].
  - split; [apply tidy_empty|]. intros. unfold stored. cbn. split; [intros (? & ? & _); discriminate|intros [_ H]; discriminate].
  - split; [apply tidy_empty|]. intros. unfold stored. cbn. split; [intros (? & ? & _); discriminate|intros [_ H]; discriminate].
Qed.

Definition upd (f : N -> option N) (v : N) (p : option N) : N -> option N := fun x => if N.eqb x v then p else f x.
Lemma axis_ext : forall t f g, (forall v, f v = g v) -> axis t f -> axis t g.
Proof. intros t f g E [T H]. split; auto. intros. now rewrite H, E. Qed.
Lemma axis_add : forall t f v k, axis t f -> f v = None -> axis (it_entry_insert k k v t) (upd f v (Some k)).
Proof.
  intros t f v k [T H] Z. split; [now apply tidy_entry|]. intros lo hi x. rewrite stored_entry, H. unfold upd.
  destruct (N.eqb_spec x v) as [->|E].
  - split; [|intros [-> X]; inversion X; auto]. intros [(-> & -> & _)|[_ X]]; auto. congruence.
  - intuition congruence.
Qed.
Lemma axis_remove : forall t f v k, axis t f -> f v = Some k -> axis (fst (it_remove k k v t)) (upd f v None).
Proof.
  intros t f v k [T H] Z. split; [now apply tidy_remove|]. intros lo hi x. rewrite stored_remove, H. unfold upd.
  destruct (N.eqb_spec x v) as [->|E].
  - split; [|intros [_ X]; discriminate]. intros [[-> X] Y]. exfalso. apply Y. rewrite Z in X. inversion X; auto.
  - intuition congruence.
Qed.
Lemma fstp_put : forall f v p x, fstp (put v p f) x = upd (fstp f) v (option_map fst p) x.
Proof. intros. unfold fstp, put, upd. now destruct (N.eqb x v). Qed.
Lemma sndp_put : forall f v p x, sndp (put v p f) x = upd (sndp f) v (option_map snd p) x.
Proof. intros. unfold sndp, put, upd. now destruct (N.eqb x v). Qed.

Lemma sinv_add : forall x f p v, sinv x f -> sinv (si_add p v x) (place p v f).
Proof.
  intros x f p v [M R C]. unfold si_add, place. destruct (memN v (members x)) eqn:E.
  - apply memN_spec, M in E. destruct (f v) eqn:F; [|congruence]. split; auto.
  - apply memN_false in E. destruct (f v) as [q|] eqn:F; [exfalso; apply E, M; congruence|]. split; cbn [members rowt colt].
    + intros w. cbn [In]. rewrite M. unfold put. destruct (N.eqb_spec w v) as [->|N].
      * split; auto. discriminate.
      * intuition congruence.
    + eapply axis_ext; [intros; symmetry; apply fstp_put|]. apply axis_add; auto. unfold fstp. now rewrite F.
    + eapply axis_ext; [intros; symmetry; apply sndp_put|]. apply axis_add; auto. unfold sndp. now rewrite F.
Qed.
Lemma sinv_remove : forall x f p v, sinv x f -> f v = None \/ f v = Some p -> sinv (si_remove p v x) (put v None f).
Proof.
  intros x f p v [M R C] L. unfold si_remove. destruct (memN v (members x)) eqn:E.
  - apply memN_spec, M in E. destruct L as [L|L]; [congruence|]. split; cbn [members rowt colt].
    + intros w. rewrite set_del_in, M. unfold put. destruct (N.eqb_spec w v) as [->|N]; intuition congruence.
    + eapply axis_ext; [intros; symmetry; apply fstp_put|]. apply axis_remove; auto. unfold fstp. now rewrite L.
    + eapply axis_ext; [intros; symmetry; apply sndp_put|]. apply axis_remove; auto. unfold sndp. now rewrite L.
  - apply memN_false in E. assert (F : f v = None) by (destruct (f v) eqn:F; auto; exfalso; apply E, M; congruence).
    assert (X : forall w, put v None f w = f w) by (intros w; unfold put; destruct (N.eqb_spec w v) as [->|]; auto).
    split.
    + intros w. now rewrite M, X.
    + eapply axis_ext; [|exact R]. intros w. unfold fstp. now rewrite X.
    + eapply axis_ext; [|exact C]. intros w. unfold sndp. now rewrite X.
Qed.
Lemma sinv_ext : forall x f g, (forall v, f v = g v) -> sinv x f -> sinv x g.
Proof.
  intros x f g E [M R C]. split.
  - intros v. now rewrite M, E.
  - eapply axis_ext; [|exact R]. intros v. unfold fstp. now rewrite E.
  - eapply axis_ext; [|exact C]. intros v. unfold sndp. now rewrite E.
Qed.

(** The bulk path of a batch. *)
Definition gval (m : list (N * list N)) (k : N) : list N := match mget N.eqb m k with Some l => l | None => [] end.
Lemma gval_add : forall m k v a, gval (group_add m k v) a = if N.eqb a k then set_add v (gval m k) else gval m a.
Proof.
  intros. unfold group_add, gval. destruct (N.eqb_spec a k) as [->|E].
  - now rewrite mget_put_same by apply N_eqb_spec.
  - now rewrite mget_put_other by (auto using N_eqb_spec).
Qed.
Definition group_ok (m : list (N * list N)) : Prop := NoDup (map fst m) /\ forall k l, In (k, l) m -> l <> [] /\ NoDup l.
Lemma group_ok_add : forall m k v, group_ok m -> group_ok (group_add m k v).
Proof.
  intros m k v [A B]. split; [apply mput_keys_NoDup; auto using N_eqb_spec|]. intros a l [E|H].
  - inversion E; subst. split; [apply set_add_ne|]. apply set_add_nodup. destruct (mget N.eqb m a) as [w|] eqn:G; [|constructor].
    apply mget_In in G; auto using N_eqb_spec. apply (B _ _ G).
  - apply mdel_In in H; auto using N_eqb_spec. apply (B a). tauto.
Qed.
Lemma gval_in : forall m k v, group_ok m -> (In v (gval m k) <-> exists set, In (k, set) m /\ In v set).
Proof.
  intros m k v [A B]. unfold gval. split.
  - destruct (mget N.eqb m k) as [l|] eqn:G; [|intros []]. apply mget_In in G; auto using N_eqb_spec. eauto.
  - intros (l & H & I). rewrite (mget_NoDup N.eqb N_eqb_spec m k l); auto.
Qed.
(** The maps hold what was placed since [f]. *)
Definition gathered (f g : places) (proj : pos -> N) (m : list (N * list N)) : Prop :=
  group_ok m /\ forall k v, In v (gval m k) <-> f v = None /\ option_map proj (g v) = Some k.
Lemma gathered_add : forall f g proj m p v, gathered f g proj m -> f v = None -> g v = None ->
  gathered f (put v (Some p) g) proj (group_add m (proj p) v).
Proof.
  intros f g proj m p v [A B] F G. split; [now apply group_ok_add|]. intros k w. rewrite gval_add. unfold put.
  destruct (N.eqb_spec w v) as [->|E].
  - cbn [option_map]. destruct (N.eqb_spec k (proj p)) as [->|K].
    + rewrite set_add_in. split; auto.
    + rewrite B, G. cbn. split; [intros [_ X]; discriminate|]. intros [_ X]. congruence.
  - destruct (N.eqb_spec k (proj p)) as [->|K]; [|apply B]. rewrite set_add_in, B. intuition congruence.
Qed.
Lemma batch_fold : forall items f g mem rm cm,
  (forall v, In v mem <-> g v <> None) -> (forall v, g v = None -> f v = None) ->
  gathered f g fst rm -> gathered f g snd cm ->
  let '(mem', rm', cm') := fold_left batch_one items (mem, rm, cm) in
  let g' := fold_left (fun f it => place (fst it) (snd it) f) items g in
  (forall v, In v mem' <-> g' v <> None) /\ gathered f g' fst rm' /\ gathered f g' snd cm'
  /\ (forall v p, g v = Some p -> g' v = Some p).
Proof.
  induction items as [|[p v] items IH]; intros f g mem rm cm M FG R C; cbn [fold_left]; auto.
  unfold batch_one at 2. cbn [fst snd]. destruct (memN v mem) eqn:E.
  - apply memN_spec, M in E. assert (P : place p v g = g) by (unfold place; destruct (g v); congruence). rewrite P.
    apply IH; auto.
  - apply memN_false in E. assert (G : g v = None) by (destruct (g v) eqn:G; auto; exfalso; apply E, M; congruence).
    assert (P : place p v g = put v (Some p) g) by (unfold place; now rewrite G). rewrite P.
    specialize (IH f (put v (Some p) g) (v :: mem) (group_add rm (fst p) v) (group_add cm (snd p) v)).
    assert (M' : forall w, In w (v :: mem) <-> put v (Some p) g w <> None).
    { intros w. cbn [In]. rewrite M. unfold put. destruct (N.eqb_spec w v) as [->|]; [split; auto; discriminate|]. intuition congruence. }
    assert (FG' : forall w, put v (Some p) g w = None -> f w = None).
    { intros w. unfold put. destruct (N.eqb_spec w v); [discriminate|apply FG]. }
    specialize (IH M' FG' (gathered_add _ _ fst _ _ _ R (FG _ G) G) (gathered_add _ _ snd _ _ _ C (FG _ G) G)).
    destruct (fold_left batch_one items (v :: mem, group_add rm (fst p) v, group_add cm (snd p) v)) as [[mem' rm'] cm'].
    destruct IH as (A & B & D & X). split; [exact A|split; [exact B|split; [exact D|]]].
    intros w q H. apply X. unfold put. destruct (N.eqb_spec w v) as [->|]; [congruence|auto].
Qed.
Lemma axis_bulk : forall t f g proj m, axis t (fun v => option_map proj (f v)) -> gathered f g proj m ->
  (forall v p, f v = Some p -> g v = Some p) -> axis (it_bulk m t) (fun v => option_map proj (g v)).
Proof.
  intros t f g proj m [T H] [G1 G2] X. split.
  - apply tidy_bulk; auto. apply G1.
  - intros lo hi v. rewrite stored_bulk, H. split.
    + intros [[-> E]|(-> & set & I & J)].
      * split; auto. destruct (f v) as [p|] eqn:F; [|discriminate]. now rewrite (X _ _ F).
      * split; auto. assert (K : In v (gval m hi)) by (apply gval_in; eauto). apply G2 in K. tauto.
    + intros [-> E]. destruct (f v) as [p|] eqn:F.
      * left. split; auto. rewrite (X _ _ F) in E. exact E.
      * right. split; auto. apply gval_in; auto. apply G2. auto.
Qed.
Lemma gathered_nil : forall f proj, gathered f f proj [].
Proof.
  intros f proj. split; [split; [constructor|intros k l []]|]. intros k v. cbn. split; [tauto|]. intros [A B]. now rewrite A in B.
Qed.
Lemma sinv_batch : forall items x f, sinv x f -> sinv (si_batch items x) (fold_left (fun f it => place (fst it) (snd it) f) items f).
Proof.
  intros items x f I. unfold si_batch. destruct items as [|it items]; auto. set (l := it :: items).
  destruct (it_is_empty (rowt x) && it_is_empty (colt x)).
  - destruct I as [M R C].
    pose proof (batch_fold l f f (members x) [] [] M (fun _ H => H) (gathered_nil f fst) (gathered_nil f snd)) as B.
    destruct (fold_left batch_one l (members x, [], [])) as [[mem rm] cm]. destruct B as (B1 & B2 & B3 & B4).
    split; cbn [members rowt colt]; auto.
    + apply axis_bulk with (f := f); auto.
    + apply axis_bulk with (f := f); auto.
  - generalize l. clear l. intros l. revert x f I. induction l as [|q l IH]; intros x f I; cbn [fold_left]; auto.
    apply IH. now apply sinv_add.
Qed.
Lemma sinv_step : forall o x f, sinv x f -> named o f -> sinv (sstep o x) (sspec_step o f).
Proof.
  intros o x f I L. destruct o; cbn [sstep sspec_step named] in *.
  - now apply sinv_add.
  - now apply sinv_batch.
  - now apply sinv_remove.
  - unfold si_update. eapply sinv_ext; [|apply sinv_add, sinv_remove; eauto].
    intros w. unfold place. unfold put at 1. rewrite N.eqb_refl. unfold put. now destruct (N.eqb w v).
Qed.
Lemma sinv_run : forall os x f, sinv x f -> all_named os f -> sinv (srun os x) (fold_left (fun f o => sspec_step o f) os f).
Proof.
  induction os as [|o os IH]; intros x f I L; auto. destruct L as [L1 L2]. cbn. apply IH; auto. now apply sinv_step.
Qed.

(** Queries. *)
Lemma axis_points : forall t f a b, axis t f -> lists (it_points a b t) (fun v => exists k, f v = Some k /\ (a <= k <= b)%N).
Proof.
  intros t f a b [T H]. split.
  - apply points_nodup; [apply T| |].
    + intros lo hi w G. apply (t_vals _ T _ _ _ G).
    + intros x y v A B. apply H in A. apply H in B. destruct A, B. congruence.
  - intros v. rewrite points_in by apply T. split.
    + intros (x & B & S). apply H in S. exists x. tauto.
    + intros (k & E & B). exists k. split; auto. apply H. auto.
Qed.
Lemma nodup_lists : forall l P, lists l P -> nodup N.eq_dec l = l.
Proof. intros l P [D _]. now apply nodup_fixed_point. Qed.
Lemma filter_lists : forall l P m Q, lists l P -> (forall v, In v m <-> Q v) -> lists (filter (fun v => memN v m) l) (fun v => P v /\ Q v).
Proof.
  intros l P m Q [D H] M. split; [now apply NoDup_filter|]. intros v. rewrite filter_In, memN_spec, H, M. tauto.
Qed.
Lemma lists_iff : forall l P Q, lists l P -> (forall v, P v <-> Q v) -> lists l Q.
Proof. intros l P Q [D H] E. split; auto. intros v. now rewrite H. Qed.
Lemma axis_point : forall t f k, axis t f -> match it_point k t with
  | Some l => lists l (fun v => f v = Some k)
  | None => forall v, f v <> Some k
  end.
Proof.
  intros t f k [T H]. rewrite point_spec. destruct (vals_at t k k) as [l|] eqn:G.
  - split; [apply (t_vals _ T _ _ _ G)|]. intros v. split.
    + intros I. apply (H k k v). exists l. auto.
    + intros E. assert (X : stored t k k v) by (apply H; auto). destruct X as (w & G' & I). congruence.
  - intros v E. assert (X : stored t k k v) by (apply H; auto). destruct X as (w & G' & I). congruence.
Qed.
Section Answers.
  Variable x : sindex.
  Variable f : places.
  Hypothesis I : sinv x f.
  Lemma fst_range : forall v a b, (exists k, fstp f v = Some k /\ (a <= k <= b)%N) <-> exists r c, f v = Some (r, c) /\ (a <= r <= b)%N.
  Proof.
    intros v a b. unfold fstp. destruct (f v) as [[r c]|]; cbn.
    - split; [intros (k & E & B); inversion E; subst; eauto|]. intros (r' & c' & E & B). inversion E; subst. eauto.
    - split; [intros (k & E & _); discriminate|intros (? & ? & E & _); discriminate].
  Qed.
  Lemma snd_range : forall v a b, (exists k, sndp f v = Some k /\ (a <= k <= b)%N) <-> exists r c, f v = Some (r, c) /\ (a <= c <= b)%N.
  Proof.
    intros v a b. unfold sndp. destruct (f v) as [[r c]|]; cbn.
    - split; [intros (k & E & B); inversion E; subst; eauto|]. intros (r' & c' & E & B). inversion E; subst. eauto.
    - split; [intros (k & E & _); discriminate|intros (? & ? & E & _); discriminate].
  Qed.
  Lemma rows_exact : forall a b, lists (in_rows a b x) (fun v => exists r c, f v = Some (r, c) /\ (a <= r <= b)%N).
  Proof.
    intros a b. pose proof (axis_points _ _ a b (s_row _ _ I)) as L. unfold in_rows. rewrite (nodup_lists _ _ L).
    eapply lists_iff; [exact L|]. intros v. apply fst_range.
  Qed.
  Lemma cols_exact : forall a b, lists (in_cols a b x) (fun v => exists r c, f v = Some (r, c) /\ (a <= c <= b)%N).
  Proof.
    intros a b. pose proof (axis_points _ _ a b (s_col _ _ I)) as L. unfold in_cols. rewrite (nodup_lists _ _ L).
    eapply lists_iff; [exact L|]. intros v. apply snd_range.
  Qed.
  Lemma both_iff : forall v r0 r1 c0 c1,
    (exists r c, f v = Some (r, c) /\ (r0 <= r <= r1)%N) /\ (exists r c, f v = Some (r, c) /\ (c0 <= c <= c1)%N) <-> within r0 r1 c0 c1 f v.
  Proof.
    intros. unfold within. split.
    - intros [(r & c & E & B) (r' & c' & E' & B')]. rewrite E in E'. inversion E'; subst. eauto.
    - intros (r & c & E & B & B'). eauto 8.
  Qed.
  Lemma rect_exact : forall r0 r1 c0 c1, lists (in_rect r0 r1 c0 c1 x) (within r0 r1 c0 c1 f).
  Proof.
    intros r0 r1 c0 c1. unfold in_rect. destruct (N.ltb r1 r0 || N.ltb c1 c0) eqn:E1.
    - split; [constructor|]. intros v. split; [intros []|]. intros (r & c & _ & B & B'). lia.
    - destruct (N.eqb r0 r1 && N.eqb c0 c1) eqn:E2.
      + assert (r0 = r1 /\ c0 = c1) as [<- <-] by lia.
        pose proof (axis_point _ _ r0 (s_row _ _ I)) as R. pose proof (axis_point _ _ c0 (s_col _ _ I)) as C.
        assert (X : forall v, fstp f v = Some r0 /\ sndp f v = Some c0 <-> within r0 r0 c0 c0 f v).
        { intros v. unfold fstp, sndp, within. destruct (f v) as [[r c]|]; cbn.
          - split; [intros [A B]; inversion A; inversion B; subst; exists r0, c0; repeat split; auto; lia|].
            intros (r' & c' & A & B & B'). inversion A; subst. split; f_equal; lia.
          - split; [intros [A _]; discriminate|intros (? & ? & A & _); discriminate]. }
        destruct (it_point r0 (rowt x)) as [rv|]; [destruct (it_point c0 (colt x)) as [cv|]|].
        * destruct (_ <=? _)%nat.
          -- eapply lists_iff; [eapply filter_lists; [exact R|apply C]|]. exact X.
          -- eapply lists_iff; [eapply filter_lists; [exact C|apply R]|]. intros v. rewrite <- X. tauto.
        * split; [constructor|]. intros v. rewrite <- X. split; [intros []|]. intros [_ A]. now apply C in A.
        * split; [constructor|]. intros v. rewrite <- X. split; [intros []|]. intros [A _]. now apply R in A.
      + destruct (_ <=? _)%nat.
        * eapply lists_iff; [eapply filter_lists; [apply (axis_points _ _ c0 c1 (s_col _ _ I))|apply rows_exact]|].
          intros v. cbn beta. rewrite snd_range, <- both_iff. tauto.
        * eapply lists_iff; [eapply filter_lists; [apply (axis_points _ _ r0 r1 (s_row _ _ I))|apply cols_exact]|].
          intros v. cbn beta. rewrite fst_range, <- both_iff. tauto.
  Qed.
End Answers.

Lemma index_exact : forall os, all_named os (fun _ => None) ->
  (forall a b, lists (in_rows a b (srun os si_empty)) (fun v => exists r c, sspec os v = Some (r, c) /\ (a <= r <= b)%N))
  /\ (forall a b, lists (in_cols a b (srun os si_empty)) (fun v => exists r c, sspec os v = Some (r, c) /\ (a <= c <= b)%N))
  /\ (forall r0 r1 c0 c1, lists (in_rect r0 r1 c0 c1 (srun os si_empty)) (within r0 r1 c0 c1 (sspec os))).
Proof.
  intros os L. pose proof (sinv_run os _ _ sinv_empty L) as I. split; [|split]; intros.
  - now apply rows_exact.
  - now apply cols_exact.
  - now apply rect_exact.
Qed.
