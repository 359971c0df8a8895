(** Region locks. *)
From Coq Require Import ZifyN ZifyNat ZifyBool.
From Verif Require Import Base Maps ListSort IntervalModel IntervalSpec IntervalProofs.

Definition sound (r : region) : Prop := (rs r <= re r)%N /\ (cs r <= ce r)%N.
Definition row_set (h : list (N * lock)) (sh : N) : iset :=
  fun lo hi id => exists l, mget N.eqb h id = Some l /\ rsheet (lregion l) = sh /\ rs (lregion l) = lo /\ re (lregion l) = hi.
Definition col_set (h : list (N * lock)) (sh : N) : iset :=
  fun lo hi id => exists l, mget N.eqb h id = Some l /\ rsheet (lregion l) = sh /\ cs (lregion l) = lo /\ ce (lregion l) = hi.

Record linv (m : locks) : Prop := LInv {
  l_ids : forall id l, mget N.eqb (held m) id = Some l -> lid l = id /\ (1 <= id <= next_id m)%N /\ sound (lregion l);
  l_rows : forall sh, rep (tree_at (row_trees m) sh) (row_set (held m) sh);
  l_cols : forall sh, rep (tree_at (col_trees m) sh) (col_set (held m) sh);
  l_apart : forall i j a b, mget N.eqb (held m) i = Some a -> mget N.eqb (held m) j = Some b -> i <> j -> ~ collide (lregion a) (lregion b) }.

Lemma tree_at_put : forall m sh t x, tree_at (mput N.eqb m sh t) x = if N.eqb x sh then t else tree_at m x.
Proof.
  intros. unfold tree_at. destruct (N.eqb_spec x sh) as [->|E].
  - now rewrite mget_put_same by apply N_eqb_spec.
  - now rewrite mget_put_other by (auto using N_eqb_spec).
Qed.
Lemma rep_ext : forall t s s', rep t s -> (forall lo hi v, s lo hi v <-> s' lo hi v) -> rep t s'.
Proof. intros t s s' [W R] E. split; auto. intros. now rewrite R. Qed.

Lemma ids_in : forall q i, In i (ids_of q) <-> exists lo hi, reported q lo hi i.
Proof.
  intros q i. unfold ids_of, reported. rewrite in_flat_map. split.
  - intros ([[lo hi] vals] & H & I). eauto.
  - intros (lo & hi & vals & H & I). exists (lo, hi, vals). auto.
Qed.
Lemma collide_iff : forall a b, sound a -> sound b ->
  (collide a b <-> rsheet a = rsheet b /\ (rs b <= re a)%N /\ (rs a <= re b)%N /\ (cs b <= ce a)%N /\ (cs a <= ce b)%N).
Proof.
  intros a b [A1 A2] [B1 B2]. unfold collide, cell_in. split.
  - intros (E & row & col & H). split; auto. lia.
  - intros (E & H). split; auto. exists (N.max (rs a) (rs b)), (N.max (cs a) (cs b)). lia.
Qed.

Definition clash (m : locks) (r : region) : bool :=
  let row_ids := ids_of (it_query (rs r) (re r) (tree_at (row_trees m) (rsheet r))) in
  match row_ids with
  | [] => false
  | _ => existsb (fun i => memN i (ids_of (it_query (cs r) (ce r) (tree_at (col_trees m) (rsheet r))))) row_ids
  end.
Lemma clash_spec : forall m r, linv m -> sound r ->
  (clash m r = true <-> exists id l, mget N.eqb (held m) id = Some l /\ collide r (lregion l)).
Proof.
  intros m r I So. assert (X : clash m r = existsb (fun i => memN i (ids_of (it_query (cs r) (ce r) (tree_at (col_trees m) (rsheet r)))))
    (ids_of (it_query (rs r) (re r) (tree_at (row_trees m) (rsheet r))))).
  { unfold clash. now destruct (ids_of (it_query (rs r) (re r) (tree_at (row_trees m) (rsheet r)))). }
  rewrite X, existsb_exists. clear X. split.
  - intros (id & R & C). rewrite memN_spec in C. apply ids_in in R. apply ids_in in C.
    destruct R as (lo & hi & R). destruct C as (lo' & hi' & C).
    apply (query_raw _ _ _ _ _ _ _ (l_rows _ I (rsheet r))) in R. apply (query_raw _ _ _ _ _ _ _ (l_cols _ I (rsheet r))) in C.
    destruct R as ((l & G & Sh & <- & <-) & R1 & R2). destruct C as ((l' & G' & _ & <- & <-) & C1 & C2).
    assert (l' = l) by congruence. subst l'. exists id, l. split; auto. apply collide_iff; auto.
    apply (l_ids _ I _ _ G).
  - intros (id & l & G & C). apply collide_iff in C; auto; [|apply (l_ids _ I _ _ G)]. exists id. split.
    + apply ids_in. exists (rs (lregion l)), (re (lregion l)). apply (query_raw _ _ _ _ _ _ _ (l_rows _ I (rsheet r))).
      split; [exists l; intuition|lia].
    + apply memN_spec, ids_in. exists (cs (lregion l)), (ce (lregion l)). apply (query_raw _ _ _ _ _ _ _ (l_cols _ I (rsheet r))).
      split; [exists l; intuition|lia].
Qed.

Lemma reserve_eq : forall r w m, reserve r w m =
  if N.ltb (re r) (rs r) || N.ltb (ce r) (cs r) then (m, Some 0%N)
  else
    let rt := tree_at (row_trees m) (rsheet r) in
    let ct := tree_at (col_trees m) (rsheet r) in
    if clash m r then (Locks (next_id m) (mput N.eqb (row_trees m) (rsheet r) rt) (mput N.eqb (col_trees m) (rsheet r) ct) (held m), None)
    else
      let id := N.max ((next_id m + 1) mod MAX64) 1%N in
      (Locks id (mput N.eqb (row_trees m) (rsheet r) (it_insert (rs r) (re r) id rt))
                (mput N.eqb (col_trees m) (rsheet r) (it_insert (cs r) (ce r) id ct))
                (mput N.eqb (held m) id (Lock id w r)), Some id).
Proof. reflexivity. Qed.

Lemma held_put : forall h id l i, mget N.eqb (mput N.eqb h id l) i = if N.eqb i id then Some l else mget (V := lock) N.eqb h i.
Proof.
  intros. destruct (N.eqb_spec i id) as [->|E].
  - now rewrite mget_put_same by apply N_eqb_spec.
  - now rewrite mget_put_other by (auto using N_eqb_spec).
Qed.
Lemma held_del : forall h id i, mget N.eqb (mdel N.eqb h id) i = if N.eqb i id then None else mget (V := lock) N.eqb h i.
Proof.
  intros. destruct (N.eqb_spec i id) as [->|E].
  - now rewrite mget_del_same by apply N_eqb_spec.
  - now rewrite mget_del_other by (auto using N_eqb_spec).
Qed.

Lemma next_small : forall m, (next_id m < MAX64 - 1)%N -> N.max ((next_id m + 1) mod MAX64) 1 = (next_id m + 1)%N.
Proof. intros m H. unfold MAX64 in *. rewrite N.mod_small by lia. lia. Qed.

Lemma linv_reserve : forall m r w, linv m -> (next_id m < MAX64 - 1)%N ->
  linv (fst (reserve r w m)) /\ (next_id (fst (reserve r w m)) <= next_id m + 1)%N.
Proof.
  intros m r w I B. rewrite reserve_eq. destruct (N.ltb (re r) (rs r) || N.ltb (ce r) (cs r)) eqn:E; [split; [auto|cbn; lia]|].
  assert (So : sound r) by (unfold sound; lia). cbn zeta. destruct (clash m r) eqn:C; cbn [fst].
  - split; [|cbn; lia]. split; cbn [next_id row_trees col_trees held].
    + apply (l_ids _ I).
    + intros sh. rewrite tree_at_put. destruct (N.eqb_spec sh (rsheet r)) as [->|]; apply (l_rows _ I).
    + intros sh. rewrite tree_at_put. destruct (N.eqb_spec sh (rsheet r)) as [->|]; apply (l_cols _ I).
    + apply (l_apart _ I).
  - rewrite next_small by auto. set (id := (next_id m + 1)%N). split; [|cbn; lia].
    assert (Fr : mget N.eqb (held m) id = None).
    { destruct (mget N.eqb (held m) id) eqn:G; auto. apply (l_ids _ I) in G. lia. }
    assert (Cl : forall i l, mget N.eqb (held m) i = Some l -> ~ collide r (lregion l)).
    { intros i l G K. assert (clash m r = true) by (apply clash_spec; eauto). congruence. }
    split; cbn [next_id row_trees col_trees held].
    + intros i l. rewrite held_put. destruct (N.eqb_spec i id) as [->|]; intros G.
      * inversion G; subst. cbn. repeat split; try lia; apply So.
      * apply (l_ids _ I) in G. intuition lia.
    + intros sh. rewrite tree_at_put. destruct (N.eqb_spec sh (rsheet r)) as [->|Nsh].
      * destruct (l_rows _ I (rsheet r)) as [W R]. split; [now apply insert_wf|]. intros lo hi v. rewrite stored_insert, R.
        unfold row_set. split.
        -- intros [(-> & -> & ->)|(l & G & H)].
           ++ exists (Lock id w r). rewrite held_put, N.eqb_refl. cbn. auto.
           ++ exists l. rewrite held_put. destruct (N.eqb_spec v id) as [->|]; [congruence|auto].
        -- intros (l & G & H). rewrite held_put in G. destruct (N.eqb_spec v id) as [->|].
           ++ inversion G; subst. cbn in H. intuition.
           ++ right. eauto.
      * eapply rep_ext; [apply (l_rows _ I)|]. intros lo hi v. unfold row_set. split.
        -- intros (l & G & H). exists l. rewrite held_put. destruct (N.eqb_spec v id) as [->|]; [congruence|auto].
        -- intros (l & G & H). rewrite held_put in G. destruct (N.eqb_spec v id) as [->|]; [|eauto].
           inversion G; subst. cbn in H. intuition congruence.
    + intros sh. rewrite tree_at_put. destruct (N.eqb_spec sh (rsheet r)) as [->|Nsh].
      * destruct (l_cols _ I (rsheet r)) as [W R]. split; [now apply insert_wf|]. intros lo hi v. rewrite stored_insert, R.
        unfold col_set. split.
        -- intros [(-> & -> & ->)|(l & G & H)].
           ++ exists (Lock id w r). rewrite held_put, N.eqb_refl. cbn. auto.
           ++ exists l. rewrite held_put. destruct (N.eqb_spec v id) as [->|]; [congruence|auto].
        -- intros (l & G & H). rewrite held_put in G. destruct (N.eqb_spec v id) as [->|].
           ++ inversion G; subst. cbn in H. intuition.
           ++ right. eauto.
      * eapply rep_ext; [apply (l_cols _ I)|]. intros lo hi v. unfold col_set. split.
        -- intros (l & G & H). exists l. rewrite held_put. destruct (N.eqb_spec v id) as [->|]; [congruence|auto].
        -- intros (l & G & H). rewrite held_put in G. destruct (N.eqb_spec v id) as [->|]; [|eauto].
           inversion G; subst. cbn in H. intuition congruence.
    + intros i j a b. rewrite !held_put. destruct (N.eqb_spec i id) as [->|]; destruct (N.eqb_spec j id) as [->|]; intros A A' D.
      * congruence.
      * inversion A; subst. cbn. eapply Cl; eauto.
      * inversion A'; subst. cbn. intros (Sh & row & col & X & Y). apply (Cl i a A). split; [auto|exists row, col; auto].
      * eapply (l_apart _ I i j); eauto.
Qed.
Lemma rep_found : forall (trees : list (N * itree)) sh (s : iset) lo hi v, rep (tree_at trees sh) s -> s lo hi v -> exists t, mget N.eqb trees sh = Some t.
Proof.
  intros trees sh s lo hi v [W R] H. unfold tree_at in R. destruct (mget N.eqb trees sh); [eauto|].
  apply R in H. destruct H as (w & G & _). discriminate.
Qed.
Lemma linv_release : forall m id, linv m -> linv (release id m) /\ next_id (release id m) = next_id m.
Proof.
  intros m id I. unfold release. destruct (N.eqb id 0); auto. destruct (mget N.eqb (held m) id) as [l|] eqn:G; auto.
  destruct (l_ids _ I _ _ G) as (Li & _ & So). split; [|reflexivity].
  assert (R0 : row_set (held m) (rsheet (lregion l)) (rs (lregion l)) (re (lregion l)) id) by (exists l; auto).
  assert (C0 : col_set (held m) (rsheet (lregion l)) (cs (lregion l)) (ce (lregion l)) id) by (exists l; auto).
  destruct (rep_found _ _ _ _ _ _ (l_rows _ I (rsheet (lregion l))) R0) as (rt & Gr).
  destruct (rep_found _ _ _ _ _ _ (l_cols _ I (rsheet (lregion l))) C0) as (ct & Gc).
  rewrite Gr, Gc, Li. split; cbn [next_id row_trees col_trees held].
  - intros i a. rewrite held_del. destruct (N.eqb i id); [discriminate|apply (l_ids _ I)].
  - intros sh. rewrite tree_at_put. pose proof (l_rows _ I sh) as R. destruct (N.eqb_spec sh (rsheet (lregion l))) as [->|Nsh].
    + unfold tree_at in R. rewrite Gr in R. destruct R as [W R]. split; [now apply remove_wf|]. intros lo hi v. rewrite stored_remove, R.
      unfold row_set. split.
      * intros [(a & Ga & Ha) X]. exists a. rewrite held_del. destruct (N.eqb_spec v id) as [->|]; [|auto].
        exfalso. apply X. assert (a = l) by congruence. subst. intuition.
      * intros (a & Ga & Ha). rewrite held_del in Ga. destruct (N.eqb_spec v id) as [->|]; [discriminate|]. split; [eauto|]. tauto.
    + eapply rep_ext; [exact R|]. intros lo hi v. unfold row_set. split.
      * intros (a & Ga & Ha). exists a. rewrite held_del. destruct (N.eqb_spec v id) as [->|]; [|auto].
        assert (a = l) by congruence. subst. intuition congruence.
      * intros (a & Ga & Ha). rewrite held_del in Ga. destruct (N.eqb_spec v id) as [->|]; [discriminate|]. eauto.
  - intros sh. rewrite tree_at_put. pose proof (l_cols _ I sh) as R. destruct (N.eqb_spec sh (rsheet (lregion l))) as [->|Nsh].
    + unfold tree_at in R. rewrite Gc in R. destruct R as [W R]. split; [now apply remove_wf|]. intros lo hi v. rewrite stored_remove, R.
      unfold col_set. split.
      * intros [(a & Ga & Ha) X]. exists a. rewrite held_del. destruct (N.eqb_spec v id) as [->|]; [|auto].
        exfalso. apply X. assert (a = l) by congruence. subst. intuition.
      * intros (a & Ga & Ha). rewrite held_del in Ga. destruct (N.eqb_spec v id) as [->|]; [discriminate|]. split; [eauto|]. tauto.
    + eapply rep_ext; [exact R|]. intros lo hi v. unfold col_set. split.
      * intros (a & Ga & Ha). exists a. rewrite held_del. destruct (N.eqb_spec v id) as [->|]; [|auto].
        assert (a = l) by congruence. subst. intuition congruence.
      * intros (a & Ga & Ha). rewrite held_del in Ga. destruct (N.eqb_spec v id) as [->|]; [discriminate|]. eauto.
  - intros i j a b. rewrite !held_del. destruct (N.eqb i id); [discriminate|]. destruct (N.eqb j id); [discriminate|]. apply (l_apart _ I).
Qed.

Lemma linv_new : linv locks_new.
Proof.
  split; cbn; try discriminate.
  - intros sh. eapply rep_ext; [apply rep_empty|]. intros lo hi v. split; [tauto|]. intros (l & G & _). discriminate.
  - intros sh. eapply rep_ext; [apply rep_empty|]. intros lo hi v. split; [tauto|]. intros (l & G & _). discriminate.
Qed.
Lemma linv_run : forall os m, linv m -> (next_id m + reserves os < MAX64)%N ->
  linv (lrun os m) /\ (next_id (lrun os m) <= next_id m + reserves os)%N.
Proof.
  induction os as [|o os IH]; intros m I B; [split; [auto|cbn; lia]|]. cbn [lrun fold_left]. destruct o as [r w|id]; cbn [lstep].
  - assert (E : reserves (LReserve r w :: os) = (1 + reserves os)%N) by (unfold reserves; cbn [filter length]; lia). rewrite E in *.
    destruct (linv_reserve m r w I ltac:(lia)) as [I' B']. destruct (IH _ I' ltac:(lia)) as [I2 B2]. split; [exact I2|].
    unfold lrun in B2. lia.
  - assert (E : reserves (LRelease id :: os) = reserves os) by reflexivity. rewrite E in *.
    destruct (linv_release m id I) as [I' B']. rewrite <- B'. apply IH; auto. lia.
Qed.

Section History.
  Variable os : list lop.
  Hypothesis small : (reserves os < MAX64 - 1)%N.
  Let m := lrun os locks_new.
  Lemma m_inv : linv m /\ (next_id m <= reserves os)%N.
  Proof. destruct (linv_run os locks_new linv_new) as [A B]; [cbn; unfold MAX64 in *; lia|]. split; auto. Qed.

  Lemma locks_apart : forall i j a b v w, holds m i a v -> holds m j b w -> i <> j -> ~ collide a b.
  Proof.
    intros i j a b v w (la & A & <- & _) (lb & B & <- & _) N. eapply (l_apart _ (proj1 m_inv)); eauto.
  Qed.
  Lemma refused_iff : forall r w, sound r ->
    (snd (reserve r w m) = None <-> exists id a v, holds m id a v /\ collide r a).
  Proof.
    intros r w So. rewrite reserve_eq. destruct (N.ltb (re r) (rs r) || N.ltb (ce r) (cs r)) eqn:E; [unfold sound in So; lia|].
    pose proof (clash_spec m r (proj1 m_inv) So) as C. cbn zeta. destruct (clash m r); cbn [snd].
    - split; auto. intros _. destruct (proj1 C eq_refl) as (id & l & G & H). exists id, (lregion l), (lowner l).
      split; auto. exists l. auto.
    - split; [discriminate|]. intros (id & a & v & (l & G & <- & _) & H). assert (X : false = true) by (apply C; eauto). discriminate.
  Qed.
  Lemma granted_holds : forall r w id, sound r -> snd (reserve r w m) = Some id ->
    (id <> 0)%N /\ (forall a v, ~ holds m id a v) /\
    forall i a v, holds (fst (reserve r w m)) i a v <-> (i = id /\ a = r /\ v = w) \/ holds m i a v.
  Proof.
    intros r w id So. rewrite reserve_eq. destruct (N.ltb (re r) (rs r) || N.ltb (ce r) (cs r)) eqn:E; [unfold sound in So; lia|].
    cbn zeta. destruct (clash m r); cbn [snd fst]; [discriminate|]. destruct m_inv as [I B].
    rewrite next_small by (unfold MAX64 in *; lia). intros X. inversion X as [X']. clear X. rewrite X'. split; [lia|].
    assert (Fr : mget N.eqb (held m) id = None).
    { destruct (mget N.eqb (held m) id) eqn:G; auto. apply (l_ids _ I) in G. lia. }
    split.
    - intros a v (l & G & _). congruence.
    - intros i a v. unfold holds. cbn [held]. split.
      + intros (l & G & <- & <-). rewrite held_put in G. destruct (N.eqb_spec i id) as [->|].
        * inversion G; subst. cbn. auto.
        * right. eauto.
      + intros [(-> & -> & ->)|(l & G & H)].
        * exists (Lock id w r). rewrite held_put, N.eqb_refl. cbn. auto.
        * exists l. rewrite held_put. destruct (N.eqb_spec i id) as [->|]; [congruence|auto].
  Qed.
  Lemma refused_same : forall r w i a v, snd (reserve r w m) = None -> (holds (fst (reserve r w m)) i a v <-> holds m i a v).
  Proof.
    intros r w i a v. rewrite reserve_eq. destruct (_ || _); [discriminate|]. cbn zeta. destruct (clash m r); [reflexivity|discriminate].
  Qed.
  Lemma released_exactly : forall id i a v, holds (release id m) i a v <-> holds m i a v /\ i <> id.
  Proof.
    intros id i a v. destruct m_inv as [I _]. unfold release. destruct (N.eqb_spec id 0) as [->|].
    - split; [|tauto]. intros H. split; auto. intros ->. destruct H as (l & G & _). apply (l_ids _ I) in G. lia.
    - destruct (mget N.eqb (held m) id) as [l|] eqn:G.
      + unfold holds. cbn [held]. split.
        * intros (b & Gb & H). rewrite held_del in Gb. destruct (N.eqb_spec i id) as [->|]; [discriminate|]. split; eauto.
        * intros [(b & Gb & H) D]. exists b. rewrite held_del. destruct (N.eqb_spec i id); [contradiction|auto].
      + split; [|tauto]. intros H. split; auto. intros ->. destruct H as (b & Gb & _). congruence.
  Qed.
End History.

(** The same owner is refused too. *)
Definition box : region := Region 1 0 2 0 2.
Lemma own_refused : exists os r w, (reserves os < MAX64 - 1)%N /\ sound r /\
  (forall id a v, holds (lrun os locks_new) id a v -> v = w) /\ snd (reserve r w (lrun os locks_new)) = None.
Proof.
  exists [LReserve box 7], (Region 1 1 1 1 1), 7%N. split; [reflexivity|]. split; [unfold sound; cbn; lia|]. split.
  - intros id a v (l & G & _ & <-). cbn in G. destruct id as [|[p|p|]]; try discriminate. inversion G; subst. reflexivity.
  - reflexivity.
Qed.
