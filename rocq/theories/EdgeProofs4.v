(** The number of edges the store reports. *)
From Verif Require Import Base Maps ListSort SchedModel SchedProofs2 EdgeModel EdgeSpec EdgeProofs EdgeProofs2 EdgeProofs3.
From Coq Require Import Lia Permutation.

Definition built (c : csr) : Prop := exists adj cs, c = from_adjacency adj cs.
Definition pairs (k : nat) (ls : list (list nat)) : list (nat * nat) :=
  concat (map (fun p => map (pair (fst p)) (snd p)) (combine (seq k (length ls)) ls)).

Lemma pairs_cons : forall k l ls, pairs k (l :: ls) = map (pair k) l ++ pairs (S k) ls.
Proof. reflexivity. Qed.
Lemma pairs_length : forall ls k, length (pairs k ls) = length (concat ls).
Proof.
  induction ls as [|l ls IH]; intros k; auto. rewrite pairs_cons. cbn [concat].
  now rewrite !app_length, map_length, IH.
Qed.
Lemma pairs_in : forall ls k f t, In (f, t) (pairs k ls) <-> k <= f /\ In t (nth (f - k) ls []).
Proof.
  induction ls as [|l ls IH]; intros k f t.
  - cbn. split; [intros []|]. intros [_ H]. destruct (f - k); exact H.
  - rewrite pairs_cons, in_app_iff, IH, in_map_iff. split.
    + intros [(x & E & H)|[L H]].
      * injection E as <- <-. rewrite Nat.sub_diag. auto.
      * split; [lia|]. replace (f - k) with (S (f - S k)) by lia. exact H.
    + intros [L H]. destruct (Nat.eq_dec f k) as [->|N].
      * left. rewrite Nat.sub_diag in H. eauto.
      * right. split; [lia|]. replace (f - k) with (S (f - S k)) in H by lia. exact H.
Qed.
Lemma pairs_nodup : forall ls k, (forall i, NoDup (nth i ls [])) -> NoDup (pairs k ls).
Proof.
  induction ls as [|l ls IH]; intros k H; [constructor|]. rewrite pairs_cons.
  assert (A : NoDup (map (pair k) l)).
  { specialize (H 0). cbn in H. clear IH. induction H as [|x l H1 H2 IH2]; cbn; constructor; auto.
    rewrite in_map_iff. intros (y & E & Y). injection E as <-. auto. }
  assert (B : NoDup (pairs (S k) ls)) by (apply IH; intros i; exact (H (S i))).
  assert (D : forall p, In p (map (pair k) l) -> ~ In p (pairs (S k) ls)).
  { intros p P Q. apply in_map_iff in P. destruct P as (t & <- & _). apply pairs_in in Q. lia. }
  revert A D. induction (map (pair k) l) as [|p q IHq]; intros A D; auto.
  inversion A; subst. cbn. constructor.
  - rewrite in_app_iff. intros [Q|Q]; auto. apply (D p); auto. now left.
  - apply IHq; auto. intros r R. apply D. now right.
Qed.

Lemma built_pairs : forall c, built c -> (forall v, NoDup (csr_out c v)) ->
  exists l, NoDup l /\ (forall f t, In (f, t) l <-> In t (csr_out c f)) /\ length l = length (eds c).
Proof.
  intros c (adj & cs & ->) ND. destruct adj as [|p adj].
  - exists []. split; [constructor|]. split; [|reflexivity]. intros. cbn. tauto.
  - set (a := p :: adj) in *. assert (NE : a <> []) by discriminate.
    pose proof (from_adjacency_eq a cs NE) as E. rewrite E in *. clear E.
    set (ls := map (csort cs (list_min (all_ids a))) (slots_of (list_min (all_ids a)) (list_max (all_ids a) - list_min (all_ids a) + 1) a)) in *.
    unfold csr_out in *. cbn [offs eds minv] in *. set (mn := list_min (all_ids a)) in *.
    exists (pairs mn ls). split; [|split].
    + apply pairs_nodup. intros i. specialize (ND (mn + i)). rewrite slice_spec in ND.
      destruct (Nat.ltb_spec (mn + i) mn); [lia|]. now replace (mn + i - mn) with i in ND by lia.
    + intros f t. rewrite pairs_in, slice_spec. destruct (Nat.ltb_spec f mn) as [L|L].
      * split; [intros [X _]; exfalso; clear - X L; lia|intros []].
      * tauto.
    + apply pairs_length.
Qed.

Lemma rebuild_built : forall s, built (base s) -> built (base (rebuild s)).
Proof. intros s H. unfold rebuild. destruct (_ || _); auto. now eexists _, _. Qed.
Lemma maybe_built : forall s, built (base s) -> built (base (maybe_rebuild s)).
Proof. intros s H. unfold maybe_rebuild. destruct (_ && _); auto. now apply rebuild_built. Qed.
Lemma vertices_built : forall l s, built (base s) -> built (base (add_vertices l s)).
Proof.
  intros [|p l] s H; auto. unfold add_vertices. apply rebuild_built. now rewrite vertices_fold_base.
Qed.
Lemma step_built : forall o s, built (base s) -> built (base (step o s)).
Proof.
  intros o s H. destruct o; cbn [step]; auto; try (apply maybe_built; exact H).
  - now apply vertices_built.
  - unfold update_addr. destruct (mget Nat.eqb (vpos s) v); exact H.
  - now apply rebuild_built.
  - now eexists _, _.
  - unfold ingest. destruct adj as [|a adj]; [now apply vertices_built|]. now eexists _, _.
Qed.
Lemma run_built : forall os s, built (base s) -> built (base (run os s)).
Proof. induction os as [|o os IH]; intros s H; auto. cbn. apply IH. now apply step_built. Qed.

(** The vertex list of the store. *)
Lemma rebuild_ids : forall s, ids (rebuild s) = ids s.
Proof. intros s. unfold rebuild. now destruct (_ || _). Qed.
Lemma maybe_ids : forall s, ids (maybe_rebuild s) = ids s.
Proof. intros s. unfold maybe_rebuild. destruct (_ && _); auto. apply rebuild_ids. Qed.
Lemma vertices_ids : forall l s, ids (add_vertices l s) = ids s ++ map snd l.
Proof.
  intros l s. unfold add_vertices. destruct l as [|p l]; [now rewrite app_nil_r|]. rewrite rebuild_ids.
  generalize (p :: l). clear p l. intros l. revert s. induction l as [|p l IH]; intros s; cbn [fold_left map].
  - now rewrite app_nil_r.
  - rewrite IH. cbn. now rewrite <- app_assoc.
Qed.
Lemma nodup_app : forall A (a b : list A), NoDup a -> NoDup b -> (forall x, In x b -> ~ In x a) -> NoDup (a ++ b).
Proof.
  induction a as [|x a IH]; intros b A1 B D; auto. inversion A1; subst. cbn. constructor.
  - rewrite in_app_iff. intros [H|H]; auto. apply (D x H). now left.
  - apply IH; auto. intros y Y Z. apply (D y Y). now right.
Qed.
Lemma once_step : forall o s r, once o r -> NoDup (ids s) -> incl (ids s) r ->
  NoDup (ids (step o s)) /\ incl (ids (step o s)) (reg_step o r).
Proof.
  intros o s r O N I. destruct o; cbn [step reg_step once] in *; auto; try (rewrite maybe_ids; auto; fail).
  - cbn. split; [apply nodup_app; auto|].
    + constructor; [intros []|constructor].
    + intros x [<-|[]] H. apply O. now apply I.
    + intros x H. apply in_app_iff in H. apply in_app_iff. destruct H; auto.
  - rewrite vertices_ids. destruct O as [O1 O2]. split; [apply nodup_app; auto|].
    + intros x H H'. apply (O2 x H). now apply I.
    + intros x H. apply in_app_iff in H. apply in_app_iff. destruct H; auto.
  - unfold update_addr. destruct (mget Nat.eqb (vpos s) v); auto.
  - rewrite rebuild_ids. auto.
  - cbn. split; auto. intros x H. apply in_app_iff. auto.
  - destruct O as (O1 & O2 & O3 & O4). unfold ingest. destruct adj as [|a adj].
    + rewrite vertices_ids. split; [apply nodup_app; auto|].
      * intros x H H'. apply (O2 x H). now apply I.
      * intros x H. apply in_app_iff in H. apply in_app_iff. destruct H; auto.
    + cbn [build_edges ids]. destruct fresh as [|p fresh].
      * split; [assumption|]. rewrite app_nil_r in O4. cbn. now rewrite app_nil_r.
      * split; auto. intros x H. apply in_app_iff. auto.
Qed.
Lemma once_run : forall os s r, legal once os r -> NoDup (ids s) -> incl (ids s) r -> NoDup (ids (run os s)).
Proof.
  induction os as [|o os IH]; intros s r L N I; auto. destruct L as [L L2].
  destruct (once_step o s r L N I). cbn. eapply IH; eauto.
Qed.

Lemma sum_pairs : forall (g : nat -> list nat) vs, NoDup vs -> (forall v, NoDup (g v)) ->
  exists l, NoDup l /\ (forall f t, In (f, t) l <-> In f vs /\ In t (g f)) /\ length l = list_sum (map (fun v => length (g v)) vs).
Proof.
  intros g. induction vs as [|v vs IH]; intros N G.
  - exists []. split; [constructor|]. split; [|reflexivity]. cbn. tauto.
  - inversion N; subst. destruct (IH H2 G) as (l & L1 & L2 & L3). exists (map (pair v) (g v) ++ l). split; [|split].
    + apply nodup_app; auto.
      * specialize (G v). induction G as [|x m A B C]; cbn; constructor; auto.
        rewrite in_map_iff. intros (y & E & Y). injection E as <-. auto.
      * intros [f t] H H'. apply in_map_iff in H'. destruct H' as (x & E & _). injection E as <- <-.
        apply L2 in H. tauto.
    + intros f t. rewrite in_app_iff, L2, in_map_iff. cbn. split.
      * intros [(x & E & H)|[H H']]; [injection E as <- <-|]; auto.
      * intros [[->|H] H']; eauto.
    + rewrite app_length, map_length, L3. reflexivity.
Qed.

Lemma edge_count : forall os, legal registered os [] -> legal complete os [] -> legal once os [] -> Forall plain_rows os ->
  exists l, NoDup l /\ (forall f t, In (f, t) l <-> spec_run os f t) /\ length l = num_edges_exact (run os store_new).
Proof.
  intros os R C O P. pose proof (inv_run os _ _ _ inv_new R C) as I.
  pose proof (answers_plain os) as ND.
  fold (run os store_new) (spec_run os) (reg_run os) in I. set (s := run os store_new) in *.
  pose proof (inv_out _ _ _ I) as X.
  unfold num_edges_exact. destruct (Nat.eqb_spec (ops (delta s)) 0) as [Z|Z].
  - unfold out_edges in X, ND. apply Nat.eqb_eq in Z. fold s in ND.
    assert (ND' : forall v, NoDup (csr_out (base s) v)).
    { intros v. specialize (ND v P). fold s in ND. now rewrite Z in ND. }
    rewrite Z in X. destruct (built_pairs (base s)) as (l & L1 & L2 & L3); auto.
    { apply run_built. now exists [], []. }
    exists l. split; auto. split; auto. intros f t. rewrite L2. apply X.
  - destruct (sum_pairs (out_edges s) (ids s)) as (l & L1 & L2 & L3).
    + apply (once_run os store_new []); auto; [constructor|intros x []].
    + intros v. now apply ND.
    + exists l. split; auto. split; auto. intros f t. rewrite L2, X. split; [tauto|]. intros H. split; auto.
      apply (i_ids _ _ _ I). now apply (i_src _ _ _ I) in H.
Qed.
