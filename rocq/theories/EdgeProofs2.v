(** The store stays equal to the set of edges. *)
From Coq Require Import Permutation.
From Verif Require Import Base Maps ListSort SchedModel SchedProofs2 EdgeModel EdgeSpec EdgeProofs.

Lemma nat_eqb_spec : forall a b, Nat.eqb a b = true <-> a = b.
Proof. intros; apply Nat.eqb_eq. Qed.

Lemma einsert_in : forall m k x j y, In y (eget (einsert m k x) j) <-> (j = k /\ y = x) \/ In y (eget m j).
Proof.
  intros m k x j y. unfold einsert, eget at 1. destruct (Nat.eq_dec k j) as [->|N].
  - rewrite mget_put_same by apply nat_eqb_spec. destruct (memb x (eget m j)) eqn:M.
    + apply memb_spec in M. split; [auto|]. intros [[_ ->]|H]; auto.
    + cbn. intuition congruence.
  - rewrite mget_put_other by (auto using nat_eqb_spec). fold (eget m j). intuition congruence.
Qed.
Lemma edrop_in : forall m k x j y, In y (eget (edrop m k x) j) <-> In y (eget m j) /\ ~ (j = k /\ y = x).
Proof.
  intros m k x j y. unfold edrop. destruct (mget Nat.eqb m k) as [l|] eqn:G.
  - destruct (Nat.eq_dec k j) as [->|N].
    + unfold eget. rewrite mget_put_same by apply nat_eqb_spec. rewrite G, filter_In, negb_true_iff, Nat.eqb_neq.
      intuition congruence.
    + unfold eget. rewrite mget_put_other by (auto using nat_eqb_spec). intuition congruence.
  - destruct (Nat.eq_dec k j) as [->|N]; [|intuition congruence]. unfold eget. rewrite G. cbn. tauto.
Qed.
Lemma einsert_keys : forall m k x, NoDup (map fst m) -> NoDup (map fst (einsert m k x)).
Proof. intros. apply mput_keys_NoDup; auto using nat_eqb_spec. Qed.
Lemma edrop_keys : forall m k x, NoDup (map fst m) -> NoDup (map fst (edrop m k x)).
Proof. intros. unfold edrop. destruct (mget Nat.eqb m k); auto. apply mput_keys_NoDup; auto using nat_eqb_spec. Qed.

Lemma merge_in : forall b a r e, In e (merge b a r) <-> (In e b /\ ~ In e r) \/ In e a.
Proof.
  intros. unfold merge. rewrite sort_nat_in, dedup_in, in_app_iff, filter_In, negb_true_iff, memb_false. tauto.
Qed.
Lemma merge_nodup : forall b a r, NoDup (merge b a r).
Proof. intros. unfold merge. eapply Permutation_NoDup; [apply Permutation_sym, sort_nat_perm|apply dedup_NoDup]. Qed.

Record inv (s : store) (E : edges) (r : list nat) : Prop := Inv {
  i_eff : forall f t, E f t <-> (In t (csr_out (base s) f) /\ ~ In t (eget (rems (delta s)) f)) \/ In t (eget (adds (delta s)) f);
  i_base : forall f t, In f (csr_in (base s) t) <-> In t (csr_out (base s) f);
  i_adds : forall f t, In f (eget (adds_in (delta s)) t) <-> In t (eget (adds (delta s)) f);
  i_rems : forall f t, In f (eget (rems_in (delta s)) t) <-> In t (eget (rems (delta s)) f);
  i_zero : ops (delta s) = 0 -> adds (delta s) = [] /\ rems (delta s) = [] /\ adds_in (delta s) = [] /\ rems_in (delta s) = [];
  i_keys : NoDup (map fst (adds (delta s)));
  i_src : forall f t, E f t -> In f r;
  i_ids : incl r (ids s) }.

Lemma inv_out : forall s E r, inv s E r -> forall f t, In t (out_edges s f) <-> E f t.
Proof.
  intros s E r I f t. rewrite (i_eff _ _ _ I). unfold out_edges. destruct (Nat.eqb_spec (ops (delta s)) 0) as [Z|Z].
  - destruct (i_zero _ _ _ I Z) as (A & B & _). rewrite A, B. cbn. tauto.
  - unfold merged_view. apply merge_in.
Qed.
Lemma inv_in : forall s E r, inv s E r -> forall f t, In f (in_edges_merged s t) <-> E f t.
Proof.
  intros s E r I f t. rewrite (i_eff _ _ _ I). unfold in_edges_merged. destruct (Nat.eqb_spec (ops (delta s)) 0) as [Z|Z].
  - destruct (i_zero _ _ _ I Z) as (A & B & _). rewrite A, B. cbn. rewrite (i_base _ _ _ I). tauto.
  - unfold merged_in_view. rewrite merge_in, (i_base _ _ _ I), (i_adds _ _ _ I), (i_rems _ _ _ I). tauto.
Qed.
Lemma inv_answers : forall s E r, inv s E r -> answers s E.
Proof.
  intros s E r I. split; [|split; [|split]].
  - apply (inv_out _ _ _ I).
  - apply (inv_in _ _ _ I).
  - unfold out_edges_ref. intros f l H t. pose proof (inv_out _ _ _ I f t) as X. unfold out_edges in X.
    destruct (ops (delta s) =? 0); [|discriminate]. congruence.
  - unfold in_edges_ref. intros t l H f. pose proof (inv_in _ _ _ I f t) as X. unfold in_edges_merged in X.
    destruct (ops (delta s) =? 0); [|discriminate]. congruence.
Qed.

Lemma inv_new : inv store_new (fun _ _ => False) [].
Proof.
  split.
  - intros f t. cbn. tauto.
  - intros f t. cbn. tauto.
  - intros f t. cbn. tauto.
  - intros f t. cbn. tauto.
  - cbn. auto.
  - constructor.
  - intros f t [].
  - apply incl_refl.
Qed.

(** A store rebuilt from rows that give E. *)
Lemma inv_built : forall adj cs vs vp d E r,
  (forall f t, E f t <-> exists ts, last_row adj f = Some ts /\ In t ts) ->
  (forall f t, E f t -> In f r) -> incl r vs ->
  inv (Store (from_adjacency adj cs) slab_new cs vs vp d) E r.
Proof.
  intros adj cs vs vp d E r H S I. split; cbn [base delta slab_new adds rems adds_in rems_in ops ids]; auto.
  - intros f t. rewrite H, from_out. cbn. tauto.
  - intros. apply from_in.
  - intros. cbn. tauto.
  - intros. cbn. tauto.
  - cbn. constructor.
Qed.

Lemma last_row_map : forall (g : nat -> list nat) vs f,
  last_row (map (fun v => (v, g v)) vs) f = if memb f vs then Some (g f) else None.
Proof.
  intros g vs f. induction vs as [|v vs IH] using rev_ind; auto. rewrite map_app. cbn [map]. rewrite last_row_snoc. cbn [fst snd].
  unfold memb in *. rewrite existsb_app. cbn [existsb]. rewrite IH. destruct (Nat.eqb_spec f v) as [->|N].
  - now rewrite orb_true_r.
  - now rewrite !orb_false_r.
Qed.

Lemma inv_rebuild : forall s E r, inv s E r -> inv (rebuild s) E r.
Proof.
  intros s E r I. unfold rebuild. destruct (_ || _); auto. unfold apply_to_csr. apply inv_built.
  - intros f t. rewrite last_row_map. destruct (memb f (ids s)) eqn:M.
    + split.
      * intros H. exists (merged_view (delta s) (base s) f). split; auto. unfold merged_view. rewrite merge_in. now apply (i_eff _ _ _ I).
      * intros (ts & X & H). inversion X; subst. unfold merged_view in H. rewrite merge_in in H. now apply (i_eff _ _ _ I).
    + split; [|intros (? & ? & _); discriminate]. intros H. apply memb_false in M. destruct M.
      apply (i_ids _ _ _ I), (i_src _ _ _ I f t), H.
  - apply (i_src _ _ _ I).
  - apply (i_ids _ _ _ I).
Qed.
Lemma inv_maybe : forall s E r, inv s E r -> inv (maybe_rebuild s) E r.
Proof. intros s E r I. unfold maybe_rebuild. destruct (_ && _); auto. now apply inv_rebuild. Qed.

Lemma inv_add : forall s E r f t, inv s E r -> In f r ->
  inv (set_delta (slab_add f t (delta s)) s) (fun a b => (a = f /\ b = t) \/ E a b) r.
Proof.
  intros s E r f t I R. split; cbn [set_delta base delta slab_add adds rems adds_in rems_in ops ids].
  - intros a b. rewrite einsert_in, edrop_in, (i_eff _ _ _ I a b).
    destruct (Nat.eq_dec a f) as [->|]; destruct (Nat.eq_dec b t) as [->|]; tauto.
  - apply (i_base _ _ _ I).
  - intros a b. rewrite !einsert_in, (i_adds _ _ _ I). tauto.
  - intros a b. rewrite !edrop_in, (i_rems _ _ _ I). tauto.
  - discriminate.
  - apply einsert_keys, (i_keys _ _ _ I).
  - intros a b [[-> _]|H]; auto. apply (i_src _ _ _ I _ _ H).
  - apply (i_ids _ _ _ I).
Qed.
Lemma inv_remove : forall s E r f t, inv s E r ->
  inv (set_delta (slab_remove f t (delta s)) s) (fun a b => E a b /\ ~ (a = f /\ b = t)) r.
Proof.
  intros s E r f t I. split; cbn [set_delta base delta slab_remove adds rems adds_in rems_in ops ids].
  - intros a b. rewrite einsert_in, edrop_in, (i_eff _ _ _ I a b).
    destruct (Nat.eq_dec a f) as [->|]; destruct (Nat.eq_dec b t) as [->|]; tauto.
  - apply (i_base _ _ _ I).
  - intros a b. rewrite !edrop_in, (i_adds _ _ _ I). tauto.
  - intros a b. rewrite !einsert_in, (i_rems _ _ _ I). tauto.
  - discriminate.
  - apply edrop_keys, (i_keys _ _ _ I).
  - intros a b [H _]. apply (i_src _ _ _ I _ _ H).
  - apply (i_ids _ _ _ I).
Qed.
Lemma inv_vertex : forall s E r a v, inv s E r -> inv (add_vertex a v s) E (r ++ [v]).
Proof.
  intros s E r a v I. destruct I. split; cbn [add_vertex base delta ids]; auto.
  - intros f t H. apply in_app_iff. eauto.
  - intros x H. apply in_app_iff in H. apply in_app_iff. destruct H; auto.
Qed.
Lemma inv_vertices_fold : forall l s E r, inv s E r ->
  inv (fold_left (fun s p => add_vertex (fst p) (snd p) s) l s) E (r ++ map snd l).
Proof.
  induction l as [|p l IH]; intros s E r I; cbn [fold_left map]; [now rewrite app_nil_r|].
  replace (r ++ snd p :: map snd l) with ((r ++ [snd p]) ++ map snd l) by (now rewrite <- app_assoc).
  apply IH, inv_vertex, I.
Qed.
Lemma inv_vertices : forall l s E r, inv s E r -> inv (add_vertices l s) E (r ++ map snd l).
Proof.
  intros [|p l] s E r I; [cbn; now rewrite app_nil_r|]. unfold add_vertices. apply inv_rebuild, inv_vertices_fold, I.
Qed.
Lemma inv_move : forall s E r v a, inv s E r -> inv (update_addr v a s) E r.
Proof.
  intros s E r v a I. unfold update_addr. destruct (mget Nat.eqb (vpos s) v); auto. destruct I. split; auto.
Qed.
Lemma inv_depth : forall s E r n, inv s E r -> inv (set_depth n s) E r.
Proof. intros s E r n I. destruct I. split; auto. Qed.

(** Rows carried over. *)
Lemma last_row_app : forall a b v, last_row (a ++ b) v = match last_row b v with Some ts => Some ts | None => last_row a v end.
Proof.
  intros a b v. induction b as [|p b IH] using rev_ind.
  - rewrite app_nil_r. reflexivity.
  - rewrite app_assoc, !last_row_snoc, IH. now destruct (Nat.eqb v (fst p)).
Qed.
Lemma last_row_None : forall adj v, last_row adj v = None <-> ~ In v (map fst adj).
Proof.
  intros adj v. split.
  - intros H X. apply in_map_iff in X. destruct X as ([w ts] & <- & X). cbn in *.
    apply (mget_None_In Nat.eqb nat_eqb_spec (rev adj) w ts H). now apply -> in_rev.
  - intros H. destruct (last_row adj v) as [ts|] eqn:X; auto. apply last_row_in in X. destruct H.
    apply in_map_iff. exists (v, ts). auto.
Qed.
Lemma last_row_uncovered : forall adj s v,
  last_row (uncovered adj s) v =
  if memb v (map fst adj) then None
  else if memb v (ids s) then match out_edges s v with [] => None | l => Some l end else None.
Proof.
  intros adj s v. unfold uncovered. induction (ids s) as [|w l IH] using rev_ind.
  - cbn. now destruct (memb v (map fst adj)).
  - rewrite flat_map_app, last_row_app, IH. cbn [flat_map]. rewrite app_nil_r.
    assert (MA : memb v (l ++ [w]) = memb v l || (v =? w)) by (unfold memb; rewrite existsb_app; cbn; now rewrite orb_false_r).
    rewrite MA.
    destruct (memb w (map fst adj)) eqn:W.
    + cbn. destruct (Nat.eqb_spec v w) as [->|N].
      * now rewrite W.
      * now rewrite !orb_false_r.
    + destruct (out_edges s w) as [|e es] eqn:O.
      * cbn. destruct (Nat.eqb_spec v w) as [->|N].
        -- rewrite W, orb_true_r, O. now destruct (memb w l).
        -- now rewrite !orb_false_r.
      * unfold last_row at 1. cbn. destruct (Nat.eqb_spec v w) as [->|N].
        -- now rewrite W, orb_true_r, O.
        -- now rewrite !orb_false_r.
Qed.

Lemma carried_id : forall s E r adj, inv s E r -> with_carried adj s = adj ++ uncovered adj s.
Proof.
  intros s E r adj I. unfold with_carried.
  assert (X : forall l rows, incl l (adds (delta s)) -> rows = adj ++ uncovered adj s ->
              fold_left (carried (map fst adj) s) l rows = rows); [|apply X; [apply incl_refl|reflexivity]].
  induction l as [|[from added] l IH]; intros rows IN ->; auto. cbn [fold_left].
  assert (C : carried (map fst adj) s (adj ++ uncovered adj s) (from, added) = adj ++ uncovered adj s); [|rewrite C; apply IH; auto; intros x H; apply IN; now right].
  unfold carried. destruct (memb from (map fst adj)) eqn:M1; auto. cbn [orb].
  destruct (memb from (map fst (adj ++ uncovered adj s))) eqn:M2; auto.
  match goal with |- context [dedup ?l] => set (row := l) end.
  assert (N : forall t, ~ In t row).
  { intros t H. assert (G : eget (adds (delta s)) from = added).
    { unfold eget. rewrite (mget_NoDup Nat.eqb nat_eqb_spec _ from added); auto. apply (i_keys _ _ _ I). apply IN. now left. }
    assert (Ht : E from t).
    { apply (i_eff _ _ _ I). rewrite G. unfold row in H. apply in_app_iff in H. rewrite filter_In, negb_true_iff, memb_false in H. tauto. }
    apply memb_false in M2. apply M2. rewrite map_app. apply in_app_iff. right.
    destruct (last_row (uncovered adj s) from) as [ts|] eqn:L.
    - apply last_row_in in L. apply in_map_iff. exists (from, ts). auto.
    - rewrite last_row_uncovered, M1 in L.
      assert (B : memb from (ids s) = true) by (apply memb_spec, (i_ids _ _ _ I), (i_src _ _ _ I _ _ Ht)).
      rewrite B in L. apply (inv_out _ _ _ I) in Ht. destruct (out_edges s from); [destruct Ht|discriminate]. }
  destruct (dedup row) as [|x d] eqn:D; auto. exfalso. apply (N x), dedup_in. rewrite D. now left.
Qed.
Lemma inv_build : forall s E r r' adj cs vs, inv s E r ->
  incl (map fst adj) r' -> incl r r' -> incl r' vs ->
  inv (build_edges adj cs vs s) (replace_rows adj E) r'.
Proof.
  intros s E r r' adj cs vs I C R V. unfold build_edges. rewrite (carried_id s E r adj I). apply inv_built; auto.
  - intros f t. unfold replace_rows. rewrite last_row_app, last_row_uncovered.
    destruct (memb f (map fst adj)) eqn:M.
    + destruct (last_row adj f) as [ts|] eqn:L.
      * split; [eauto|]. intros (ts' & X & H). congruence.
      * apply last_row_None in L. apply memb_spec in M. contradiction.
    + apply memb_false, last_row_None in M. rewrite M. rewrite <- (inv_out _ _ _ I). split.
      * intros H. assert (B : memb f (ids s) = true) by (apply memb_spec, (i_ids _ _ _ I), (i_src _ _ _ I f t), (inv_out _ _ _ I), H).
        rewrite B. destruct (out_edges s f) as [|e l]; [destruct H|]. eauto.
      * intros (ts & X & H). destruct (memb f (ids s)); [|discriminate]. destruct (out_edges s f); congruence.
  - intros f t H. unfold replace_rows in H. destruct (last_row adj f) as [ts|] eqn:L.
    + apply C. apply last_row_in in L. apply in_map_iff. exists (f, ts). auto.
    + apply R, (i_src _ _ _ I f t), H.
Qed.

Lemma inv_step : forall o s E r, inv s E r -> registered o r -> complete o r ->
  inv (step o s) (spec_step o E) (reg_step o r).
Proof.
  intros o s E r I R C. destruct o; cbn [step spec_step reg_step registered complete] in *.
  - apply inv_maybe, inv_add; auto.
  - apply inv_maybe, inv_remove; auto.
  - now apply inv_vertex.
  - now apply inv_vertices.
  - now apply inv_move.
  - now apply inv_depth.
  - apply inv_maybe. now apply inv_depth.
  - now apply inv_depth.
  - now apply inv_rebuild.
  - apply inv_build with (r := r); auto.
    + now apply incl_appl, incl_refl.
    + apply incl_app; auto. apply incl_refl.
  - destruct R as [R1 R2]. unfold ingest. pose proof (inv_vertices fresh s E r I) as I1. destruct adj as [|row adj].
    + destruct I1. split; auto.
    + apply inv_build with (r := r ++ map snd fresh); auto; [apply incl_refl|].
      destruct C as [->|[->|C]]; [|destruct fresh; auto; apply incl_refl|discriminate].
      auto.
Qed.
Lemma inv_run : forall os s E r, inv s E r -> legal registered os r -> legal complete os r ->
  inv (run os s) (fold_left (fun E o => spec_step o E) os E) (fold_left (fun r o => reg_step o r) os r).
Proof.
  induction os as [|o os IH]; intros s E r I L C; auto. destruct L as [L1 L2]. destruct C as [L3 L4]. cbn. apply IH; auto. now apply inv_step.
Qed.

Lemma store_exact : forall os, legal registered os [] -> legal complete os [] -> answers (run os store_new) (spec_run os).
Proof. intros os L C. eapply inv_answers, inv_run; eauto using inv_new. Qed.

(** Compaction at any point changes no answer. *)
Lemma compaction_silent : forall os, legal registered os [] -> legal complete os [] ->
  answers (rebuild (run os store_new)) (spec_run os)
  /\ (forall f t, In t (out_edges (rebuild (run os store_new)) f) <-> In t (out_edges (run os store_new) f))
  /\ (forall f t, In f (in_edges_merged (rebuild (run os store_new)) t) <-> In f (in_edges_merged (run os store_new) t)).
Proof.
  intros os L C. pose proof (inv_run os _ _ _ inv_new L C) as I. pose proof (inv_rebuild _ _ _ I) as I'.
  split; [eapply inv_answers; eauto|]. split; intros f t.
  - now rewrite (inv_out _ _ _ I), (inv_out _ _ _ I').
  - now rewrite (inv_in _ _ _ I), (inv_in _ _ _ I').
Qed.
