(** The region index: every query finds the entries that meet it. *)
From Coq Require Import ZifyN ZifyNat ZifyBool Permutation.
From Verif Require Import Base Maps IntervalModel IntervalProofs FpModel FpSpec FpProofs FpProofs2 FpProofs3.

Open Scope N_scope.

(** * Keys *)
Lemma k2_spec : forall a b, k2_eqb a b = true <-> a = b.
Proof. intros [a b] [c d]. unfold k2_eqb. cbn [fst snd]. rewrite andb_true_iff, !N.eqb_eq. split; [intros [-> ->]; auto|intros H; injection H as -> ->; auto]. Qed.
Lemma k3_spec : forall a b, k3_eqb a b = true <-> a = b.
Proof. intros [a b] [c d]. unfold k3_eqb. cbn [fst snd]. rewrite andb_true_iff, k2_spec, !N.eqb_eq. split; [intros [-> ->]; auto|intros H; injection H as -> ->; auto]. Qed.

Section Push.
  Variable K : Type.
  Variable eqb : K -> K -> bool.
  Hypothesis spec : forall a b, eqb a b = true <-> a = b.
  Lemma got_push : forall m k id j x, In x (got eqb (mpush eqb m k id) j) <-> In x (got eqb m j) \/ (j = k /\ x = id).
  Proof.
    intros m k id j x. unfold got at 1, mpush. destruct (eqb k j) eqn:E.
    - apply spec in E. subst j. rewrite mget_put_same by auto. unfold got. destruct (mget eqb m k) as [l|]; [rewrite in_app_iff|]; cbn [In]; intuition (subst; auto).
    - assert (k <> j) by (intros ->; rewrite eqb_rfl in E by auto; discriminate). rewrite mget_put_other by auto. fold (got eqb m j). intuition (subst; tauto).
  Qed.
  Lemma got_In : forall m k id, In id (got eqb m k) -> exists l, In (k, l) m /\ In id l.
  Proof. intros m k id H. unfold got in H. destruct (mget eqb m k) as [l|] eqn:E; [|destruct H]. exists l. split; auto. eapply mget_In; eauto. Qed.
  Definition under (n : N) (m : list (K * list N)) : Prop := forall k l id, In (k, l) m -> In id l -> id < n.
  Lemma under_push : forall n m k id, under n m -> id < n -> under n (mpush eqb m k id).
  Proof.
    intros n m k id U L j l x I X. unfold mpush, mput in I. destruct I as [E|I].
    - injection E as <- <-. destruct (mget eqb m k) as [l|] eqn:G; [|destruct X as [<-|[]]; auto].
      apply in_app_iff in X. destruct X as [X|[<-|[]]]; auto. apply mget_In in G; auto. eapply U; eauto.
    - apply mdel_In in I; auto. eapply U; [apply I|auto].
  Qed.
  Lemma under_got : forall n m k id, under n m -> In id (got eqb m k) -> id < n.
  Proof. intros n m k id U H. apply got_In in H. destruct H as (l & I & X). eapply U; eauto. Qed.
End Push.
Arguments under {K}.
Lemma under_more : forall K n (m : list (K * list N)) n', n <= n' -> under n m -> under n' m.
Proof. intros K n m n' L U k l id I X. assert (H := U k l id I X). lia. Qed.

Definition tstored (m : list (k2 * itree)) (k : k2) (lo hi id : N) : Prop := exists t, mget k2_eqb m k = Some t /\ stored t lo hi id.
Definition tunder (n : N) (m : list (k2 * itree)) : Prop := forall k t, In (k, t) m -> wf t /\ forall lo hi id, stored t lo hi id -> id < n.
Lemma tstored_push : forall m k lo hi id j a b x, tstored (tpush m k lo hi id) j a b x <-> tstored m j a b x \/ (j = k /\ a = lo /\ b = hi /\ x = id).
Proof.
  intros m k lo hi id j a b x. unfold tstored, tpush. destruct (k2_eqb k j) eqn:E.
  - apply k2_spec in E. subst j. rewrite mget_put_same by apply k2_spec. split.
    + intros (t & T & H). injection T as <-. apply stored_insert in H. destruct H as [H|H]; [right; tauto|left].
      destruct (mget k2_eqb m k) as [t|]; [eauto|]. destruct H as (v & V & _). discriminate V.
    + intros [(t & T & H)|(_ & -> & -> & ->)]; eexists; (split; [reflexivity|]); apply stored_insert; [right; rewrite T; auto|now left].
  - assert (k <> j) by (intros ->; rewrite eqb_rfl in E by apply k2_spec; discriminate). rewrite mget_put_other by (auto using k2_spec).
    split; [auto|]. intros [H'|[-> _]]; [auto|contradiction].
Qed.
Lemma tunder_push : forall n m k lo hi id, tunder n m -> id < n -> tunder n (tpush m k lo hi id).
Proof.
  intros n m k lo hi id U L j t I. unfold tpush, mput in I. destruct I as [E|I].
  - injection E as <- <-. destruct (mget k2_eqb m k) as [t|] eqn:G.
    + apply mget_In in G; [|apply k2_spec]. destruct (U _ _ G) as [W S]. split; [now apply insert_wf|]. intros a b x X. apply stored_insert in X. destruct X as [(_ & _ & ->)|X]; eauto.
    + split; [apply insert_wf, wf_empty|]. intros a b x X. apply stored_insert in X. destruct X as [(_ & _ & ->)|(v & V & _)]; auto. discriminate V.
  - apply mdel_In in I; [|apply k2_spec]. apply (U j t), I.
Qed.
Lemma tunder_more : forall n m m', n <= m' -> tunder n m -> tunder m' m.
Proof. intros n m m' L U k t I. destruct (U k t I) as [W S]. split; auto. intros lo hi id X. assert (H := S _ _ _ X). lia. Qed.

(** * Collectors *)
Lemma tree_ids_in : forall t low high id, wf t -> (In id (tree_ids t low high) <-> exists lo hi, stored t lo hi id /\ lo <= high /\ low <= hi).
Proof.
  intros t low high id W. unfold tree_ids. rewrite in_flat_map. split.
  - intros ([[lo hi] vals] & I & X). apply query_at in I; auto. cbn [snd] in X. exists lo, hi. split; [exists vals; tauto|tauto].
  - intros (lo & hi & (vals & V & X) & L). exists (lo, hi, vals). split; [apply query_at; tauto|exact X].
Qed.
Lemma tree_visits_in : forall t low high id, In (Some id) (tree_visits t low high) <-> In id (tree_ids t low high).
Proof.
  intros t low high id. unfold tree_visits, tree_ids, it_query. rewrite !in_flat_map. split.
  - intros (p & P & X). apply in_flat_map in X. destruct X as (n & I & X). cbn [In] in X. destruct X as [X|X]; [discriminate|].
    destruct (N.ltb (fst n) low) eqn:E; [destruct X|]. apply in_map_iff in X. destruct X as (y & Y & X). injection Y as ->.
    exists (fst p, fst n, snd n). split; [|exact X]. apply in_flat_map. exists p. split; auto. apply in_map_iff. exists n. split; auto. apply filter_In. split; auto. lia.
  - intros (k & I & X). apply in_flat_map in I. destruct I as (p & P & I). apply in_map_iff in I. destruct I as (n & <- & I). apply filter_In in I. destruct I as [I L]. cbn [snd] in X.
    exists p. split; auto. apply in_flat_map. exists n. split; auto. right. assert (E : N.ltb (fst n) low = false) by lia. rewrite E. now apply in_map.
Qed.
Lemma visits_in : forall l id, In (Some id) (visits l) <-> In id l.
Proof.
  intros l id. unfold visits. rewrite in_flat_map. split.
  - intros (x & X & [H|[H|[]]]); [discriminate|]. injection H as ->. auto.
  - intros H. exists id. cbn. auto.
Qed.

(** A found id lies in a walk; all ids of a walk are of the map. *)
Lemma got2_to : forall m s a b id, In id (got k2_eqb m (s, a)) -> a = b -> In id (got k2_eqb m (s, b)).
Proof. intros; subst; auto. Qed.
Lemma got3_to : forall m s a b c d id, In id (got k3_eqb m (s, a, b)) -> a = c -> b = d -> In id (got k3_eqb m (s, c, d)).
Proof. intros; subst; auto. Qed.
Lemma walk2_in : forall m s a p id, In id (got k2_eqb m (s, a)) -> p a = true -> In id (walk2 m s p).
Proof.
  intros m s a p id H P. apply got_In in H; [|apply k2_spec]. destruct H as (l & I & X). unfold walk2. apply in_flat_map. exists ((s, a), l). split; auto.
  cbn [fst snd]. rewrite N.eqb_refl, P. exact X.
Qed.
Lemma walk3_in : forall m s a b p id, In id (got k3_eqb m (s, a, b)) -> p a b = true -> In id (walk3 m s p).
Proof.
  intros m s a b p id H P. apply got_In in H; [|apply k3_spec]. destruct H as (l & I & X). unfold walk3. apply in_flat_map. exists ((s, a, b), l). split; auto.
  cbn [fst snd]. rewrite N.eqb_refl, P. exact X.
Qed.
Lemma vfilter_in : forall m s a b p q id, In id (got k3_eqb m (s, a, b)) -> p a = true -> q b = true -> In (Some id) (vfilter m s p q).
Proof.
  intros m s a b p q id H P Q. apply got_In in H; [|apply k3_spec]. destruct H as (l & I & X). unfold vfilter. apply in_flat_map. exists ((s, a, b), l). split; auto.
  cbn [fst snd]. rewrite N.eqb_refl, P, Q. cbn [andb]. apply in_flat_map. exists id. cbn. auto.
Qed.
Lemma tree_got_in : forall n m s a b lo hi low high id, tunder n m -> tstored m (s, a) lo hi id -> a = b -> lo <= high -> low <= hi -> In id (tree_got m (s, b) low high).
Proof.
  intros n m s a b lo hi low high id U (t & T & H) <- L1 L2. unfold tree_got. rewrite T. apply tree_ids_in; [|eauto].
  apply mget_In in T; [|apply k2_spec]. eapply U; eauto.
Qed.
Lemma walkt_in : forall n m s a p lo hi low high id, tunder n m -> tstored m (s, a) lo hi id -> p a = true -> lo <= high -> low <= hi -> In id (walkt m s p low high).
Proof.
  intros n m s a p lo hi low high id U (t & T & H) P L1 L2. apply mget_In in T; [|apply k2_spec]. unfold walkt. apply in_flat_map.
  exists ((s, a), t). split; auto. cbn [fst snd]. rewrite N.eqb_refl, P. cbn [andb]. apply tree_ids_in; [|eauto]. eapply U; eauto.
Qed.
Lemma vwalkt_in : forall m s p low high id, In (Some id) (vwalkt m s p low high) <-> In id (walkt m s p low high).
Proof.
  intros m s p low high id. unfold vwalkt, walkt. rewrite !in_flat_map. split; intros (e & E & H); exists e; (split; [auto|]);
    destruct (_ && _); try destruct H; now apply tree_visits_in.
Qed.
Lemma vtree_in : forall m k low high id, In (Some id) (vtree m k low high) <-> In id (tree_got m k low high).
Proof. intros. unfold vtree, tree_got. destruct (mget k2_eqb m k) as [t|]; [apply tree_visits_in|cbn; tauto]. Qed.

Lemma walk2_under : forall n m s p id, under n m -> In id (walk2 m s p) -> id < n.
Proof. intros n m s p id U H. unfold walk2 in H. apply in_flat_map in H. destruct H as ([k l] & I & X). destruct (_ && _); [|destruct X]. eapply U; eauto. Qed.
Lemma walk3_under : forall n m s p id, under n m -> In id (walk3 m s p) -> id < n.
Proof. intros n m s p id U H. unfold walk3 in H. apply in_flat_map in H. destruct H as ([k l] & I & X). destruct (_ && _); [|destruct X]. eapply U; eauto. Qed.
Lemma vfilter_under : forall n m s p q id, under n m -> In (Some id) (vfilter m s p q) -> id < n.
Proof.
  intros n m s p q id U H. unfold vfilter in H. apply in_flat_map in H. destruct H as ([k l] & I & X). destruct (_ && _); [|destruct X].
  apply in_flat_map in X. destruct X as (y & Y & X). cbn [snd] in Y. cbn [In] in X. destruct X as [X|X]; [discriminate|]. destruct (q _); [|destruct X].
  destruct X as [X|[]]. injection X as ->. eapply U; eauto.
Qed.
Lemma tree_under : forall n m k low high id, tunder n m -> In id (tree_got m k low high) -> id < n.
Proof.
  intros n m k low high id U H. unfold tree_got in H. destruct (mget k2_eqb m k) as [t|] eqn:T; [|destruct H].
  apply mget_In in T; [|apply k2_spec]. destruct (U _ _ T) as [W S]. apply tree_ids_in in H; auto. destruct H as (lo & hi & H & _). eauto.
Qed.
Lemma walkt_under : forall n m s p low high id, tunder n m -> In id (walkt m s p low high) -> id < n.
Proof.
  intros n m s p low high id U H. unfold walkt in H. apply in_flat_map in H. destruct H as ([k t] & I & X). destruct (_ && _); [|destruct X].
  destruct (U _ _ I) as [W S]. apply tree_ids_in in X; auto. destruct X as (lo & hi & X & _). eauto.
Qed.

(** * The state of an index *)
Definition filed {T} (x : rindex T) (id : N) (r : region) : Prop :=
  let s := sh r in
  match rows r, cols r with
  | Pt a, Pt b => In id (got k3_eqb (by_row x) (s, a, b)) /\ In id (got k3_eqb (by_col x) (s, b, a))
  | Sp a a', Pt b => tstored (col_iv x) (s, b) a a' id
  | Pt a, Sp b b' => tstored (row_iv x) (s, a) b b' id
  | Sp a a', Sp b b' => forall i j, a / brows x <= i <= a' / brows x -> b / bcols x <= j <= b' / bcols x ->
      In id (got k3_eqb (rects x) (s, i, j)) /\ In id (got k3_eqb (rects_c x) (s, j, i))
  | Fr a, All => In id (got k2_eqb (rows_fr x) (s, a))
  | All, Fr b => In id (got k2_eqb (cols_fr x) (s, b))
  | Pt a, All => In id (got k2_eqb (whole_r x) (s, a))
  | All, Pt b => In id (got k2_eqb (whole_c x) (s, b))
  | _, _ => In id (got N.eqb (whole_s x) s)
  end.
Definition count {T} (x : rindex T) : N := N.of_nat (length (entries x)).
Record inv {T} (br bc : N) (x : rindex T) : Prop := Inv {
  i_br : brows x = br; i_bc : bcols x = bc;
  i_filed : forall i e, nth_error (entries x) i = Some e -> rg_ok (fst e) /\ filed x (N.of_nat i) (norm (fst e));
  i_by_row : under (count x) (by_row x); i_by_col : under (count x) (by_col x);
  i_col_iv : tunder (count x) (col_iv x); i_row_iv : tunder (count x) (row_iv x);
  i_rects : under (count x) (rects x); i_rects_c : under (count x) (rects_c x);
  i_rows_fr : under (count x) (rows_fr x); i_cols_fr : under (count x) (cols_fr x);
  i_whole_r : under (count x) (whole_r x); i_whole_c : under (count x) (whole_c x);
  i_whole_s : under (count x) (whole_s x) }.

Lemma buckets_in : forall br bc s r0 r1 c0 c1 k, In k (buckets br bc s r0 r1 c0 c1) <->
  exists i j, k = (s, i, j) /\ r0 / br <= i <= r1 / br /\ c0 / bc <= j <= c1 / bc.
Proof.
  intros br bc s r0 r1 c0 c1 k. unfold buckets. rewrite in_flat_map. split.
  - intros (i & I & H). apply in_map_iff in H. destruct H as (j & <- & J). apply upto_in in I. apply upto_in in J. eauto.
  - intros (i & j & -> & I & J). exists i. split; [now apply upto_in|]. apply in_map_iff. exists j. split; [auto|now apply upto_in].
Qed.
Lemma fold_push_in : forall id f bs m k x, In x (got k3_eqb (fold_left (fun m (k : k3) => mpush k3_eqb m (f k) id) bs m) k) <->
  In x (got k3_eqb m k) \/ (x = id /\ exists b, In b bs /\ k = f b).
Proof.
  intros id f. induction bs as [|b bs IH]; intros m k x; cbn [fold_left].
  - split; [auto|]. intros [H|(_ & b & [] & _)]; auto.
  - rewrite IH, got_push by apply k3_spec. split.
    + intros [[H|[-> ->]]|(-> & c & C & ->)]; [auto|right; split; auto; exists b; cbn; auto|right; split; auto; exists c; cbn; auto].
    + intros [H|(-> & c & [<-|C] & ->)]; [auto|auto|right; eauto].
Qed.
Lemma fold_push_under : forall n id f bs m, under n m -> id < n -> under n (fold_left (fun m (k : k3) => mpush k3_eqb m (f k) id) bs m).
Proof. intros n id f. induction bs as [|b bs IH]; intros m U L; cbn [fold_left]; auto. apply IH; auto. apply under_push; auto. apply k3_spec. Qed.

Lemma inv_empty : forall T br bc, @inv T br bc (ri_empty br bc).
Proof. intros T br bc. split; cbn; auto; try (intros i e H; destruct i; discriminate H); try (intros k l id []); intros k t []. Qed.

(** Filing one entry files it and keeps the others. *)
Lemma index_filed : forall T (x : rindex T) id r k q, filed x k q -> filed (index_entry id r x) k q.
Proof.
  intros T [en b1 b2 ci ri rb rbc rf cf wr wc ws nb mb] id r k q H. unfold index_entry.
  destruct (rows r), (cols r); unfold filed in *; cbn [by_row by_col col_iv row_iv rects rects_c rows_fr cols_fr whole_r whole_c whole_s brows bcols] in *; cbv zeta in *;
  destruct (rows q), (cols q);
  rewrite ?(got_push _ _ k3_spec), ?(got_push _ _ k2_spec), ?(got_push _ _ N_eqb_spec), ?tstored_push; try tauto; try (left; exact H);
  intros i j I J; destruct (H i j I J); rewrite (fold_push_in id (fun k => k)), (fold_push_in id (fun k => (fst (fst k), snd k, snd (fst k)))); auto.
Qed.
Lemma index_new : forall T (x : rindex T) id r, filed (index_entry id r x) id r.
Proof.
  intros T [en b1 b2 ci ri rb rbc rf cf wr wc ws nb mb] id r. unfold index_entry.
  destruct (rows r) eqn:R, (cols r) eqn:C; unfold filed; rewrite ?R, ?C; cbn [by_row by_col col_iv row_iv rects rects_c rows_fr cols_fr whole_r whole_c whole_s brows bcols]; cbv zeta;
  rewrite ?(got_push _ _ k3_spec), ?(got_push _ _ k2_spec), ?(got_push _ _ N_eqb_spec), ?tstored_push; auto.
  intros i j I J. rewrite (fold_push_in id (fun k => k)), (fold_push_in id (fun k => (fst (fst k), snd k, snd (fst k)))).
  split; right; (split; [auto|]); exists (sh r, i, j); (split; [apply buckets_in; eauto 6|auto]).
Qed.
Lemma index_same : forall T (x : rindex T) id r, entries (index_entry id r x) = entries x /\ brows (index_entry id r x) = brows x /\ bcols (index_entry id r x) = bcols x.
Proof. intros T [en b1 b2 ci ri rb rbc rf cf wr wc ws nb mb] id r. unfold index_entry. destruct (rows r), (cols r); cbn; auto. Qed.

Lemma inv_insert : forall T br bc (x : rindex T) r v, inv br bc x -> rg_ok r -> inv br bc (ri_insert r v x) /\ entries (ri_insert r v x) = entries x ++ [(r, v)].
Proof.
  intros T br bc x r v J O. destruct J as [J1 J2 J3 J4 J5 J6 J7 J8 J9 J10 J11 J12 J13 J14].
  destruct x as [en b1 b2 ci ri rb rbc rf cf wr wc ws nb mb]. unfold ri_insert. cbn [entries].
  set (x0 := RIndex (en ++ [(r, v)]) b1 b2 ci ri rb rbc rf cf wr wc ws nb mb). set (id := N.of_nat (length en)).
  destruct (index_same _ x0 id (norm r)) as (E1 & E2 & E3). split; [|exact E1].
  assert (Cn : count (index_entry id (norm r) x0) = N.of_nat (length en) + 1).
  { unfold count. rewrite E1. unfold x0. cbn [entries]. rewrite app_length. cbn [length]. lia. }
  assert (L : id < N.of_nat (length en) + 1) by (unfold id; lia).
  assert (L' : N.of_nat (length en) <= N.of_nat (length en) + 1) by lia.
  unfold count in *. cbn [entries by_row by_col col_iv row_iv rects rects_c rows_fr cols_fr whole_r whole_c whole_s brows bcols] in *.
  apply (under_more _ _ _ _ L') in J4. apply (under_more _ _ _ _ L') in J5. apply (under_more _ _ _ _ L') in J8. apply (under_more _ _ _ _ L') in J9. apply (under_more _ _ _ _ L') in J10. apply (under_more _ _ _ _ L') in J11. apply (under_more _ _ _ _ L') in J12. apply (under_more _ _ _ _ L') in J13. apply (under_more _ _ _ _ L') in J14. apply (tunder_more _ _ _ L') in J6. apply (tunder_more _ _ _ L') in J7.
  split; unfold count; rewrite ?E1, ?E2, ?E3.
  - exact J1.
  - exact J2.
  - intros i e H. unfold x0 in H. cbn [entries] in H. destruct (Nat.ltb_spec i (length en)) as [Li|Li].
    + rewrite nth_error_app1 in H by auto. destruct (J3 i e H) as [K1 K2]. split; auto. apply index_filed. exact K2.
    + rewrite nth_error_app2 in H by lia. destruct (i - length en)%nat eqn:D; [|destruct n; discriminate].
      cbn in H. injection H as <-. cbn [fst]. split; auto. replace i with (length en) by lia. apply index_new.
  - rewrite <- E1, Cn. unfold x0, index_entry. destruct (rows (norm r)), (cols (norm r)); cbn [by_row]; auto using under_push, k3_spec.
  - rewrite <- E1, Cn. unfold x0, index_entry. destruct (rows (norm r)), (cols (norm r)); cbn [by_col]; auto using under_push, k3_spec.
  - rewrite <- E1, Cn. unfold x0, index_entry. destruct (rows (norm r)), (cols (norm r)); cbn [col_iv]; auto using tunder_push.
  - rewrite <- E1, Cn. unfold x0, index_entry. destruct (rows (norm r)), (cols (norm r)); cbn [row_iv]; auto using tunder_push.
  - rewrite <- E1, Cn. unfold x0, index_entry. destruct (rows (norm r)), (cols (norm r)); cbn [rects]; auto. apply (fold_push_under _ id (fun k => k)); auto.
  - rewrite <- E1, Cn. unfold x0, index_entry. destruct (rows (norm r)), (cols (norm r)); cbn [rects_c]; auto. apply (fold_push_under _ id (fun k => (fst (fst k), snd k, snd (fst k)))); auto.
  - rewrite <- E1, Cn. unfold x0, index_entry. destruct (rows (norm r)), (cols (norm r)); cbn [rows_fr]; auto using under_push, k2_spec.
  - rewrite <- E1, Cn. unfold x0, index_entry. destruct (rows (norm r)), (cols (norm r)); cbn [cols_fr]; auto using under_push, k2_spec.
  - rewrite <- E1, Cn. unfold x0, index_entry. destruct (rows (norm r)), (cols (norm r)); cbn [whole_r]; auto using under_push, k2_spec.
  - rewrite <- E1, Cn. unfold x0, index_entry. destruct (rows (norm r)), (cols (norm r)); cbn [whole_c]; auto using under_push, k2_spec.
  - rewrite <- E1, Cn. unfold x0, index_entry. destruct (rows (norm r)), (cols (norm r)); cbn [whole_s]; auto using under_push, N_eqb_spec.
Qed.

Lemma xrun_inv : forall T br bc (os : list (xop T)) x, inv br bc x -> Forall xop_ok os ->
  inv br bc (xrun x os) /\ entries (xrun x os) = fold_left (fun h o => match o with XInsert r v => h ++ [(r, v)] | XClear => [] end) os (entries x).
Proof.
  intros T br bc. induction os as [|o os IH]; intros x J F; [split; auto|]. inversion F as [|? ? F1 F2]; subst. unfold xrun in *. cbn [fold_left].
  destruct o as [r v|]; cbn [xstep xop_ok] in *.
  - destruct (inv_insert T br bc x r v J F1) as [J' E]. destruct (IH _ J' F2) as [K1 K2]. split; auto. rewrite K2, E. reflexivity.
  - unfold ri_clear. rewrite (i_br _ _ _ J), (i_bc _ _ _ J). destruct (IH _ (inv_empty T br bc) F2) as [K1 K2]. split; auto.
Qed.
