(* Overlays: listing, counting, range queries and the byte counter. *)
From Coq Require Import List Bool NArith ZArith Lia Permutation FinFun.
From Coq Require Import ZifyN ZifyNat ZifyBool.
From Verif Require Import Base Maps OvModel OvSpec OvProofs OvProofs2 OvProofs3 OvProofs4.
Import ListNotations.
Open Scope N_scope.

(* ---- listing ---- *)
Lemma last_of_NoDup : forall items k, NoDup (map fst items) -> last_of k items = pget items k.
Proof.
  induction items as [|[j v] r IH]; intros k ND; cbn [last_of mget]; auto. cbn [map fst] in ND. inversion ND; subst. rewrite IH by auto.
  destruct (k =? j) eqn:E; [|now destruct (pget r k)]. apply N.eqb_eq in E. subst.
  destruct (pget r j) eqn:G; auto. exfalso. apply H1. apply mget_In in G; [|exact N.eqb_eq].
  change j with (fst (j, o)). now apply in_map.
Qed.
Lemma last_of_cells : forall f k, wf f -> last_of k (frag_cells f) = frag_get f k.
Proof.
  intros f k W. destruct (last_of k (frag_cells f)) as [v|] eqn:E.
  - apply last_of_in in E. apply frag_cells_in in E; auto.
  - apply last_of_none in E. destruct (frag_get f k) as [v|] eqn:G; auto. exfalso. apply E.
    apply frag_cells_in in G; auto. change k with (fst (k, v)). now apply in_map.
Qed.
Lemma frags_fold_get : forall fs m m0 k, parts fs m ->
  pget (fold_left (fun m f => bt_of (frag_cells f) m) fs m0) k = om_over m (pget m0) k.
Proof.
  induction fs as [|f fs IH]; intros m m0 k P; cbn [fold_left].
  - unfold om_over. now rewrite <- (find_map_spec [] m k P).
  - pose proof P as (W & D & C2). inversion W; subst. inversion D; subst.
    rewrite (IH _ _ _ (parts_self fs H2 H4)). unfold om_over. rewrite bt_of_get, last_of_cells by auto.
    assert (M : m k = find_map (fun f0 => frag_get f0 k) (f :: fs)).
    { destruct (parts_self (f :: fs) W D) as (_ & _ & C1). destruct (m k) as [v|] eqn:E1.
      - symmetry. apply C1. now apply C2.
      - destruct (find_map _ (f :: fs)) as [v|] eqn:E2; auto. apply C1 in E2. apply C2 in E2. congruence. }
    rewrite M. cbn [find_map]. destruct (frag_get f k) as [v|] eqn:EF; auto.
    destruct (find_map _ fs) as [w|] eqn:EW; auto. exfalso. apply (parts_self fs H2 H4) in EW.
    destruct EW as (r & I & G). rewrite Forall_forall in H3. destruct (H3 r I k); congruence.
Qed.
Lemma frags_fold_incr : forall fs m0, incr 0 (map fst m0) ->
  incr 0 (map fst (fold_left (fun m f => bt_of (frag_cells f) m) fs m0)).
Proof. induction fs as [|f fs IH]; intros m0 H; cbn; auto. apply IH. now apply bt_of_incr. Qed.
Lemma iter_spec : forall o m, repr o m -> incr 0 (map fst (ov_iter o)) /\
  forall k v, In (k, v) (ov_iter o) <-> m k = Some v.
Proof.
  intros o m (ND & mf & P & DJ & M). assert (I : incr 0 (map fst (ov_iter o))).
  { apply bt_of_incr, frags_fold_incr. cbn. auto. }
  split; auto. intros k v. rewrite <- (pget_some_in _ (ov_iter o) k) by (eapply incr_NoDup; eauto).
  unfold ov_iter. rewrite bt_of_get, last_of_NoDup by auto. rewrite (frags_fold_get _ mf) by auto.
  rewrite M. unfold om_over. cbn. destruct (pget (o_points o) k); [tauto|]. destruct (mf k); tauto.
Qed.

(* ---- counting ---- *)
Lemma cells_keys : forall f, wf f -> NoDup (map fst (frag_cells f)) /\ lenN (frag_cells f) = coverage_len f.
Proof.
  intros f W. destruct W as [offs vs NE SO B L|s vs V W|s len ends vs R W].
  - cbn [frag_cells coverage_len].
    rewrite (filter_map_total _ _ _ (fun '(i, o) => (o, nth (N.to_nat i) vs OvEmpty))).
    + split.
      * rewrite map_map. replace (map _ (enumerate offs)) with offs; [eapply incr_NoDup; eauto|].
        unfold enumerate. rewrite <- (enum_from_snd N offs 0) at 1. apply map_ext. now intros [i o].
      * unfold lenN, enumerate. rewrite map_length, <- (map_length snd), enum_from_snd. reflexivity.
    + intros [i o] I. apply enumerate_in in I. rewrite from_values_get.
      assert (X : (N.to_nat i < length vs)%nat) by (rewrite L; apply nth_error_Some; unfold nthN in I; congruence).
      unfold nthN. rewrite (nth_error_nth' vs OvEmpty X). reflexivity.
  - assert (SA : forall i, i < lenN vs -> sat_add s i = s + i).
    { intros i H. unfold sat_add, MAX_OFF, U32_MAX, USIZE_MAX in *. lia. }
    cbn [frag_cells coverage_len].
    rewrite (filter_map_total _ _ _ (fun i => (s + i, nth (N.to_nat i) vs OvEmpty))).
    + split; [|unfold lenN; rewrite map_length, rangeN_length; lia]. rewrite map_map. cbn [fst].
      apply Injective_map_NoDup; [|apply rangeN_NoDup]. intros a b E. lia.
    + intros i I. apply rangeN_spec in I. rewrite SA, from_values_get by lia. unfold nthN.
      rewrite (nth_error_nth' vs OvEmpty); [reflexivity|]. unfold lenN in I. lia.
  - assert (SA : forall i, i < len -> sat_add s i = s + i).
    { intros i H. unfold sat_add, MAX_OFF, U32_MAX, USIZE_MAX in *. lia. }
    change (frag_cells (Run s len ends (from_values vs))) with
      (filter_map (fun i => option_map (fun v => (sat_add s i, v)) (frag_get (Run s len ends (from_values vs)) (sat_add s i))) (rangeN 0 len)).
    cbn [coverage_len].
    rewrite (filter_map_total _ _ _ (fun i => (s + i, match run_at ends vs i with Some v => v | None => OvEmpty end))).
    + split; [|unfold lenN; rewrite map_length, rangeN_length; lia]. rewrite map_map. cbn [fst].
      apply Injective_map_NoDup; [|apply rangeN_NoDup]. intros a b E. lia.
    + intros i I. apply rangeN_spec in I. rewrite SA, get_run by (auto; lia).
      replace (s + i <? s) with false by lia. replace (s + i - s) with i by lia.
      destruct (run_at_some _ _ _ _ _ i R) as (v & ->); [lia|pose proof (runs_ok_pos _ _ _ R); lia|]. reflexivity.
Qed.
Definition all_keys (o : overlay) : list N :=
  map fst (o_points o) ++ flat_map (fun f => map fst (frag_cells f)) (o_frags o).
Lemma nodup_app_disjoint : forall A (a b : list A), NoDup a -> NoDup b -> (forall x, In x a -> ~ In x b) -> NoDup (a ++ b).
Proof.
  intros A. induction a as [|x a IH]; intros b HA HB H; cbn; auto. inversion HA; subst. constructor.
  - rewrite in_app_iff. intros [I | I]; [auto|]. apply (H x); cbn; auto.
  - apply IH; auto. intros y I. apply H. cbn. auto.
Qed.
Lemma all_keys_spec : forall o m, repr o m ->
  NoDup (all_keys o) /\ (forall k, In k (all_keys o) <-> m k <> None) /\ lenN (all_keys o) = ov_len o.
Proof.
  intros o m (ND & mf & P & DJ & M). unfold all_keys, ov_len.
  assert (F : NoDup (flat_map (fun f => map fst (frag_cells f)) (o_frags o)) /\
              (forall k, In k (flat_map (fun f => map fst (frag_cells f)) (o_frags o)) <-> mf k <> None) /\
              lenN (flat_map (fun f => map fst (frag_cells f)) (o_frags o)) = fold_right (fun f n => coverage_len f + n) 0 (o_frags o)).
  { pose proof P as (W & D & C). split; [|split].
    - clear C P. induction (o_frags o) as [|f fs IH]; cbn; [constructor|]. inversion W; subst. inversion D; subst.
      apply nodup_app_disjoint; auto; [now apply cells_keys|]. intros k I J.
      apply in_map_iff in I. destruct I as ([k' v] & X & I). cbn in X. subst.
      apply in_flat_map in J. destruct J as (g & G & J). apply in_map_iff in J. destruct J as ([k' w] & X & J). cbn in X. subst.
      rewrite Forall_forall in *. apply frag_cells_in in I; auto. apply frag_cells_in in J; [|auto].
      destruct (H3 g G k); congruence.
    - intros k. rewrite in_flat_map. split.
      + intros (f & I & J). apply in_map_iff in J. destruct J as ([k' v] & X & J). cbn in X. subst.
        rewrite Forall_forall in W. apply frag_cells_in in J; auto. assert (mf k = Some v) by (apply C; eauto). congruence.
      + intros H. destruct (mf k) as [v|] eqn:E; [|congruence]. apply C in E. destruct E as (f & I & J). exists f. split; auto.
        rewrite Forall_forall in W. apply frag_cells_in in J; auto. change k with (fst (k, v)). now apply in_map.
    - clear C P D. induction (o_frags o) as [|f fs IH]; cbn; auto. inversion W; subst. destruct (cells_keys f H1) as [_ L].
      unfold lenN in *. rewrite app_length, map_length. rewrite <- IH by auto. lia. }
  destruct F as (F1 & F2 & F3). split; [|split].
  - apply nodup_app_disjoint; auto. intros k I J. apply F2 in J. apply J. apply DJ. intros X. apply pget_none in X. auto.
  - intros k. rewrite in_app_iff, F2, M. unfold om_over. destruct (pget (o_points o) k) as [v|] eqn:E.
    + split; [discriminate|]. intros _. left. apply mget_In in E; [|exact N.eqb_eq]. change k with (fst (k, v)). now apply in_map.
    + apply pget_none in E. tauto.
  - unfold lenN in *. rewrite app_length, map_length. lia.
Qed.
Lemma len_spec : forall o m, repr o m -> ov_len o = lenN (ov_iter o).
Proof.
  intros o m R. destruct (all_keys_spec o m R) as (A & B & C). destruct (iter_spec o m R) as (I & J).
  rewrite <- C. unfold lenN. f_equal. rewrite <- (map_length fst (ov_iter o)). apply Permutation_length.
  apply NoDup_Permutation; auto; [eapply incr_NoDup; eauto|]. intros k. rewrite B. split.
  - intros H. destruct (m k) as [v|] eqn:E; [|congruence]. apply J in E. change k with (fst (k, v)). now apply in_map.
  - intros H. apply in_map_iff in H. destruct H as ([k' v] & X & H). cbn in X. subst. apply J in H. congruence.
Qed.
Lemma coverage_pos : forall f, wf f -> 0 < coverage_len f.
Proof.
  intros f W. destruct W as [offs vs NE SO B L|s vs V W|s len ends vs R W]; cbn.
  - destruct offs; [congruence|]. unfold lenN. cbn [length]. lia.
  - destruct vs; [congruence|]. unfold lenN. cbn [length]. lia.
  - now apply runs_ok_pos in R.
Qed.
Lemma is_empty_spec : forall o m, repr o m -> ov_is_empty o = true <-> forall k, m k = None.
Proof.
  intros o m R. destruct (all_keys_spec o m R) as (A & B & C).
  assert (E : ov_is_empty o = true <-> all_keys o = []).
  { unfold ov_is_empty, all_keys. destruct R as (_ & mf & (W & _) & _).
    destruct (o_points o) as [|p ps]; cbn.
    - destruct (o_frags o) as [|f fs]; cbn; [tauto|]. split; [discriminate|]. inversion W; subst.
      pose proof (coverage_pos f H1). destruct (cells_keys f H1) as [_ L].
      destruct (frag_cells f); [cbn in L; lia|discriminate].
    - split; [|discriminate]. destruct (o_frags o); discriminate. }
  rewrite E. split.
  - intros H k. destruct (m k) eqn:X; auto. assert (In k (all_keys o)) by (apply B; congruence). rewrite H in H0. destruct H0.
  - intros H. destruct (all_keys o) as [|k ks]; auto. exfalso. apply (B k); [cbn; auto|apply H].
Qed.
Lemma has_any_spec : forall o m a b, repr o m ->
  ov_has_any o a b = true <-> exists k, a <= k /\ k < b /\ m k <> None.
Proof.
  intros o m a b R. pose proof R as (ND & mf & P & DJ & M). unfold ov_has_any. rewrite orb_true_iff, !existsb_exists. split.
  - intros [([k v] & I & H) | (f & I & H)].
    + cbn in H. unfold range_contains in H. exists k. split; [lia|]. split; [lia|]. rewrite M. unfold om_over.
      apply pget_some_in in I; auto. rewrite I. discriminate.
    + pose proof P as (W & _ & C). rewrite Forall_forall in W. specialize (W f I).
      destruct (N.lt_ge_cases a b) as [X|X].
      * apply frag_has_any_spec in H; auto. destruct H as (k & H1 & H2 & H3). exists k. split; auto. split; auto.
        rewrite M. unfold om_over. destruct (pget (o_points o) k); [discriminate|].
        destruct (frag_get f k) as [v|] eqn:G; [|congruence]. assert (mf k = Some v) by (apply C; eauto). congruence.
      * unfold frag_has_any, range_empty in H. replace (b <=? a) with true in H by lia. discriminate.
  - intros (k & H1 & H2 & H3). rewrite M in H3. unfold om_over in H3. destruct (pget (o_points o) k) as [v|] eqn:G.
    + left. exists (k, v). split; [now apply pget_some_in in G|]. unfold range_contains. cbn. lia.
    + right. destruct (mf k) as [v|] eqn:E; [|congruence]. destruct P as (W & _ & C). apply C in E. destruct E as (f & I & J).
      exists f. split; auto. rewrite Forall_forall in W. apply frag_has_any_spec; auto; [lia|]. exists k. split; auto. split; auto. congruence.
Qed.

(* ---- the byte counter ---- *)
Section Mem.
  Variable mem : payload -> N.
  Notation rec := (recomputed mem).
  Lemma rec_eq : forall o, rec o = pts_est (o_points o) + frags_est mem (o_frags o).
  Proof. reflexivity. Qed.
  (* how one call moves the counter: [exact] says when it stays exact *)
  Definition moves (o : overlay) (r : overlay * Z) (exact : Prop) : Prop :=
    Z.of_N (rec (fst r)) = (Z.of_N (rec o) + snd r)%Z /\
    (o_est o <= rec o -> o_est (fst r) <= rec (fst r)) /\
    (exact -> o_est o = rec o -> o_est (fst r) = rec (fst r)).

  Lemma remove_scalar_moves : forall o off, NoDup (map fst (o_points o)) ->
    moves o (remove_scalar mem o off) (pget (o_points o) off = None \/ o_frags o = []).
  Proof.
    intros o off ND. unfold remove_scalar.
    set (g := fun f => if is_some (frag_get f off) then Some (subtract_offset f off) else None).
    pose proof (replace_frags_est mem g (o_frags o)) as RE.
    destruct (pget (o_points o) off) as [old|] eqn:EP.
    - pose proof (pts_est_del _ _ _ ND EP) as PE.
      destruct (o_frags o) as [|f0 fs] eqn:EF.
      + unfold moves. rewrite !rec_eq. cbn [fst snd o_points o_frags o_est]. rewrite EF.
        assert (Z0 : frags_est mem [] = 0) by reflexivity. split; [lia|]. split; [lia|]. intros _. lia.
      + rewrite <- EF in *. destruct (replace_frags mem g (o_frags o)) as [fs' d]. cbn [fst snd] in RE.
        unfold moves. rewrite !rec_eq. cbn [fst snd o_points o_frags o_est]. unfold adjust.
        split; [lia|]. split; [lia|]. intros [X | X]; [discriminate|congruence].
    - destruct (o_frags o) as [|f0 fs] eqn:EF.
      + unfold moves. rewrite !rec_eq. cbn [fst snd o_points o_frags o_est]. rewrite EF. split; [lia|]. split; lia.
      + rewrite <- EF in *. destruct (replace_frags mem g (o_frags o)) as [fs' d]. cbn [fst snd] in RE.
        unfold moves. rewrite !rec_eq. cbn [fst snd o_points o_frags o_est]. unfold adjust.
        split; [lia|]. split; lia.
  Qed.
  Lemma remove_scalar_points : forall o off k, pget (o_points (fst (remove_scalar mem o off))) k =
    if k =? off then None else pget (o_points o) k.
  Proof.
    intros o off k. unfold remove_scalar. destruct (pget (o_points o) off) as [old|] eqn:EP.
    - destruct (o_frags o); [|destruct (replace_frags _ _ _)]; cbn [fst o_points]; apply pget_del.
    - assert (X : pget (o_points o) k = if k =? off then None else pget (o_points o) k).
      { destruct (k =? off) eqn:E; auto. apply N.eqb_eq in E. now subst. }
      destruct (o_frags o); [|destruct (replace_frags _ _ _)]; cbn [fst o_points]; exact X.
  Qed.
  Lemma remove_scalar_NoDup : forall o off, NoDup (map fst (o_points o)) ->
    NoDup (map fst (o_points (fst (remove_scalar mem o off)))).
  Proof.
    intros o off ND. unfold remove_scalar. destruct (pget (o_points o) off) as [old|];
      (destruct (o_frags o); [|destruct (replace_frags _ _ _)]; cbn [fst o_points]; auto; now apply pdel_NoDup).
  Qed.
  Lemma set_scalar_moves : forall o off v, NoDup (map fst (o_points o)) ->
    moves o (set_scalar mem o off v) (pget (o_points o) off = None \/ o_frags o = []).
  Proof.
    intros o off v ND. pose proof (remove_scalar_moves o off ND) as (A & B & C).
    pose proof (remove_scalar_points o off off) as PN. rewrite N.eqb_refl in PN.
    unfold set_scalar. destruct (remove_scalar mem o off) as [o1 d]. cbn [fst snd] in *.
    assert (PP : pts_est (pput (o_points o1) off v) = point_est v + pts_est (o_points o1)).
    { unfold mput. assert (DEL : pdel (o_points o1) off = o_points o1).
      { apply pget_none in PN. clear -PN. unfold mdel. induction (o_points o1) as [|[j w] ps IH]; cbn; auto. cbn in PN.
        replace (off =? j) with false by (symmetry; apply N.eqb_neq; intros ->; tauto). cbn. f_equal. apply IH. tauto. }
      rewrite DEL. reflexivity. }
    unfold moves. rewrite !rec_eq in *. cbn [fst snd o_points o_frags o_est] in *. rewrite PP. unfold adjust.
    split; [lia|]. split; [lia|]. intros X E. specialize (C X E). lia.
  Qed.
  Lemma set_scalar_points : forall o off v k, pget (o_points (fst (set_scalar mem o off v))) k =
    if k =? off then Some v else pget (o_points o) k.
  Proof.
    intros o off v k. unfold set_scalar. pose proof (remove_scalar_points o off k) as P.
    destruct (remove_scalar mem o off) as [o1 d]. cbn [fst o_points] in *. rewrite pget_put, P. now destruct (k =? off).
  Qed.
  Lemma apply_fragment_moves : forall o f, NoDup (map fst (o_points o)) -> wf f ->
    moves o (apply_fragment mem o f) True.
  Proof.
    intros o f ND W. unfold apply_fragment. pose proof (remove_points_keys o f W ND) as H.
    destruct (remove_points_covered o f) as [o1 d1]. destruct H as (_ & F1 & _ & P1 & E1 & _).
    set (g := fun f0 => if intersects_frag f0 f then Some (subtract_frag f0 f) else None).
    assert (X : exists d2, remove_frags_covered mem o1 f =
              (Overlay (o_points o1) (o_formats o1) (fst (replace_frags mem g (o_frags o1))) (adjust (o_est o1) d2), d2)
              /\ d2 = snd (replace_frags mem g (o_frags o1))).
    { unfold remove_frags_covered. fold g. destruct (o_frags o1) as [|f0 fs] eqn:EF.
      - exists 0%Z. cbn. split; auto. destruct o1; cbn in *. subst. unfold adjust. f_equal. f_equal. lia.
      - destruct (replace_frags mem g (f0 :: fs)) as [fs' d]. cbn. eauto. }
    destruct X as (d2 & -> & D2). pose proof (replace_frags_est mem g (o_frags o1)) as RE. rewrite <- D2 in RE.
    assert (FE : forall l, frags_est mem (l ++ [f]) = frags_est mem l + frag_est mem f).
    { intros l. rewrite frags_est_app. cbn. lia. }
    unfold moves. rewrite !rec_eq. cbn [fst snd o_points o_frags o_est]. rewrite FE, F1 in *. unfold adjust in *.
    split; [lia|]. split; lia.
  Qed.
  Lemma remove_range_moves : forall o a b, NoDup (map fst (o_points o)) -> moves o (remove_range mem o a b) True.
  Proof.
    intros o a b ND. unfold remove_range. destruct (range_empty a b).
    { unfold moves. cbn [fst snd]. split; [lia|]. split; auto. }
    pose proof (remove_range_keys (o_points o) a b ND) as H. destruct (remove_keys _ _) as [ps n]. destruct H as (_ & PE & _).
    set (g := fun f => Some (subtract_interval f a b)).
    pose proof (replace_frags_est mem g (o_frags o)) as RE. cbv zeta.
    destruct (o_frags o) as [|f0 fs] eqn:EF.
    - unfold moves. rewrite !rec_eq. cbn [fst snd o_points o_frags o_est]. rewrite EF. 
      split; [lia|]. split; lia.
    - rewrite <- EF in *. destruct (replace_frags mem g (o_frags o)) as [fs' d]. cbn [fst snd] in RE.
      unfold moves. rewrite !rec_eq. cbn [fst snd o_points o_frags o_est]. unfold adjust. split; [lia|]. split; lia.
  Qed.

  Lemma set_format_rec : forall o off f, rec (ov_set_format o off f) = rec o /\ o_est (ov_set_format o off f) = o_est o.
  Proof. intros. split; reflexivity. Qed.
  (* a slice starts from an empty overlay and writes every cell once *)
  Lemma slice_exact : forall o m off len, repr o m -> off + len < USIZE_MAX ->
    o_est (ov_slice mem o off len) = rec (ov_slice mem o off len).
  Proof.
    intros o m off len (ND & mf & P & DJ & M) HB. unfold ov_slice.
    replace (sat_add off len) with (off + len) by (unfold sat_add; lia).
    assert (A : forall fs out, Forall wf fs -> o_points out = [] -> o_est out = rec out ->
      let out' := fold_left (fun out f => match frag_slice f off len with
            | Some s => fst (apply_fragment mem out s) | None => out end) fs out in
      o_points out' = [] /\ o_est out' = rec out').
    { induction fs as [|f fs IH]; intros out W E X; cbn [fold_left]; auto. inversion W; subst.
      pose proof (frag_slice_parts f off len H1 HB) as PS. destruct (frag_slice f off len) as [s|]; auto.
      cbn [opt_list] in PS. destruct PS as (WS & _). assert (WF : wf s) by now inversion WS. apply IH; auto.
      - unfold apply_fragment. assert (ND0 : NoDup (map fst (o_points out))) by (rewrite E; constructor).
        pose proof (remove_points_keys out s WF ND0) as H. destruct (remove_points_covered out s) as [o1 d1].
        destruct H as (_ & _ & _ & _ & _ & G).
        assert (E1 : o_points o1 = []).
        { destruct (o_points o1) as [|[k v] ps] eqn:EE; auto. exfalso. specialize (G k). cbn in G. rewrite N.eqb_refl, E in G.
          destruct (is_some (frag_get s k)); discriminate. }
        unfold remove_frags_covered. destruct (o_frags o1); [exact E1|]. destruct (replace_frags _ _ _). exact E1.
      - assert (ND0 : NoDup (map fst (o_points out))) by (rewrite E; constructor).
        now apply (apply_fragment_moves out s ND0 WF). }
    destruct P as (W & P). destruct (A (o_frags o) ov_new W eq_refl eq_refl) as [A1 A2].
    set (o1 := fold_left _ (o_frags o) ov_new) in *.
    assert (B : forall ps out, NoDup (map fst ps) -> NoDup (map fst (o_points out)) ->
      (forall k v, In (k, v) ps -> off <= k -> pget (o_points out) (k - off) = None) -> o_est out = rec out ->
      let out' := fold_left (fun out kv => if (off <=? fst kv) && (fst kv <? off + len)
                                       then fst (set_scalar mem out (fst kv - off) (snd kv)) else out) ps out in
      o_est out' = rec out').
    { induction ps as [|[k v] ps IH]; intros out N1 N2 H X; cbn [fold_left fst snd]; auto. inversion N1; subst.
      destruct ((off <=? k) && (k <? off + len)) eqn:E; [|apply IH; auto; intros k' v' I; apply (H k' v'); cbn; auto].
      apply IH; auto.
      - unfold set_scalar. pose proof (remove_scalar_NoDup out (k - off) N2) as RN. destruct (remove_scalar mem out (k - off)).
        cbn [fst o_points] in *. apply mput_keys_NoDup; auto. exact N.eqb_eq.
      - intros k' v' I O. rewrite set_scalar_points. replace (k' - off =? k - off) with false.
        + apply (H k' v'); cbn; auto.
        + symmetry. apply N.eqb_neq. intros Y. assert (k' = k) by lia. subst. apply H2. change k with (fst (k, v')). now apply in_map.
      - apply (set_scalar_moves out (k - off) v N2); auto. left. apply (H k v); cbn; auto. lia. }
    assert (B1 : o_est (fold_left (fun out kv => if (off <=? fst kv) && (fst kv <? off + len)
                                       then fst (set_scalar mem out (fst kv - off) (snd kv)) else out) (o_points o) o1) =
                rec (fold_left (fun out kv => if (off <=? fst kv) && (fst kv <? off + len)
                                       then fst (set_scalar mem out (fst kv - off) (snd kv)) else out) (o_points o) o1)).
    { apply B; auto; rewrite A1; [constructor|]. intros. reflexivity. }
    set (o2 := fold_left _ (o_points o) o1) in *.
    assert (C : forall (fs : list (N * N)) out, o_est out = rec out ->
      let out' := fold_left (fun out kv => if (off <=? fst kv) && (fst kv <? off + len)
                             then ov_set_format out (fst kv - off) (Some (snd kv)) else out) fs out in
      o_est out' = rec out').
    { induction fs as [|[k v] fs IH]; intros out X; cbn [fold_left fst snd]; auto. apply IH.
      destruct ((off <=? k) && (k <? off + len)); auto. }
    now apply C.
  Qed.

  (* the calls that keep an exact counter exact *)
  Definition clean_op (o : overlay) (p : oop) : Prop :=
    match p with
    | OSet off _ | ORemove off => pget (o_points o) off = None \/ o_frags o = []
    | _ => True
    end.
  Lemma step_est : forall o m p, repr o m -> op_ok p ->
    (o_est o <= rec o -> o_est (ov_step mem o p) <= rec (ov_step mem o p)) /\
    (clean_op o p -> o_est o = rec o -> o_est (ov_step mem o p) = rec (ov_step mem o p)).
  Proof.
    intros o m p R OK. pose proof R as (ND & _).
    assert (FR : forall f, match f with None => True | Some f => wf f end ->
       (o_est o <= rec o -> o_est (apply_opt mem o f) <= rec (apply_opt mem o f)) /\
       (o_est o = rec o -> o_est (apply_opt mem o f) = rec (apply_opt mem o f))).
    { intros [f|] W; cbn [apply_opt]; [|tauto]. destruct (apply_fragment_moves o f ND W) as (_ & B & C). auto. }
    destruct p as [off v|off|items|s vs|s vs|a b| |off len|off f]; cbn [ov_step clean_op op_ok] in *.
    - destruct (set_scalar_moves o off v ND) as (_ & B & C). auto.
    - destruct (remove_scalar_moves o off ND) as (_ & B & C). auto.
    - destruct (FR (sparse_offsets items)); auto. destruct (sparse_offsets items) eqn:E; auto.
      now destruct (sparse_offsets_some _ _ E OK).
    - destruct (FR (dense_range s vs)); auto. destruct (dense_range s vs) eqn:E; auto.
      now destruct (dense_range_some _ _ _ E OK).
    - destruct (FR (run_range s vs)); auto. destruct vs as [|v vs0] eqn:EV; [exact I|]. rewrite <- EV in *.
      destruct (run_range_some s vs) as (f & E & W & _); [congruence|auto|]. now rewrite E.
    - destruct (remove_range_moves o a b ND) as (_ & B & C). auto.
    - cbn. split; intros; reflexivity || lia.
    - pose proof (slice_exact o m off len R OK) as X. split; intros; lia.
    - tauto.
  Qed.
  Lemma run_est_le : forall h, Forall op_ok h -> o_est (ov_run mem h) <= rec (ov_run mem h).
  Proof.
    intros h OK. assert (G : forall h o m, repr o m -> no_general o -> Forall op_ok h -> o_est o <= rec o ->
      o_est (fold_left (ov_step mem) h o) <= rec (fold_left (ov_step mem) h o)).
    { clear. induction h as [|p h IH]; intros o m R NG OK E; cbn [fold_left]; auto. inversion OK; subst.
      destruct (step_spec mem o m p R NG H1) as (A & B & _). destruct (step_est o m p R H1) as [C _]. eapply IH; eauto. }
    apply (G h ov_new om_empty); auto; [apply repr_new| |reflexivity].
    split; [constructor|]. intros k. discriminate.
  Qed.
  (* no single-cell call hits a single-cell entry while fragments are present *)
  Fixpoint clean (o : overlay) (h : list oop) : Prop :=
    match h with
    | [] => True
    | p :: r => clean_op o p /\ clean (ov_step mem o p) r
    end.
  Lemma run_est_exact : forall h, Forall op_ok h -> clean ov_new h -> o_est (ov_run mem h) = rec (ov_run mem h).
  Proof.
    intros h OK CL. assert (G : forall h o m, repr o m -> no_general o -> Forall op_ok h -> clean o h -> o_est o = rec o ->
      o_est (fold_left (ov_step mem) h o) = rec (fold_left (ov_step mem) h o)).
    { clear. induction h as [|p h IH]; intros o m R NG OK CL E; cbn [fold_left]; auto. inversion OK; subst. destruct CL as [C1 C2].
      destruct (step_spec mem o m p R NG H1) as (A & B & _). destruct (step_est o m p R H1) as [_ C]. eapply IH; eauto. }
    apply (G h ov_new om_empty); auto; [apply repr_new|].
    split; [constructor|]. intros k. discriminate.
  Qed.

  (* two kinds of histories that are clean whatever the offsets *)
  Definition is_cell_op (p : oop) : bool := match p with OSet _ _ | ORemove _ => true | _ => false end.
  Definition is_frag_op (p : oop) : bool := match p with OSparse _ | ODense _ _ | ORun _ _ => true | _ => false end.
  Lemma no_frag_frags : forall o p, is_frag_op p = false -> o_frags o = [] -> o_frags (ov_step mem o p) = [].
  Proof.
    intros o p NF E.
    assert (RS : forall x off, o_frags x = [] -> o_frags (fst (remove_scalar mem x off)) = []).
    { intros x off X. unfold remove_scalar. destruct (pget (o_points x) off); rewrite X; reflexivity. }
    assert (SS : forall x off v, o_frags x = [] -> o_frags (fst (set_scalar mem x off v)) = []).
    { intros x off v X. unfold set_scalar. specialize (RS x off X). destruct (remove_scalar mem x off). exact RS. }
    destruct p as [off v|off|items|s vs|s vs|a b| |off len|off f]; try discriminate; cbn [ov_step]; auto.
    - unfold remove_range. destruct (range_empty a b); auto. destruct (remove_keys _ _). rewrite E. reflexivity.
    - unfold ov_slice. rewrite E. cbn [fold_left].
      assert (A : forall ps out, o_frags out = [] -> o_frags (fold_left (fun out kv => if (off <=? fst kv) && (fst kv <? sat_add off len)
                                       then fst (set_scalar mem out (fst kv - off) (snd kv)) else out) ps out) = []).
      { induction ps as [|kv ps IH]; intros out X; cbn [fold_left]; auto. apply IH. destruct (_ && _); auto. }
      assert (B : forall (fs : list (N * N)) out, o_frags out = [] -> o_frags (fold_left (fun out kv => if (off <=? fst kv) && (fst kv <? sat_add off len)
                             then ov_set_format out (fst kv - off) (Some (snd kv)) else out) fs out) = []).
      { induction fs as [|kv fs IH]; intros out X; cbn [fold_left]; auto. apply IH. destruct (_ && _); auto. }
      apply B, A. reflexivity.
  Qed.
  Lemma clean_no_frags : forall h, forallb (fun p => negb (is_frag_op p)) h = true -> clean ov_new h.
  Proof.
    intros h H. assert (G : forall h o, o_frags o = [] -> forallb (fun p => negb (is_frag_op p)) h = true -> clean o h).
    { clear. induction h as [|p h IH]; intros o E H; cbn; auto. cbn in H. apply andb_true_iff in H. destruct H as [H1 H2]. split.
      - destruct p; cbn; auto.
      - apply IH; auto. apply no_frag_frags; auto. now destruct (is_frag_op p). }
    now apply G.
  Qed.
  Lemma clean_no_cells : forall h o, forallb (fun p => negb (is_cell_op p)) h = true -> clean o h.
  Proof.
    induction h as [|p h IH]; intros o H; cbn; auto. cbn in H. apply andb_true_iff in H. destruct H as [H1 H2]. split; auto.
    destruct p; cbn in *; auto; discriminate.
  Qed.
End Mem.

Lemma runs_ends_le : forall ends vs prev len cur, runs_ok prev len cur ends vs -> forall e, In e ends -> e <= len.
Proof.
  induction ends as [|x ends IH]; intros [|v vs] prev len cur H e I; cbn in H; try tauto; [destruct I|].
  destruct H as (A & _ & B). destruct I as [-> | I]; eauto. now apply runs_ok_le in B.
Qed.
Lemma wf_fits : forall f, wf f -> fits_u32 f.
Proof.
  intros f W. destruct W as [offs vs NE SO B L|s vs V W|s len ends vs R W]; cbn; auto.
  split; auto. eapply runs_ends_le; eauto.
Qed.
Lemma run_fits : forall mem h, Forall op_ok h -> Forall fits_u32 (o_frags (ov_run mem h)).
Proof.
  intros mem h OK. destruct (run_spec mem h OK) as ((_ & mf & (W & _) & _) & _).
  eapply Forall_impl; [|exact W]. apply wf_fits.
Qed.

(* ---- settling ---- *)
Lemma ov_eqb_same : forall a b, ov_eqb a b = true -> same_ov a b.
Proof.
  assert (F : forall x y, f64_eqb x y = true -> same_f64 x y).
  { intros x y H. unfold f64_eqb in H. unfold same_f64. destruct (x =? y) eqn:E; [left; lia|right].
    rewrite orb_false_l in H. apply andb_true_iff in H. destruct H as [_ H]. apply andb_true_iff in H. auto. }
  intros a b H. destruct a, b; cbn in *; try discriminate; auto.
  - apply Bool.eqb_prop in H. now subst.
  - apply text_eqb_spec in H. now subst.
  - apply N.eqb_eq in H. now subst.
Qed.
Lemma same_ov_refl : forall a, same_ov a a.
Proof. intros a. destruct a; cbn; unfold same_f64; auto. Qed.
Lemma settle_same : forall vs, Forall2 same_ov (settle vs) vs.
Proof.
  intros [|v vs]; cbn; constructor; [apply same_ov_refl|]. revert v.
  induction vs as [|w vs IH]; intros v; cbn; [constructor|]. destruct (ov_eqb w v) eqn:E.
  - constructor; auto. rewrite ov_eqb_sym in E. now apply ov_eqb_same.
  - constructor; auto. apply same_ov_refl.
Qed.
Lemma settle_id : forall vs, (forall a b, In a vs -> In b vs -> ov_eqb a b = true -> a = b) -> settle vs = vs.
Proof.
  intros [|v vs] H; cbn; auto. f_equal. revert v H. induction vs as [|w vs IH]; intros v H; cbn; auto.
  destruct (ov_eqb w v) eqn:E.
  - assert (w = v) by (apply H; cbn; auto). subst. f_equal. apply IH. intros a b A B. apply H; cbn in *; tauto.
  - f_equal. apply IH. intros a b A B. apply H; cbn in *; tauto.
Qed.
