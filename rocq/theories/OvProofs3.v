(* Overlays: cutting fragments. *)
From Coq Require Import List Bool NArith ZArith Lia.
From Coq Require Import ZifyN ZifyNat ZifyBool.
From Verif Require Import Base Maps OvModel OvSpec OvProofs OvProofs2.
Import ListNotations.
Open Scope N_scope.

Definition disj (f g : frag) : Prop := forall off, frag_get f off = None \/ frag_get g off = None.
(* [rs] are well-formed, pairwise disjoint, and together are the map [m] *)
Definition parts (rs : list frag) (m : omap) : Prop :=
  Forall wf rs /\ ForallOrdPairs disj rs /\
  forall off v, (exists r, In r rs /\ frag_get r off = Some v) <-> m off = Some v.

Lemma parts_ext : forall rs m m', parts rs m -> (forall off, m off = m' off) -> parts rs m'.
Proof. intros rs m m' (A & B & C) E. split; auto. split; auto. intros off v. now rewrite <- E. Qed.
Lemma parts_nil : forall m, (forall off, m off = None) -> parts [] m.
Proof.
  intros m H. split; [constructor|]. split; [constructor|]. intros off v. rewrite H. split; [|discriminate].
  intros (r & [] & _).
Qed.
Lemma parts_one : forall f, wf f -> parts [f] (frag_get f).
Proof.
  intros f W. split; [auto|]. split; [repeat constructor|]. intros off v. split.
  - intros (r & [<- | []] & H). auto.
  - intros H. exists f. cbn. auto.
Qed.
Lemma parts_none : forall rs m off, parts rs m -> m off = None -> forall r, In r rs -> frag_get r off = None.
Proof.
  intros rs m off (_ & _ & C) H r I. destruct (frag_get r off) as [v|] eqn:E; auto. exfalso.
  assert (m off = Some v) by (apply C; eauto). congruence.
Qed.
Lemma ordpairs_app : forall A (R : A -> A -> Prop) a b,
  ForallOrdPairs R a -> ForallOrdPairs R b -> (forall x y, In x a -> In y b -> R x y) -> ForallOrdPairs R (a ++ b).
Proof.
  intros A R. induction a as [|x a IH]; intros b HA HB H; cbn; auto. inversion HA; subst. constructor.
  - apply Forall_app. split; auto. apply Forall_forall. intros y I. apply H; cbn; auto.
  - apply IH; auto. intros y z I J. apply H; cbn; auto.
Qed.
Lemma parts_app : forall a b ma mb, parts a ma -> parts b mb ->
  (forall off, ma off = None \/ mb off = None) -> parts (a ++ b) (om_over ma mb).
Proof.
  intros a b ma mb PA PB D. pose proof PA as (A1 & A2 & A3). pose proof PB as (B1 & B2 & B3). split; [|split].
  - apply Forall_app. auto.
  - apply ordpairs_app; auto. intros x y I J off. destruct (D off) as [X | X].
    + left. eapply parts_none; [exact PA|exact X|exact I].
    + right. eapply parts_none; [exact PB|exact X|exact J].
  - intros off v. unfold om_over. split.
    + intros (r & I & H). apply in_app_iff in I. destruct I as [I | I].
      * assert (E : ma off = Some v) by (apply A3; eauto). now rewrite E.
      * assert (E : mb off = Some v) by (apply B3; eauto). destruct (D off) as [X | X]; [now rewrite X|congruence].
    + intros H. destruct (ma off) as [w|] eqn:E.
      * injection H as ->. apply A3 in E. destruct E as (r & I & G). exists r. rewrite in_app_iff. auto.
      * apply B3 in H. destruct H as (r & I & G). exists r. rewrite in_app_iff. auto.
Qed.
(* the value found by walking the fragments from the last one back *)
Lemma find_map_spec : forall rs m off, parts rs m -> find_map (fun f => frag_get f off) (rev rs) = m off.
Proof.
  intros rs m off (_ & B & C).
  assert (G : forall l, ForallOrdPairs disj l ->
    match find_map (fun f => frag_get f off) l with
    | Some v => exists r, In r l /\ frag_get r off = Some v
    | None => forall r, In r l -> frag_get r off = None end).
  { induction l as [|f l IH]; intros H; cbn; [tauto|]. inversion H; subst. destruct (frag_get f off) eqn:E.
    - exists f. auto.
    - specialize (IH H3). destruct (find_map _ l).
      + destruct IH as (r & I & J). exists r. auto.
      + intros r [-> | I]; auto. }
  assert (R : ForallOrdPairs disj (rev rs)).
  { clear C G. induction rs as [|f rs IH]; cbn; [constructor|]. inversion B; subst.
    apply ordpairs_app; auto; [repeat constructor|]. intros x y I [<- | []] o.
    rewrite <- in_rev in I. rewrite Forall_forall in H1. destruct (H1 x I o); auto. }
  specialize (G _ R). destruct (find_map _ (rev rs)) as [v|] eqn:E.
  - symmetry. apply C. destruct G as (r & I & J). rewrite <- in_rev in I. eauto.
  - destruct (m off) as [v|] eqn:M; auto. exfalso. apply C in M. destruct M as (r & I & J).
    rewrite G in J; [discriminate|]. now rewrite <- in_rev.
Qed.
Lemma parts_self : forall rs, Forall wf rs -> ForallOrdPairs disj rs ->
  parts rs (fun off => find_map (fun f => frag_get f off) rs).
Proof.
  intros rs W D. split; auto. split; auto. intros off v. split.
  - intros (r & I & H). induction rs as [|f rs IH]; [destruct I|]. cbn. inversion D; subst. inversion W; subst.
    destruct I as [-> | I]; [now rewrite H|]. rewrite Forall_forall in H2. destruct (H2 r I off) as [X | X]; [|congruence].
    rewrite X. auto.
  - intros H. induction rs as [|f rs IH]; cbn in H; [discriminate|]. inversion D; subst. inversion W; subst.
    destruct (frag_get f off) eqn:E.
    + exists f. cbn. split; auto. congruence.
    + destruct (IH H5 H3 H) as (r & I & J). exists r. cbn. auto.
Qed.

Lemma parts_of_cells : forall items m,
  (forall o v, In (o, v) items <-> m o = Some v) -> (forall o v, In (o, v) items -> o < MAX_OFF) ->
  parts (opt_list (sparse_offsets items)) m.
Proof.
  intros items m H B. destruct (sparse_offsets items) as [f|] eqn:E; cbn [opt_list].
  - destruct (sparse_offsets_some _ _ E B) as [W G]. apply parts_ext with (frag_get f); [now apply parts_one|].
    intros off. rewrite G. destruct (last_of off items) as [v|] eqn:L.
    + symmetry. apply H. now apply last_of_in.
    + destruct (m off) as [v|] eqn:M; auto. apply H in M. apply last_of_none in L. exfalso. apply L.
      change off with (fst (off, v)). now apply in_map.
  - apply sparse_offsets_none in E. subst. apply parts_nil. intros off. destruct (m off) as [v|] eqn:M; auto.
    apply H in M. destruct M.
Qed.

(* ---- cells ---- *)
Lemma sparse_cells_in : forall offs (vs : list ov) o v, incr 0 offs -> length vs = length offs ->
  (exists i, nthN offs i = Some o /\ nthN vs i = Some v) <-> mget N.eqb (combine offs vs) o = Some v.
Proof.
  intros offs vs o v SO L. rewrite mget_combine_nth by auto. split.
  - intros (i & A & B). unfold nthN in A. rewrite (search_from_at offs 0 (N.to_nat i) o).
    + now replace (0 + N.of_nat (N.to_nat i)) with i by lia.
    + eapply incr_NoDup; eauto.
    + auto.
  - destruct (search_from 0 offs o) as [i|] eqn:E; [|discriminate]. intros H. exists i.
    apply search_from_some in E. destruct E as [_ E]. rewrite N.sub_0_r in E. split; auto.
Qed.
Lemma frag_cells_in : forall f, wf f -> forall o v, In (o, v) (frag_cells f) <-> frag_get f o = Some v.
Proof.
  intros f W o v. destruct W as [offs vs NE SO B L|s vs V W|s len ends vs R W].
  - rewrite get_sparse by auto. rewrite <- sparse_cells_in by auto. cbn. rewrite filter_map_in. split.
    + intros ([i o'] & I & E). apply enumerate_in in I. rewrite from_values_get in E.
      destruct (nthN vs i) as [w|] eqn:X; cbn in E; [|discriminate]. injection E as -> ->. eauto.
    + intros (i & A & C). exists (i, o). rewrite enumerate_in, from_values_get, C. auto.
  - assert (SA : forall i, i < lenN vs -> sat_add s i = s + i).
    { intros i H. unfold sat_add, MAX_OFF, U32_MAX, USIZE_MAX in *. lia. }
    rewrite get_dense. cbn. rewrite filter_map_in. unfold om_block. split.
    + intros (i & I & E). apply rangeN_spec in I. rewrite from_values_get in E. unfold nthN in E.
      rewrite SA in E by lia. destruct (nth_error vs (N.to_nat i)) eqn:X; cbn in E; [|discriminate]. injection E as <- <-.
      replace (s + i <? s) with false by lia. now replace (s + i - s) with i by lia.
    + destruct (o <? s) eqn:E; [discriminate|]. intros H. exists (o - s). rewrite rangeN_spec, from_values_get.
      assert (X : (N.to_nat (o - s) < length vs)%nat) by (apply nth_error_Some; congruence).
      rewrite SA by (unfold lenN; lia). unfold nthN. rewrite H. cbn. split; [unfold lenN; lia|]. f_equal. f_equal. lia.
  - assert (SA : forall i, i < len -> sat_add s i = s + i).
    { intros i H. unfold sat_add, MAX_OFF, U32_MAX, USIZE_MAX in *. lia. }
    change (frag_cells (Run s len ends (from_values vs))) with
      (filter_map (fun i => option_map (fun v => (sat_add s i, v)) (frag_get (Run s len ends (from_values vs)) (sat_add s i))) (rangeN 0 len)).
    rewrite filter_map_in. split.
    + intros (i & I & E). apply rangeN_spec in I. rewrite SA in E by lia.
      destruct (frag_get _ (s + i)) eqn:X; cbn in E; [|discriminate]. injection E as <- <-. auto.
    + intros H. rewrite get_run in H by auto. destruct (o <? s) eqn:E; [discriminate|].
      assert (X : o - s < len).
      { destruct (N.lt_ge_cases (o - s) len) as [X|X]; auto. rewrite (run_at_none _ _ _ _ _ _ R X) in H. discriminate. }
      exists (o - s). rewrite rangeN_spec, SA by auto. replace (s + (o - s)) with o by lia.
      rewrite get_run by auto. rewrite E, H. cbn. split; auto. lia.
Qed.
Lemma get_bound : forall f o v, wf f -> frag_get f o = Some v -> o < MAX_OFF.
Proof.
  intros f o v W H. destruct (wf_cases f W) as [(offs & p & ->) | (s & e & I & A & B)].
  - inversion W as [offs' vs NE SO B L E1| |]; subst. rewrite get_sparse in H by auto. apply B.
    rewrite mget_combine_nth in H by auto. destruct (search_from 0 offs o) eqn:E; [|discriminate].
    apply search_from_some in E. destruct E as [_ E]. now apply nth_error_In in E.
  - destruct (N.lt_ge_cases o e) as [X|X]; [lia|]. destruct (interval_get f s e W I o) as [_ G]. rewrite G in H by auto. discriminate.
Qed.
Lemma from_values_inj : forall a b, from_values a = from_values b -> a = b.
Proof.
  intros a b E. assert (G : forall i, nth_error a i = nth_error b i).
  { intros i. pose proof (from_values_get a (N.of_nat i)) as A. pose proof (from_values_get b (N.of_nat i)) as B.
    rewrite E, B in A. unfold nthN in A. replace (N.to_nat (N.of_nat i)) with i in A by lia. congruence. }
  clear E. revert b G. induction a as [|x a IH]; intros [|y b] G; auto; [specialize (G 0%nat); discriminate|specialize (G 0%nat); discriminate|].
  pose proof (G 0%nat) as G0. cbn in G0. injection G0 as ->. f_equal. apply IH. intros i. apply (G (S i)).
Qed.
Lemma wf_sparse_inv : forall offs vs, wf (Sparse offs (from_values vs)) ->
  offs <> [] /\ incr 0 offs /\ (forall o, In o offs -> o < MAX_OFF) /\ length vs = length offs.
Proof.
  intros offs vs W. remember (Sparse offs (from_values vs)) as f eqn:F. destruct W as [offs' vs' NE SO B L'| |]; try discriminate.
  assert (E1 : offs' = offs) by congruence. assert (E2 : from_values vs' = from_values vs) by congruence.
  apply from_values_inj in E2. subst. auto.
Qed.
Lemma sparse_get_some : forall offs vs, wf (Sparse offs (from_values vs)) -> length vs = length offs ->
  forall o, (exists v, frag_get (Sparse offs (from_values vs)) o = Some v) <-> In o offs.
Proof.
  intros offs vs W L o. destruct (wf_sparse_inv _ _ W) as (NE & SO & B & L').
  rewrite get_sparse by auto. rewrite mget_combine_nth by auto. split.
  - intros (v & H). destruct (search_from 0 offs o) eqn:E; [|discriminate].
    apply search_from_some in E. destruct E as [_ E]. now apply nth_error_In in E.
  - intros I. destruct (search_from 0 offs o) as [i|] eqn:E.
    + apply search_from_some in E. destruct E as [_ E]. rewrite N.sub_0_r in E. unfold nthN.
      destruct (nth_error vs (N.to_nat i)) eqn:X; eauto. apply nth_error_None in X.
      assert (N.to_nat i < length offs)%nat by (apply nth_error_Some; congruence). lia.
    + apply search_from_none in E. contradiction.
Qed.

Definition cut_by (keep : N -> bool) (m : omap) : omap := fun off => if keep off then m off else None.

(* removing offsets from a sparse fragment *)
Lemma sparse_drop : forall offs vs (drop : N -> bool), wf (Sparse offs (from_values vs)) -> length vs = length offs ->
  parts (opt_list (sparse_offsets
          (filter_map (fun '(i, o) => if drop o then None
                                       else option_map (fun v => (o, v)) (overlay_value (from_values vs) i))
                      (enumerate offs))))
        (cut_by (fun o => negb (drop o)) (frag_get (Sparse offs (from_values vs)))).
Proof.
  intros offs vs drop W L. pose proof W as W'. destruct (wf_sparse_inv _ _ W) as (NE & SO & B & L').
  assert (H : forall o v, In (o, v) (filter_map (fun '(i, o) => if drop o then None
                                       else option_map (fun v => (o, v)) (overlay_value (from_values vs) i))
                      (enumerate offs)) <-> cut_by (fun o => negb (drop o)) (frag_get (Sparse offs (from_values vs))) o = Some v).
  { intros o v. unfold cut_by. rewrite filter_map_in. split.
    - intros ([i o'] & I & X). apply enumerate_in in I. destruct (drop o') eqn:D; [discriminate|].
      rewrite from_values_get in X. destruct (nthN vs i) as [w|] eqn:Y; cbn in X; [|discriminate]. injection X as -> ->.
      rewrite D. cbn [negb]. rewrite get_sparse by auto. apply sparse_cells_in; eauto.
    - destruct (drop o) eqn:D; cbn [negb]; [discriminate|]. rewrite get_sparse by auto. intros X.
      apply sparse_cells_in in X; auto. destruct X as (i & X & Y). exists (i, o).
      rewrite enumerate_in, D, from_values_get, Y. auto. }
  apply parts_of_cells; auto. intros o v I. apply H in I. unfold cut_by in I.
  destruct (negb (drop o)); [|discriminate]. eapply get_bound; eauto.
Qed.

(* ---- holes ---- *)
Lemma incr_app_r : forall a b lo, incr lo (a ++ b) -> incr lo b.
Proof.
  induction a as [|x a IH]; cbn; intros b lo H; auto. destruct H as [A B]. apply IH in B.
  apply incr_le with (x + 1); auto. lia.
Qed.
Lemma suffix_spec : forall offs a, incr 0 offs -> (forall o, In o offs -> o < MAX_OFF) ->
  let t := skipn (N.to_nat (partition_point (fun o => o <? u32_clamp a) offs)) offs in
  incr a t /\ forall o, In o t <-> In o offs /\ a <= o.
Proof.
  intros offs a SO B. destruct (pp_split N (fun o => o <? u32_clamp a) offs) as (x & y & E & L & F & G).
  cbn zeta. rewrite <- L. replace (N.to_nat (N.of_nat (length x))) with (length x) by lia.
  assert (SK : skipn (length x) offs = y) by (rewrite E, skipn_app, skipn_all, Nat.sub_diag; reflexivity).
  rewrite SK. clear SK.
  assert (SO' : incr 0 y) by (apply incr_app_r with x; congruence).
  assert (X : incr a y).
  { destruct y as [|h y]; cbn; auto. cbn in SO'. split; [|tauto].
    assert (h < MAX_OFF) by (apply B; rewrite E, in_app_iff; cbn; auto).
    unfold u32_clamp, MAX_OFF in *. destruct (a <=? U32_MAX) eqn:C; lia. }
  split; auto. intros o. rewrite E, in_app_iff. split.
  - intros I. split; auto. eapply incr_in; eauto.
  - intros [[I | I] H]; auto. rewrite Forall_forall in F. specialize (F o I). cbn in F.
    assert (o < MAX_OFF) by (apply B; rewrite E, in_app_iff; auto).
    unfold u32_clamp, MAX_OFF in *. destruct (a <=? U32_MAX) eqn:C; lia.
Qed.
Lemma holes_loop_spec : forall t b lo last, incr lo t ->
  match last with Some l => l < lo | None => True end ->
  incr lo (holes_loop b last t) /\ forall o, In o (holes_loop b last t) <-> In o t /\ o < b.
Proof.
  induction t as [|x t IH]; intros b lo last SO HL; cbn [holes_loop incr]; [cbn; intuition|].
  cbn in SO. destruct SO as [S1 S2]. destruct (b <=? x) eqn:E1.
  - cbn. split; auto. intros o. split; [tauto|]. intros [[-> | I] H]; [lia|]. pose proof (incr_in _ _ _ S2 I). lia.
  - replace (match last with Some l => l =? x | None => false end) with false by (destruct last; lia).
    destruct (IH b (x + 1) (Some x)) as [A B]; auto; [lia|]. cbn. split; auto. intros o. rewrite B.
    split; [intros [-> | H]; split; auto; try tauto; lia|]. intros [[-> | I] H]; auto.
Qed.
Lemma sparse_holes_spec : forall offs a b, incr 0 offs -> (forall o, In o offs -> o < MAX_OFF) ->
  incr a (sparse_holes offs a b) /\ forall o, In o (sparse_holes offs a b) <-> In o offs /\ a <= o /\ o < b.
Proof.
  intros offs a b SO B. unfold sparse_holes, range_empty. destruct (b <=? a) eqn:E.
  - cbn. split; auto. intros o. split; [tauto|lia].
  - destruct (suffix_spec offs a SO B) as [X Y]. destruct (holes_loop_spec _ b a None X I) as [P Q].
    split; auto. intros o. rewrite Q, Y. tauto.
Qed.
Lemma sparse_hits_spec : forall offs a b, incr 0 offs -> (forall o, In o offs -> o < MAX_OFF) ->
  sparse_hits offs a b = true <-> exists o, In o offs /\ a <= o /\ o < b.
Proof.
  intros offs a b SO B. destruct (suffix_spec offs a SO B) as [X Y]. unfold sparse_hits, nthN.
  set (n := N.to_nat (partition_point (fun o => o <? u32_clamp a) offs)) in *.
  replace (nth_error offs n) with (nth_error (skipn n offs) 0) by (rewrite nth_error_skipn; f_equal; lia).
  destruct (skipn n offs) as [|h t]; cbn [nth_error].
  - split; [discriminate|]. intros (o & I & H1 & H2). destruct (proj2 (Y o)); auto.
  - cbn in X. split.
    + intros H. exists h. destruct (proj1 (Y h)) as [I J]; cbn; auto. split; auto. lia.
    + intros (o & I & H1 & H2). destruct (proj2 (Y o)) as [-> | J]; auto; [lia|].
      destruct X as [_ X]. pose proof (incr_in _ _ _ X J). lia.
Qed.

(* ---- subtraction ---- *)
Lemma split_at_holes_parts : forall f s e, wf f -> interval f s e ->
  forall holes seg, s <= seg -> seg <= e -> incr seg holes -> (forall h, In h holes -> h < e) ->
  parts (split_at_holes f seg e holes)
        (cut_by (fun o => (seg <=? o) && negb (is_some (binary_search holes o))) (frag_get f)).
Proof.
  intros f s e W I. pose proof (coverage_bounds f s e W I) as (C1 & C2 & C3).
  assert (PIECE : forall a b, s <= a -> b <= e ->
    parts (if a <? b then opt_list (segment f a a b) else []) (cut_by (fun o => (a <=? o) && (o <? b)) (frag_get f))).
  { intros a b HA HB. destruct (a <? b) eqn:E.
    - destruct (segment_spec f s e a a b W I) as (g & G1 & G2 & G3 & G4); auto; try lia.
      rewrite G1. cbn [opt_list]. apply parts_ext with (frag_get g); [now apply parts_one|].
      intros off. rewrite G4. unfold cut_by. replace (a + (b - a)) with b by lia.
      destruct (a <=? off) eqn:E1; cbn [andb]; auto. destruct (off <? b); auto. f_equal. lia.
    - apply parts_nil. intros off. unfold cut_by. now replace ((a <=? off) && (off <? b)) with false by lia. }
  induction holes as [|h holes IH]; intros seg HS HE SO B; cbn [split_at_holes].
  - apply parts_ext with (cut_by (fun o => (seg <=? o) && (o <? e)) (frag_get f)); [apply PIECE; lia|].
    intros off. unfold cut_by. cbn. rewrite andb_true_r. destruct (seg <=? off) eqn:E1; cbn [andb]; auto.
    destruct (off <? e) eqn:E2; auto. symmetry. apply (interval_get f s e W I off). lia.
  - cbn [incr] in SO. destruct SO as [S1 S2]. assert (h < e) by (apply B; cbn; auto).
    replace (sat_add h 1) with (h + 1) by (unfold sat_add, MAX_OFF, U32_MAX, USIZE_MAX in *; lia).
    eapply parts_ext; [apply parts_app; [apply PIECE; lia|apply IH; auto; try lia; intros; apply B; cbn; auto|]|].
    + intros off. unfold cut_by. destruct (N.lt_ge_cases off h).
      * right. now replace (h + 1 <=? off) with false by lia.
      * left. now replace (off <? h) with false by lia; rewrite andb_false_r.
    + intros off. unfold om_over, cut_by. destruct (N.lt_ge_cases off h) as [LT|GE].
      * replace (off <? h) with true by lia. replace (h + 1 <=? off) with false by lia. cbn [andb].
        replace (is_some (binary_search (h :: holes) off)) with false.
        2:{ symmetry. apply not_true_is_false. rewrite binary_search_is_some. intros [-> | J]; [lia|].
            pose proof (incr_in _ _ _ S2 J). lia. }
        rewrite !andb_true_r. destruct (seg <=? off); auto. destruct (frag_get f off); auto.
      * replace (off <? h) with false by lia. rewrite andb_false_r.
        replace (is_some (binary_search (h :: holes) off)) with ((off =? h) || is_some (binary_search holes off)).
        2:{ apply eq_true_iff_eq. rewrite orb_true_iff, !binary_search_is_some, N.eqb_eq. cbn. intuition. }
        destruct (off =? h) eqn:E; cbn [orb negb].
        -- rewrite andb_false_r. now replace (h + 1 <=? off) with false by lia.
        -- replace (h + 1 <=? off) with true by lia. replace (seg <=? off) with true by lia. reflexivity.
Qed.

Lemma subtract_sparse_parts : forall f offs, wf f -> incr 0 offs -> (forall o, In o offs -> o < MAX_OFF) ->
  parts (subtract_sparse f offs) (cut_by (fun o => negb (is_some (binary_search offs o))) (frag_get f)).
Proof.
  intros f offs W SO B. unfold subtract_sparse. destruct offs as [|o0 offs0] eqn:EO.
  { apply parts_ext with (frag_get f); [now apply parts_one|]. intros off. reflexivity. }
  rewrite <- EO in *. clear EO o0 offs0.
  destruct (wf_cases f W) as [(own & p & ->) | (s & e & I & A & C)].
  - inversion W; subst. now apply sparse_drop.
  - assert (IC : interval_coverage f = Some (s, e)) by exact I.
    replace (match f with
             | Sparse own p => opt_list (sparse_offsets (filter_map (fun '(i, o) =>
                 if is_some (binary_search offs o) then None else option_map (fun v => (o, v)) (overlay_value p i)) (enumerate own)))
             | Dense _ _ _ | Run _ _ _ _ =>
                match interval_coverage f with
                | Some (s0, e0) => match sparse_holes offs s0 e0 with [] => [f]
                   | _ :: _ => if MAX_SPLIT <? lenN (sparse_holes offs s0 e0) + 1 then sparse_remainder f (sparse_holes offs s0 e0)
                               else split_at_holes f s0 e0 (sparse_holes offs s0 e0) end
                | None => [f] end end)
      with (match sparse_holes offs s e with [] => [f]
            | _ :: _ => if MAX_SPLIT <? lenN (sparse_holes offs s e) + 1 then sparse_remainder f (sparse_holes offs s e)
                        else split_at_holes f s e (sparse_holes offs s e) end).
    2:{ destruct f; [discriminate| |]; rewrite IC; reflexivity. }
    destruct (sparse_holes_spec offs s e SO B) as [H1 H2].
    assert (EQ : forall off v, frag_get f off = Some v ->
              is_some (binary_search offs off) = is_some (binary_search (sparse_holes offs s e) off)).
    { intros off v G. apply eq_true_iff_eq. rewrite !binary_search_is_some, H2. split; [|tauto]. intros J.
      destruct (N.lt_ge_cases off s) as [X|X]; [exfalso|split; auto; split; auto].
      - destruct (interval_get f s e W I off) as [_ Y]. rewrite Y in G by auto. discriminate.
      - destruct (N.lt_ge_cases off e) as [Y|Y]; auto. destruct (interval_get f s e W I off) as [_ Z].
        rewrite Z in G by auto. discriminate. }
    assert (EXT : forall off, cut_by (fun o => negb (is_some (binary_search (sparse_holes offs s e) o))) (frag_get f) off
                    = cut_by (fun o => negb (is_some (binary_search offs o))) (frag_get f) off).
    { intros off. unfold cut_by. destruct (frag_get f off) as [v|] eqn:G.
      - now rewrite (EQ off v G).
      - destruct (negb _), (negb _); reflexivity. }
    destruct (sparse_holes offs s e) as [|h hs] eqn:EH.
    + eapply parts_ext; [apply parts_one; auto|]. intros off. rewrite <- EXT. reflexivity.
    + rewrite <- EH in *. clear EH h hs. destruct (MAX_SPLIT <? lenN (sparse_holes offs s e) + 1) eqn:EM.
      * eapply parts_ext; [|exact EXT]. unfold sparse_remainder.
        assert (IN : forall o v, In (o, v) (filter (fun c => negb (is_some (binary_search (sparse_holes offs s e) (fst c)))) (frag_cells f))
                     <-> cut_by (fun o => negb (is_some (binary_search (sparse_holes offs s e) o))) (frag_get f) o = Some v).
        { intros o v. rewrite filter_In, frag_cells_in by auto. unfold cut_by. cbn [fst].
          destruct (negb _); [tauto|]. split; [intros [_ X]; discriminate|discriminate]. }
        apply parts_of_cells; auto. intros o v J. apply IN in J. unfold cut_by in J.
        destruct (negb _); [|discriminate]. eapply get_bound; eauto.
      * eapply parts_ext; [apply (split_at_holes_parts f s e W I (sparse_holes offs s e) s); auto; try lia; intros h J; apply H2 in J; tauto|].
        intros off. rewrite <- EXT. unfold cut_by. destruct (s <=? off) eqn:E; cbn [andb]; auto.
        destruct (interval_get f s e W I off) as [_ Z]. rewrite Z by lia. now destruct (negb _).
Qed.

Lemma subtract_interval_parts : forall f a b, wf f ->
  parts (subtract_interval f a b) (cut_by (fun o => negb (range_contains a b o)) (frag_get f)).
Proof.
  intros f a b W. unfold subtract_interval, range_empty. destruct (b <=? a) eqn:EB.
  { apply parts_ext with (frag_get f); [now apply parts_one|]. intros off. unfold cut_by, range_contains.
    now replace ((a <=? off) && (off <? b)) with false by lia. }
  destruct (wf_cases f W) as [(own & p & ->) | (s & e & I & A & C)].
  - inversion W; subst. now apply sparse_drop.
  - assert (IC : interval_coverage f = Some (s, e)) by exact I.
    replace (match f with
             | Sparse own p => opt_list (sparse_offsets (filter_map (fun '(i, o) =>
                 if range_contains a b o then None else option_map (fun v => (o, v)) (overlay_value p i)) (enumerate own)))
             | Dense _ _ _ | Run _ _ _ _ =>
                match interval_coverage f with
                | Some (s0, e0) => if (e0 <=? a) || (b <=? s0) then [f] else
                    (if s0 <? N.max a s0 then opt_list (segment f s0 s0 (N.max a s0)) else [])
                    ++ (if N.min b e0 <? e0 then opt_list (segment f (N.min b e0) (N.min b e0) e0) else [])
                | None => [f] end end)
      with (if (e <=? a) || (b <=? s) then [f] else
             (if s <? N.max a s then opt_list (segment f s s (N.max a s)) else [])
             ++ (if N.min b e <? e then opt_list (segment f (N.min b e) (N.min b e) e) else [])).
    2:{ destruct f; [discriminate| |]; rewrite IC; reflexivity. }
    assert (OUT : forall off, off < s \/ e <= off -> frag_get f off = None) by (intros off; apply (interval_get f s e W I off)).
    destruct ((e <=? a) || (b <=? s)) eqn:E1.
    { apply parts_ext with (frag_get f); [now apply parts_one|]. intros off. unfold cut_by, range_contains.
      destruct ((a <=? off) && (off <? b)) eqn:E2; cbn [negb]; auto. apply OUT. lia. }
    assert (PIECE : forall x y, s <= x -> y <= e ->
      parts (if x <? y then opt_list (segment f x x y) else []) (cut_by (fun o => (x <=? o) && (o <? y)) (frag_get f))).
    { intros x y HX HY. destruct (x <? y) eqn:E.
      - destruct (segment_spec f s e x x y W I) as (g & G1 & G2 & G3 & G4); auto; try lia.
        rewrite G1. cbn [opt_list]. apply parts_ext with (frag_get g); [now apply parts_one|].
        intros off. rewrite G4. unfold cut_by. replace (x + (y - x)) with y by lia.
        destruct (x <=? off) eqn:E3; cbn [andb]; auto. destruct (off <? y); auto. f_equal. lia.
      - apply parts_nil. intros off. unfold cut_by. now replace ((x <=? off) && (off <? y)) with false by lia. }
    eapply parts_ext; [apply parts_app; [apply PIECE; lia|apply PIECE; lia|]|].
    + intros off. unfold cut_by. destruct (N.lt_ge_cases off (N.max a s)).
      * right. now replace (N.min b e <=? off) with false by lia.
      * left. now replace (off <? N.max a s) with false by lia; rewrite andb_false_r.
    + intros off. unfold om_over, cut_by, range_contains.
      destruct (N.lt_ge_cases off s) as [LT|GE]; [rewrite (OUT off) by auto; now destruct (_ && _), (_ && _), (negb _)|].
      destruct (N.lt_ge_cases off e) as [LT|GE2]; [|rewrite (OUT off) by auto; now destruct (_ && _), (_ && _), (negb _)].
      destruct (off <? N.max a s) eqn:E2.
      * replace ((s <=? off) && true) with true by lia. replace ((a <=? off) && (off <? b)) with false by lia. cbn [negb].
        replace ((N.min b e <=? off) && (off <? e)) with false by lia. destruct (frag_get f off); auto.
      * rewrite andb_false_r. replace ((N.min b e <=? off) && (off <? e)) with (negb ((a <=? off) && (off <? b))) by lia.
        reflexivity.
Qed.

Lemma subtract_offset_parts : forall f off, wf f ->
  parts (subtract_offset f off) (cut_by (fun o => negb (o =? off)) (frag_get f)).
Proof.
  intros f off W. destruct (wf_cases f W) as [(own & p & ->) | (s & e & I & A & C)].
  - cbn [subtract_offset]. destruct (off <=? U32_MAX) eqn:E.
    + destruct (N.eq_dec off U32_MAX) as [-> | NE].
      * (* the offset u32::MAX is never stored *)
        inversion W as [offs' vs NE SO B L E1| |]; subst.
        eapply parts_ext; [unfold subtract_sparse; now apply sparse_drop|].
        intros o. unfold cut_by. destruct (o =? U32_MAX) eqn:EE.
        -- apply N.eqb_eq in EE. subst. cbn. reflexivity.
        -- cbn. now rewrite EE.
      * eapply parts_ext; [apply subtract_sparse_parts; auto|].
        -- cbn. split; [lia|auto].
        -- intros o [<- | []]. unfold MAX_OFF. lia.
        -- intros o. unfold cut_by. cbn. destruct (o =? off); reflexivity.
    + apply parts_ext with (frag_get (Sparse own p)); [now apply parts_one|]. intros o. unfold cut_by.
      destruct (o =? off) eqn:EE; cbn [negb]; auto. apply N.eqb_eq in EE. subst.
      destruct (frag_get (Sparse own p) off) eqn:G; auto. apply get_bound in G; auto. unfold MAX_OFF in G. lia.
  - replace (subtract_offset f off) with (subtract_interval f off (sat_add off 1)).
    2:{ destruct f; [discriminate| |]; reflexivity. }
    eapply parts_ext; [now apply subtract_interval_parts|]. intros o. unfold cut_by, range_contains.
    destruct (o =? off) eqn:E; cbn [negb].
    + apply N.eqb_eq in E. subst. destruct (N.lt_ge_cases off MAX_OFF) as [X|X].
      * replace ((off <=? off) && (off <? sat_add off 1)) with true; auto.
        unfold sat_add, MAX_OFF, U32_MAX, USIZE_MAX in *. lia.
      * destruct (frag_get f off) eqn:G; [apply get_bound in G; auto; lia|]. now destruct (negb _).
    + replace ((off <=? o) && (o <? sat_add off 1)) with false; auto.
      unfold sat_add. lia.
Qed.

Lemma covered_offsets : forall offs p off, wf (Sparse offs p) ->
  is_some (binary_search offs off) = is_some (frag_get (Sparse offs p) off).
Proof.
  intros offs p off W. inversion W as [offs' vs NE SO B L E1| |]; subst.
  apply eq_true_iff_eq. rewrite binary_search_is_some, <- (sparse_get_some offs vs) by auto.
  destruct (frag_get _ off); cbn; split; eauto; [intros (v & X); discriminate|discriminate].
Qed.
Lemma covered_interval : forall f s e off, wf f -> interval f s e ->
  range_contains s e off = is_some (frag_get f off).
Proof.
  intros f s e off W I. destruct (interval_get f s e W I off) as [A B]. unfold range_contains.
  destruct ((s <=? off) && (off <? e)) eqn:E.
  - destruct A as (v & ->); [lia|reflexivity].
  - rewrite B; [reflexivity|lia].
Qed.
Lemma subtract_frag_parts : forall f r, wf f -> wf r ->
  parts (subtract_frag f r) (cut_by (fun o => negb (is_some (frag_get r o))) (frag_get f)).
Proof.
  intros f r W R. destruct (wf_cases r R) as [(offs & p & ->) | (s & e & I & A & C)].
  - cbn [subtract_frag]. pose proof R as R'. inversion R as [offs' vs NE SO B L E1| |]; subst.
    eapply parts_ext; [now apply subtract_sparse_parts|]. intros o. unfold cut_by. now rewrite covered_offsets with (1 := R').
  - replace (subtract_frag f r) with (subtract_interval f s e).
    2:{ unfold interval in I. destruct r; [discriminate| |]; cbn [subtract_frag]; rewrite I; reflexivity. }
    eapply parts_ext; [now apply subtract_interval_parts|]. intros o. unfold cut_by.
    now rewrite (covered_interval r s e o R I).
Qed.

(* ---- intersection ---- *)
Lemma frag_has_any_spec : forall f a b, wf f -> a < b ->
  frag_has_any f a b = true <-> exists off, a <= off /\ off < b /\ frag_get f off <> None.
Proof.
  intros f a b W AB. unfold frag_has_any, range_empty. replace (b <=? a) with false by lia.
  destruct (wf_cases f W) as [(offs & p & ->) | (s & e & I & A & C)].
  - pose proof W as W'. inversion W as [offs' vs NE SO B L E1| |]; subst. rewrite sparse_hits_spec by auto. split.
    + intros (o & J & X & Y). exists o. split; auto. split; auto. apply (sparse_get_some offs vs) in J; auto.
      destruct J as (v & ->). discriminate.
    + intros (o & X & Y & Z). exists o. split; auto. apply (sparse_get_some offs vs); auto.
      destruct (frag_get _ o); [eauto|congruence].
  - replace (match f with Sparse offs _ => sparse_hits offs a b
             | Dense _ _ _ | Run _ _ _ _ => match interval_coverage f with Some (s0, e0) => overlaps s0 e0 a b | None => false end end)
      with (overlaps s e a b).
    2:{ unfold interval in I. destruct f; [discriminate| |]; rewrite I; reflexivity. }
    unfold overlaps. split.
    + intros H. exists (N.max a s). split; [lia|]. split; [lia|].
      destruct (interval_get f s e W I (N.max a s)) as [X _]. destruct X as (v & ->); [lia|discriminate].
    + intros (o & X & Y & Z). destruct (interval_get f s e W I o) as [_ G].
      destruct (N.lt_ge_cases o s); [now rewrite G in Z by auto|]. destruct (N.lt_ge_cases o e); [lia|now rewrite G in Z by auto].
Qed.
Lemma sorted_intersect_spec : forall a b lo lo', incr lo a -> incr lo' b ->
  sorted_intersect a b = true <-> exists o, In o a /\ In o b.
Proof.
  induction a as [|x a IH]; intros b lo lo' SA SB.
  - cbn. split; [discriminate|]. intros (o & [] & _).
  - cbn in SA. destruct SA as [A1 A2]. revert lo' SB. induction b as [|y b IHb]; intros lo' SB.
    + cbn. split; [discriminate|]. intros (o & _ & []).
    + cbn in SB. destruct SB as [B1 B2].
      change (sorted_intersect (x :: a) (y :: b)) with
        (if x =? y then true else if x <? y then sorted_intersect a (y :: b) else sorted_intersect (x :: a) b).
      destruct (x =? y) eqn:E1.
      * apply N.eqb_eq in E1. subst. split; auto. intros _. exists y. cbn. auto.
      * destruct (x <? y) eqn:E2.
        -- assert (SY : incr y (y :: b)) by (cbn; split; [lia|auto]). rewrite (IH (y :: b) (x + 1) y A2 SY). split.
           ++ intros (o & I & J). exists o. cbn. auto.
           ++ intros (o & [-> | I] & J); [|exists o; auto]. exfalso. destruct J as [-> | J]; [lia|].
              pose proof (incr_in _ _ _ B2 J). lia.
        -- rewrite (IHb (y + 1)) by auto. split.
           ++ intros (o & I & J). exists o. cbn in *. auto.
           ++ intros (o & I & [-> | J]); [|exists o; auto]. exfalso. destruct I as [-> | I]; [lia|].
              pose proof (incr_in _ _ _ A2 I). lia.
Qed.
Lemma intersects_frag_spec : forall f r, wf f -> wf r ->
  intersects_frag f r = true <-> exists off, frag_get f off <> None /\ frag_get r off <> None.
Proof.
  intros f r W R. destruct (wf_cases r R) as [(offs & p & ->) | (s & e & I & A & C)].
  - pose proof R as R'. inversion R as [offs' vs NE SO B L E1| |]; subst. cbn [intersects_frag].
    assert (RG : forall o, In o offs <-> frag_get (Sparse offs (from_values vs)) o <> None).
    { intros o. rewrite <- (sparse_get_some offs vs) by auto. destruct (frag_get _ o); split; eauto; try discriminate; try congruence.
      intros (v & X). discriminate. }
    assert (EQ : intersects_sparse f offs =
              match f with Sparse own _ => sorted_intersect own offs
              | Dense _ _ _ | Run _ _ _ _ => match interval_coverage f with Some (s, e) => sparse_hits offs s e | None => false end end).
    { unfold intersects_sparse. destruct offs; [congruence|reflexivity]. }
    rewrite EQ. clear EQ. destruct (wf_cases f W) as [(own & q & ->) | (s & e & I & A & C)].
    + pose proof W as W'. inversion W as [own' ws NE' SO' B' L' E1'| |]; subst. rewrite sorted_intersect_spec by eauto.
      assert (FG : forall o, In o own <-> frag_get (Sparse own (from_values ws)) o <> None).
      { intros o. rewrite <- (sparse_get_some own ws) by auto. destruct (frag_get _ o); split; eauto; try discriminate; try congruence.
        intros (v & X). discriminate. }
      split; intros (o & X & Y); exists o; [now rewrite <- RG, <- FG|now rewrite RG, FG].
    + replace (match f with Sparse own _ => sorted_intersect own offs
               | Dense _ _ _ | Run _ _ _ _ => match interval_coverage f with Some (s0, e0) => sparse_hits offs s0 e0 | None => false end end)
        with (sparse_hits offs s e).
      2:{ unfold interval in I. destruct f; [discriminate| |]; rewrite I; reflexivity. }
      rewrite sparse_hits_spec by auto. split.
      * intros (o & X & Y & Z). exists o. rewrite <- RG. split; auto.
        destruct (interval_get f s e W I o) as [G _]. destruct G as (v & ->); [lia|discriminate].
      * intros (o & X & Y). exists o. rewrite RG. split; auto. destruct (interval_get f s e W I o) as [_ G].
        destruct (N.lt_ge_cases o s); [now rewrite G in X by auto|]. destruct (N.lt_ge_cases o e); [lia|now rewrite G in X by auto].
  - replace (intersects_frag f r) with (frag_has_any f s e).
    2:{ unfold interval in I. destruct r; [discriminate| |]; cbn [intersects_frag]; rewrite I; reflexivity. }
    rewrite frag_has_any_spec by auto. split.
    + intros (o & X & Y & Z). exists o. split; auto.
      destruct (interval_get r s e R I o) as [G _]. destruct G as (v & ->); [lia|discriminate].
    + intros (o & X & Y). exists o. destruct (interval_get r s e R I o) as [_ G].
      destruct (N.lt_ge_cases o s); [now rewrite G in Y by auto|]. destruct (N.lt_ge_cases o e); [auto|now rewrite G in Y by auto].
Qed.

(* ---- slices ---- *)
Definition slice_map (off len : N) (m : omap) : omap := fun k => if k <? len then m (off + k) else None.
Lemma frag_slice_parts : forall f off len, wf f -> off + len < USIZE_MAX ->
  parts (opt_list (frag_slice f off len)) (slice_map off len (frag_get f)).
Proof.
  intros f off len W HB. unfold frag_slice. destruct (len =? 0) eqn:EL.
  { apply parts_nil. intros k. unfold slice_map. now replace (k <? len) with false by lia. }
  replace (sat_add off len) with (off + len) by (unfold sat_add; lia).
  destruct (wf_cases f W) as [(offs & p & ->) | (s & e & I & A & C)].
  - pose proof W as W'. inversion W as [offs' vs NE SO B L E1| |]; subst.
    set (lo := partition_point (fun o => o <? u32_clamp off) offs).
    set (hi := partition_point (fun o => o <? off + len) offs).
    assert (IX : forall i o, nthN offs i = Some o -> (lo <= i /\ i < hi <-> off <= o /\ o < off + len)).
    { intros i o E. assert (IO : In o offs) by (eapply nth_error_In; exact E). assert (OB := B o IO).
      assert (LO : lo <= i <-> off <= o).
      { destruct (pp_split N (fun o => o <? u32_clamp off) offs) as (x & y & EE & LL & F & G). fold lo in LL.
        assert (CL : forall z, z < MAX_OFF -> (z <? u32_clamp off) = (z <? off)).
        { intros z Z. unfold u32_clamp, MAX_OFF in *. destruct (off <=? U32_MAX) eqn:CC; lia. }
        unfold nthN in E. rewrite EE in E. split; intros H.
        - rewrite nth_error_app2 in E by lia. destruct y as [|h t]; [destruct (_ - _)%nat; discriminate|].
          assert (HB1 : h < MAX_OFF) by (apply B; rewrite EE, in_app_iff; cbn; auto). rewrite CL in G by auto.
          assert (SY : incr 0 (h :: t)) by (apply incr_app_r with x; congruence).
          apply nth_error_In in E. destruct E as [-> | E]; [lia|]. cbn in SY. destruct SY as [_ SY].
          pose proof (incr_in _ _ _ SY E). lia.
        - destruct (N.lt_ge_cases i lo) as [X|X]; auto. exfalso. rewrite nth_error_app1 in E by lia.
          apply nth_error_In in E. rewrite Forall_forall in F. specialize (F o E). cbn beta in F. rewrite CL in F by auto. lia. }
      assert (HI : i < hi <-> o < off + len).
      { destruct (pp_split N (fun o => o <? off + len) offs) as (x & y & EE & LL & F & G). fold hi in LL.
        unfold nthN in E. rewrite EE in E. split; intros H.
        - rewrite nth_error_app1 in E by lia. apply nth_error_In in E. rewrite Forall_forall in F. specialize (F o E). cbn beta in F. lia.
        - destruct (N.lt_ge_cases i hi) as [X|X]; auto. exfalso. rewrite nth_error_app2 in E by lia.
          destruct y as [|h t]; [destruct (_ - _)%nat; discriminate|].
          assert (SY : incr 0 (h :: t)) by (apply incr_app_r with x; congruence).
          apply nth_error_In in E. destruct E as [-> | E]; [lia|]. cbn in SY. destruct SY as [_ SY].
          pose proof (incr_in _ _ _ SY E). lia. }
      lia. }
    assert (IN : forall k v, In (k, v) (filter_map (fun i => match nthN offs i with
                    | Some o => option_map (fun v => (o - off, v)) (overlay_value (from_values vs) i) | None => None end) (rangeN lo hi))
                 <-> slice_map off len (frag_get (Sparse offs (from_values vs))) k = Some v).
    { intros k v. rewrite filter_map_in. unfold slice_map. split.
      - intros (i & J & X). apply rangeN_spec in J. destruct (nthN offs i) as [o|] eqn:E; [|discriminate].
        rewrite from_values_get in X. destruct (nthN vs i) as [w|] eqn:Y; cbn in X; [|discriminate]. injection X as <- ->.
        apply IX in E as IE. apply IE in J. replace (o - off <? len) with true by lia.
        replace (off + (o - off)) with o by lia. rewrite get_sparse by auto. apply sparse_cells_in; eauto.
      - destruct (k <? len) eqn:EK; [|discriminate]. rewrite get_sparse by auto. intros X.
        apply sparse_cells_in in X; auto. destruct X as (i & X & Y). exists i. rewrite rangeN_spec, X, from_values_get, Y. cbn.
        split; [apply (IX i _ X); lia|]. f_equal. f_equal. lia. }
    apply parts_of_cells; auto. intros k v J. apply IN in J. unfold slice_map in J. destruct (k <? len); [|discriminate].
    apply get_bound in J; auto. lia.
  - replace (match f with
             | Sparse offs p => sparse_offsets (filter_map (fun i => match nthN offs i with
                    | Some o => option_map (fun v => (o - off, v)) (overlay_value p i) | None => None end)
                    (rangeN (partition_point (fun o => o <? u32_clamp off) offs) (partition_point (fun o => o <? off + len) offs)))
             | Dense _ _ _ | Run _ _ _ _ => match interval_coverage f with
                | Some (s0, t) => if N.min t (off + len) <=? N.max s0 off then None
                                  else segment f (N.max s0 off - off) (N.max s0 off) (N.min t (off + len))
                | None => None end end)
      with (if N.min e (off + len) <=? N.max s off then None
            else segment f (N.max s off - off) (N.max s off) (N.min e (off + len))).
    2:{ unfold interval in I. destruct f; [discriminate| |]; rewrite I; reflexivity. }
    assert (OUT : forall o, o < s \/ e <= o -> frag_get f o = None) by (intros o; apply (interval_get f s e W I o)).
    destruct (N.min e (off + len) <=? N.max s off) eqn:E.
    + apply parts_nil. intros k. unfold slice_map. destruct (k <? len) eqn:EK; auto. apply OUT. lia.
    + destruct (segment_spec f s e (N.max s off - off) (N.max s off) (N.min e (off + len)) W I) as (g & G1 & G2 & G3 & G4); try lia.
      rewrite G1. cbn [opt_list]. apply parts_ext with (frag_get g); [now apply parts_one|].
      intros k. rewrite G4. unfold slice_map. destruct (k <? len) eqn:EK.
      * destruct ((N.max s off - off <=? k) && (k <? N.max s off - off + (N.min e (off + len) - N.max s off))) eqn:EC.
        -- f_equal. lia.
        -- symmetry. apply OUT. lia.
      * now replace ((N.max s off - off <=? k) && (k <? N.max s off - off + (N.min e (off + len) - N.max s off))) with false by lia.
Qed.
