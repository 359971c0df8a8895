(* Overlays: the overlay as a map, histories, listing, and the byte counter. *)
From Coq Require Import List Bool NArith ZArith Lia Permutation.
From Coq Require Import ZifyN ZifyNat ZifyBool.
From Verif Require Import Base Maps OvModel OvSpec OvProofs OvProofs2 OvProofs3.
Import ListNotations.
Open Scope N_scope.

Definition repr (o : overlay) (m : omap) : Prop :=
  NoDup (map fst (o_points o)) /\
  exists mf, parts (o_frags o) mf /\ (forall k, pget (o_points o) k <> None -> mf k = None) /\
    forall k, m k = om_over (pget (o_points o)) mf k.

Lemma repr_ext : forall o m m', repr o m -> (forall k, m k = m' k) -> repr o m'.
Proof. intros o m m' (A & mf & B & C & D) E. split; auto. exists mf. split; auto. split; auto. intros k. now rewrite <- E. Qed.
Lemma repr_get : forall o m k, repr o m -> ov_get o k = m k.
Proof.
  intros o m k (A & mf & B & C & D). unfold ov_get. rewrite D. unfold om_over.
  destruct (pget (o_points o) k); auto. now apply find_map_spec.
Qed.
Lemma repr_new : repr ov_new om_empty.
Proof.
  split; [constructor|]. exists (fun _ => None). split; [now apply parts_nil|]. split; auto.
Qed.

Lemma pget_del : forall V (m : list (N * V)) k j, pget (pdel m k) j = if j =? k then None else pget m j.
Proof.
  intros V m k j. destruct (j =? k) eqn:E.
  - apply N.eqb_eq in E. subst. apply mget_del_same.
  - apply mget_del_other; [exact N.eqb_eq|lia].
Qed.
Lemma pget_put : forall V (m : list (N * V)) k v j, pget (pput m k v) j = if j =? k then Some v else pget m j.
Proof.
  intros V m k v j. unfold mput. cbn [mget]. destruct (j =? k) eqn:E; auto. rewrite pget_del, E. reflexivity.
Qed.
Lemma filter_NoDup_fst : forall V (g : N * V -> bool) (m : list (N * V)), NoDup (map fst m) -> NoDup (map fst (filter g m)).
Proof.
  intros V g. induction m as [|[k v] m IH]; cbn; intros H; auto. inversion H; subst.
  destruct (g (k, v)); cbn; auto. constructor; auto. intros I. apply in_map_iff in I. destruct I as (x & E & I).
  apply filter_In in I. apply H2. apply in_map_iff. exists x. tauto.
Qed.
Lemma pdel_NoDup : forall V (m : list (N * V)) k, NoDup (map fst m) -> NoDup (map fst (pdel m k)).
Proof. intros. now apply filter_NoDup_fst. Qed.
Lemma pget_some_in : forall V (m : list (N * V)) k, NoDup (map fst m) ->
  forall v, pget m k = Some v <-> In (k, v) m.
Proof.
  intros V m k H v. split; [apply mget_In; exact N.eqb_eq|]. apply mget_NoDup; auto. exact N.eqb_eq.
Qed.
Lemma pget_none : forall V (m : list (N * V)) k, pget m k = None <-> ~ In k (map fst m).
Proof.
  intros V. induction m as [|[j w] m IH]; intros k; cbn; [tauto|]. destruct (k =? j) eqn:E.
  - apply N.eqb_eq in E. subst. split; [discriminate|tauto].
  - rewrite IH. apply N.eqb_neq in E. split; [intros H [X | X]; [congruence|auto]|tauto].
Qed.

(* ---- replacing fragments ---- *)
Section Mem.
  Variable mem : payload -> N.

  Lemma replace_frags_parts : forall g fs m keep,
    parts fs m ->
    (forall f, In f fs -> wf f -> match g f with
       | None => forall off, keep off = false -> frag_get f off = None
       | Some rs => parts rs (cut_by keep (frag_get f)) end) ->
    parts (fst (replace_frags mem g fs)) (cut_by keep m).
  Proof.
    intros g. induction fs as [|f fs IH]; intros m keep P H.
    - cbn. apply parts_nil. intros off. unfold cut_by. destruct (keep off); auto.
      rewrite <- (find_map_spec [] m off P). reflexivity.
    - pose proof P as (W & D & _). inversion W; subst. inversion D; subst.
      cbn [replace_frags]. assert (IH' := IH _ keep (parts_self fs H3 H5) (fun f0 I => H f0 (or_intror I))).
      destruct (replace_frags mem g fs) as [fs' d] eqn:R. cbn [fst] in IH'.
      assert (PF : parts (match g f with None => [f] | Some rs => rs end) (cut_by keep (frag_get f))).
      { specialize (H f (or_introl eq_refl) H2). destruct (g f); auto.
        eapply parts_ext; [now apply parts_one|]. intros off. unfold cut_by. destruct (keep off) eqn:K; auto. }
      assert (E : fst (let '(fs'0, d0) := (fs', d) in match g f with None => (f :: fs'0, d0)
                  | Some rs => (rs ++ fs'0, (Z.of_N (frags_est mem rs) - Z.of_N (frag_est mem f) + d0)%Z) end)
                  = (match g f with None => [f] | Some rs => rs end) ++ fs').
      { destruct (g f); reflexivity. }
      rewrite E. clear E. eapply parts_ext; [apply parts_app; [exact PF|exact IH'|]|].
      + intros off. unfold cut_by. destruct (keep off); auto.
        destruct (find_map (fun f0 => frag_get f0 off) fs) as [v|] eqn:F; auto. left.
        apply (parts_self fs H3 H5) in F. destruct F as (r & I & G). rewrite Forall_forall in H4.
        destruct (H4 r I off); auto. congruence.
      + intros off. unfold om_over, cut_by. destruct (keep off); auto.
        assert (M : m off = find_map (fun f0 => frag_get f0 off) (f :: fs)).
        { destruct (parts_self (f :: fs) W D) as (_ & _ & C1). destruct P as (_ & _ & C2).
          destruct (m off) as [v|] eqn:E1.
          - symmetry. apply C1. now apply C2.
          - destruct (find_map _ (f :: fs)) as [v|] eqn:E2; auto. apply C1 in E2. apply C2 in E2. congruence. }
        rewrite M. cbn. destruct (frag_get f off); auto.
  Qed.

  Definition pts_est (ps : list (N * ov)) : N := fold_right (fun kv n => point_est (snd kv) + n) 0 ps.
  Lemma frags_est_app : forall a b, frags_est mem (a ++ b) = frags_est mem a + frags_est mem b.
  Proof. induction a as [|f a IH]; intros b; cbn [app frags_est fold_right]; auto. fold (frags_est mem (a ++ b)). fold (frags_est mem a). rewrite IH. lia. Qed.
  Lemma replace_frags_est : forall g fs, Z.of_N (frags_est mem (fst (replace_frags mem g fs))) =
    (Z.of_N (frags_est mem fs) + snd (replace_frags mem g fs))%Z.
  Proof.
    intros g. induction fs as [|f fs IH]; cbn [replace_frags]; [reflexivity|].
    destruct (replace_frags mem g fs) as [fs' d]. cbn [fst snd] in IH.
    assert (X : frags_est mem (f :: fs) = frag_est mem f + frags_est mem fs) by reflexivity.
    destruct (g f); cbn [fst snd]; rewrite X.
    - rewrite frags_est_app. lia.
    - assert (Y : frags_est mem (f :: fs') = frag_est mem f + frags_est mem fs') by reflexivity. lia.
  Qed.

  (* ---- removing points ---- *)
  Lemma pts_est_del : forall ps k v, NoDup (map fst ps) -> pget ps k = Some v -> pts_est ps = point_est v + pts_est (pdel ps k).
  Proof.
    induction ps as [|[j w] ps IH]; intros k v ND H; [discriminate|]. inversion ND; subst. unfold mdel. cbn [filter fst].
    cbn [mget] in H. destruct (k =? j) eqn:E; cbn [negb].
    - apply N.eqb_eq in E. subst. injection H as <-. fold (pdel ps j).
      assert (X : pdel ps j = ps).
      { unfold mdel. clear -H2. induction ps as [|[i x] ps IH]; cbn; auto. cbn in H2.
        replace (j =? i) with false by (symmetry; apply N.eqb_neq; intros ->; tauto). cbn. f_equal. apply IH. tauto. }
      rewrite X. reflexivity.
    - fold (pdel ps k). assert (X : pts_est ((j, w) :: ps) = point_est w + pts_est ps) by reflexivity.
      assert (Y : pts_est ((j, w) :: pdel ps k) = point_est w + pts_est (pdel ps k)) by reflexivity.
      rewrite X, Y, (IH k v) by auto. lia.
  Qed.
  Lemma remove_keys_spec : forall keys ps, NoDup (map fst ps) ->
    let '(ps', n) := remove_keys ps keys in
    NoDup (map fst ps') /\ pts_est ps = n + pts_est ps' /\
    forall k, pget ps' k = if is_some (binary_search keys k) then None else pget ps k.
  Proof.
    induction keys as [|x keys IH]; intros ps ND; cbn [remove_keys].
    - auto.
    - assert (BS : forall k, is_some (binary_search (x :: keys) k) = (k =? x) || is_some (binary_search keys k)).
      { intros k. apply eq_true_iff_eq. rewrite orb_true_iff, !binary_search_is_some, N.eqb_eq. cbn. intuition. }
      destruct (pget ps x) as [old|] eqn:E.
      + specialize (IH (pdel ps x) (pdel_NoDup _ _ _ ND)). destruct (remove_keys (pdel ps x) keys) as [ps' n].
        destruct IH as (A & B & C). split; auto. split; [rewrite (pts_est_del ps x old) by auto; lia|].
        intros k. rewrite C, BS, pget_del. destruct (k =? x); cbn [orb]; auto. now destruct (is_some _).
      + specialize (IH ps ND). destruct (remove_keys ps keys) as [ps' n]. destruct IH as (A & B & C).
        split; auto. split; auto. intros k. rewrite C, BS. destruct (k =? x) eqn:EK; cbn [orb]; auto.
        apply N.eqb_eq in EK. subst. rewrite E. now destruct (is_some _).
  Qed.
  Lemma keys_in_spec : forall ps a b k, pget ps k <> None ->
    is_some (binary_search (keys_in ps a b) k) = range_contains a b k.
  Proof.
    intros ps a b k H. apply eq_true_iff_eq. rewrite binary_search_is_some. unfold keys_in. rewrite filter_In.
    split; [tauto|]. intros X. split; auto. destruct (pget ps k) as [v|] eqn:E; [|congruence].
    apply mget_In in E; [|exact N.eqb_eq]. change k with (fst (k, v)). now apply in_map.
  Qed.
  Lemma remove_range_keys : forall ps a b, NoDup (map fst ps) ->
    let '(ps', n) := remove_keys ps (keys_in ps a b) in
    NoDup (map fst ps') /\ pts_est ps = n + pts_est ps' /\
    forall k, pget ps' k = if range_contains a b k then None else pget ps k.
  Proof.
    intros ps a b ND. pose proof (remove_keys_spec (keys_in ps a b) ps ND) as H. destruct (remove_keys _ _) as [ps' n].
    destruct H as (A & B & C). split; auto. split; auto. intros k. rewrite C. destruct (pget ps k) eqn:E.
    - rewrite keys_in_spec by congruence. reflexivity.
    - destruct (is_some _), (range_contains a b k); reflexivity.
  Qed.
  Lemma remove_points_keys : forall o f, wf f -> NoDup (map fst (o_points o)) ->
    let '(o', d) := remove_points_covered o f in
    NoDup (map fst (o_points o')) /\ o_frags o' = o_frags o /\ o_formats o' = o_formats o /\
    Z.of_N (pts_est (o_points o')) = (Z.of_N (pts_est (o_points o)) + d)%Z /\
    o_est o' = adjust (o_est o) d /\
    forall k, pget (o_points o') k = if is_some (frag_get f k) then None else pget (o_points o) k.
  Proof.
    intros o f W ND. unfold remove_points_covered.
    assert (H : let '(ps, n) := match f with
      | Sparse offs _ => remove_keys (o_points o) offs
      | Dense _ _ _ | Run _ _ _ _ =>
          match interval_coverage f with
          | Some (a, b) => remove_keys (o_points o) (keys_in (o_points o) a b)
          | None => (o_points o, 0)
          end
      end in NoDup (map fst ps) /\ pts_est (o_points o) = n + pts_est ps /\
        forall k, pget ps k = if is_some (frag_get f k) then None else pget (o_points o) k).
    { destruct (wf_cases f W) as [(offs & p & ->) | (s & e & I & _)].
      - pose proof (remove_keys_spec offs (o_points o) ND) as H. destruct (remove_keys _ _) as [ps n].
        destruct H as (A & B & C). split; auto. split; auto. intros k. rewrite C. now rewrite (covered_offsets offs p k W).
      - pose proof (remove_range_keys (o_points o) s e ND) as H.
        assert (E : match f with Sparse offs _ => remove_keys (o_points o) offs
          | Dense _ _ _ | Run _ _ _ _ => match interval_coverage f with
             | Some (a, b) => remove_keys (o_points o) (keys_in (o_points o) a b) | None => (o_points o, 0) end end
          = remove_keys (o_points o) (keys_in (o_points o) s e)).
        { unfold interval in I. destruct f; [discriminate| |]; rewrite I; reflexivity. }
        rewrite E. destruct (remove_keys _ _) as [ps n]. destruct H as (A & B & C). split; auto. split; auto.
        intros k. rewrite C. now rewrite (covered_interval f s e k W I). }
    destruct (match f with Sparse _ _ => _ | _ => _ end) as [ps n]. cbn [o_points o_frags o_formats o_est].
    destruct H as (A & B & C). split; auto. split; auto. split; auto. split; [lia|]. split; auto. unfold adjust. lia.
  Qed.

  (* ---- writing a fragment ---- *)
  Lemma apply_fragment_spec : forall o m f, repr o m -> wf f ->
    repr (fst (apply_fragment mem o f)) (om_over (frag_get f) m) /\
    o_formats (fst (apply_fragment mem o f)) = o_formats o.
  Proof.
    intros o m f R W. pose proof R as (ND & mf & P & DJ & M). unfold apply_fragment.
    pose proof (remove_points_keys o f W ND) as H. destruct (remove_points_covered o f) as [o1 d1].
    destruct H as (ND1 & F1 & FM1 & _ & _ & G1).
    set (g := fun f0 => if intersects_frag f0 f then Some (subtract_frag f0 f) else None).
    assert (PR : parts (fst (replace_frags mem g (o_frags o1))) (cut_by (fun k => negb (is_some (frag_get f k))) mf)).
    { rewrite F1. apply replace_frags_parts; auto. intros f0 I W0. unfold g. destruct (intersects_frag f0 f) eqn:E.
      - now apply subtract_frag_parts.
      - intros off K. destruct (frag_get f0 off) eqn:X; auto. exfalso.
        assert (Y : intersects_frag f0 f = true); [|congruence]. apply intersects_frag_spec; auto. exists off.
        split; [congruence|]. destruct (frag_get f off); [discriminate|discriminate]. }
    assert (E2 : exists e2, fst (remove_frags_covered mem o1 f) =
              Overlay (o_points o1) (o_formats o1) (fst (replace_frags mem g (o_frags o1))) e2).
    { unfold remove_frags_covered. fold g. destruct (o_frags o1) as [|f0 fs] eqn:EF.
      - cbn. exists (o_est o1). destruct o1; cbn in *. now subst.
      - destruct (replace_frags mem g (f0 :: fs)) as [fs' d]. cbn. eauto. }
    destruct E2 as (e2 & E2). destruct (remove_frags_covered mem o1 f) as [o2 d2]. cbn [fst] in E2. subst o2.
    cbn [o_points o_formats o_frags o_est fst]. split; [|exact FM1].
    split; [exact ND1|].
    exists (om_over (cut_by (fun k => negb (is_some (frag_get f k))) mf) (frag_get f)). cbn [o_points o_frags]. split; [|split].
    - apply parts_app; [exact PR|now apply parts_one|]. intros off. unfold cut_by. destruct (frag_get f off); cbn; auto.
    - intros k. rewrite G1. unfold om_over, cut_by. destruct (frag_get f k); cbn; [congruence|]. intros X. now rewrite DJ.
    - intros k. unfold om_over. rewrite M, G1. unfold om_over, cut_by. destruct (frag_get f k); cbn; auto.
      destruct (pget (o_points o) k); auto. destruct (mf k); auto.
  Qed.

  (* ---- single cells ---- *)
  Lemma remove_scalar_spec : forall o m off, repr o m ->
    repr (fst (remove_scalar mem o off)) (fun k => if k =? off then None else m k) /\
    o_formats (fst (remove_scalar mem o off)) = o_formats o /\
    pget (o_points (fst (remove_scalar mem o off))) off = None /\
    find_map (fun f => frag_get f off) (o_frags (fst (remove_scalar mem o off))) = None.
  Proof.
    intros o m off (ND & mf & P & DJ & M). unfold remove_scalar.
    set (g := fun f => if is_some (frag_get f off) then Some (subtract_offset f off) else None).
    assert (PR : parts (fst (replace_frags mem g (o_frags o))) (cut_by (fun k => negb (k =? off)) mf)).
    { apply replace_frags_parts; auto. intros f0 I W0. unfold g. destruct (frag_get f0 off) eqn:E; cbn [is_some].
      - now apply subtract_offset_parts.
      - intros k K. replace k with off by lia. auto. }
    assert (E : exists ps e d, (match pget (o_points o) off with
       | Some old => (pdel (o_points o) off, o_est o - point_est old, (- Z.of_N (point_est old))%Z)
       | None => (o_points o, o_est o, 0%Z) end) = (ps, e, d) /\ NoDup (map fst ps) /\
       forall k, pget ps k = if k =? off then None else pget (o_points o) k).
    { destruct (pget (o_points o) off) as [old|] eqn:EP; eexists _, _, _; split; try reflexivity; split; auto.
      - now apply pdel_NoDup.
      - intros k. apply pget_del.
      - intros k. destruct (k =? off) eqn:EK; auto. apply N.eqb_eq in EK. now subst. }
    destruct E as (ps & e & d & E & ND' & G). rewrite E. clear E.
    assert (X : exists e' d', (match o_frags o with
       | [] => (Overlay ps (o_formats o) [] e, d)
       | _ => let '(fs, d') := replace_frags mem g (o_frags o) in
              (Overlay ps (o_formats o) fs (adjust e (d + d')%Z), (d + d')%Z) end)
       = (Overlay ps (o_formats o) (fst (replace_frags mem g (o_frags o))) e', d')).
    { destruct (o_frags o) as [|f0 fs]; [cbn; eauto|]. destruct (replace_frags mem g (f0 :: fs)) as [fs' d']. cbn. eauto. }
    destruct X as (e' & d' & ->). cbn [fst o_points o_frags o_formats].
    split; [|split; [reflexivity|split]].
    - split; auto. exists (cut_by (fun k => negb (k =? off)) mf). cbn [o_points o_frags]. split; auto. split.
      + intros k. rewrite G. unfold cut_by. destruct (k =? off); cbn; auto.
      + intros k. rewrite M. unfold om_over, cut_by. rewrite G. destruct (k =? off); cbn; auto.
    - rewrite G. now rewrite N.eqb_refl.
    - pose proof PR as (_ & _ & C).
      destruct (find_map _ _) as [v|] eqn:F; auto. exfalso. pose proof PR as (W' & D' & _).
      apply (parts_self _ W' D') in F. apply C in F. unfold cut_by in F. rewrite N.eqb_refl in F. discriminate.
  Qed.
  Lemma set_scalar_spec : forall o m off v, repr o m ->
    repr (fst (set_scalar mem o off v)) (fun k => if k =? off then Some v else m k) /\
    o_formats (fst (set_scalar mem o off v)) = o_formats o.
  Proof.
    intros o m off v R. destruct (remove_scalar_spec o m off R) as ((ND & mf & P & DJ & M) & FM & PN & FN).
    unfold set_scalar. destruct (remove_scalar mem o off) as [o1 d]. cbn [fst o_points o_formats o_frags] in *.
    split; auto. split; [apply mput_keys_NoDup; auto; exact N.eqb_eq|]. exists mf. cbn [o_points o_frags]. split; auto. split.
    - intros k. rewrite pget_put. destruct (k =? off) eqn:EK; [|apply DJ].
      intros _. apply N.eqb_eq in EK. subst. specialize (M off). rewrite N.eqb_refl in M. unfold om_over in M. rewrite PN in M. auto.
    - intros k. unfold om_over. rewrite pget_put. specialize (M k). unfold om_over in M. destruct (k =? off); auto.
  Qed.

  (* ---- ranges ---- *)
  Lemma remove_range_spec : forall o m a b, repr o m ->
    repr (fst (remove_range mem o a b)) (fun k => if (a <=? k) && (k <? b) then None else m k) /\
    o_formats (fst (remove_range mem o a b)) = o_formats o.
  Proof.
    intros o m a b R. pose proof R as (ND & mf & P & DJ & M). unfold remove_range, range_empty. destruct (b <=? a) eqn:E.
    { split; auto. cbn [fst]. eapply repr_ext; eauto. intros k. now replace ((a <=? k) && (k <? b)) with false by lia. }
    pose proof (remove_range_keys (o_points o) a b ND) as H. destruct (remove_keys _ _) as [ps n].
    destruct H as (ND' & _ & G).
    set (g := fun f => Some (subtract_interval f a b)).
    assert (PR : parts (fst (replace_frags mem g (o_frags o))) (cut_by (fun k => negb (range_contains a b k)) mf)).
    { apply replace_frags_parts; auto. intros f0 I W0. unfold g. now apply subtract_interval_parts. }
    assert (X : exists e' d', (match o_frags o with
       | [] => (Overlay ps (o_formats o) [] (o_est o - n), (- Z.of_N n)%Z)
       | _ => let '(fs, d) := replace_frags mem g (o_frags o) in
              (Overlay ps (o_formats o) fs (adjust (o_est o - n) d), (- Z.of_N n + d)%Z) end)
       = (Overlay ps (o_formats o) (fst (replace_frags mem g (o_frags o))) e', d')).
    { destruct (o_frags o) as [|f0 fs]; [cbn; eauto|]. destruct (replace_frags mem g (f0 :: fs)) as [fs' d']. cbn. eauto. }
    cbv zeta. destruct X as (e' & d' & ->). cbn [fst o_formats]. split; auto.
    split; auto. exists (cut_by (fun k => negb (range_contains a b k)) mf). cbn [o_points o_frags]. split; auto. split.
    - intros k. rewrite G. unfold cut_by. destruct (range_contains a b k); cbn; auto.
    - intros k. rewrite M. unfold om_over, cut_by. rewrite G. fold (range_contains a b k).
      destruct (range_contains a b k); cbn; auto.
  Qed.

  (* ---- slices ---- *)
  Definition no_general (o : overlay) : Prop :=
    NoDup (map fst (o_formats o)) /\ forall k, pget (o_formats o) k <> Some GENERAL.
  Lemma set_format_get : forall o off f k,
    pget (o_formats (ov_set_format o off f)) k =
    if k =? off then match f with Some id => if id =? 0 then None else Some id | None => None end else pget (o_formats o) k.
  Proof.
    intros o off f k. cbn. destruct f as [id|].
    - unfold GENERAL. destruct (id =? 0); [|rewrite pget_put; now destruct (k =? off)]. rewrite pget_del. now destruct (k =? off).
    - rewrite pget_del. now destruct (k =? off).
  Qed.
  Lemma set_format_general : forall o off f, no_general o -> no_general (ov_set_format o off f).
  Proof.
    intros o off f [A B]. split.
    - cbn. destruct f as [id|]; [destruct (id =? GENERAL)|]; try (now apply pdel_NoDup). apply mput_keys_NoDup; auto. exact N.eqb_eq.
    - intros k. rewrite set_format_get. destruct (k =? off); auto. destruct f as [id|]; [|discriminate].
      destruct (id =? 0) eqn:E; [discriminate|]. unfold GENERAL. intros X. injection X as ->. discriminate.
  Qed.

  Lemma slice_frags_spec : forall off len fs m out m0, parts fs m -> off + len < USIZE_MAX -> repr out m0 ->
    repr (fold_left (fun out f => match frag_slice f off len with
            | Some s => fst (apply_fragment mem out s) | None => out end) fs out)
         (om_over (slice_map off len m) m0) /\
    o_formats (fold_left (fun out f => match frag_slice f off len with
            | Some s => fst (apply_fragment mem out s) | None => out end) fs out) = o_formats out.
  Proof.
    intros off len. induction fs as [|f fs IH]; intros m out m0 P HB R; cbn [fold_left].
    - split; auto. eapply repr_ext; eauto. intros k. unfold om_over, slice_map.
      assert (X : m (off + k) = None) by (rewrite <- (find_map_spec [] m (off + k) P); reflexivity).
      rewrite X. now destruct (k <? len).
    - pose proof P as (W & D & _). inversion W; subst. inversion D; subst.
      assert (M : forall x, m x = find_map (fun f0 => frag_get f0 x) (f :: fs)).
      { intros x. destruct (parts_self (f :: fs) W D) as (_ & _ & C1). destruct P as (_ & _ & C2).
        destruct (m x) as [v|] eqn:E1.
        - symmetry. apply C1. now apply C2.
        - destruct (find_map _ (f :: fs)) as [v|] eqn:E2; auto. apply C1 in E2. apply C2 in E2. congruence. }
      pose proof (frag_slice_parts f off len H1 HB) as PS.
      assert (ST : exists out', (match frag_slice f off len with Some s => fst (apply_fragment mem out s) | None => out end) = out' /\
                repr out' (om_over (slice_map off len (frag_get f)) m0) /\ o_formats out' = o_formats out).
      { destruct (frag_slice f off len) as [s|] eqn:E; cbn [opt_list] in PS.
        - pose proof PS as (WS & _ & _). assert (WF : wf s) by now inversion WS. destruct (apply_fragment_spec out m0 s R WF) as [A B].
          eexists. split; [reflexivity|]. split; auto. eapply repr_ext; eauto. intros k. unfold om_over.
          rewrite <- (find_map_spec [s] _ k PS). cbn. destruct (frag_get s k); auto.
        - exists out. split; auto. split; auto. eapply repr_ext; eauto. intros k. unfold om_over.
          now rewrite <- (find_map_spec [] _ k PS). }
      destruct ST as (out' & -> & R' & FM). destruct (IH _ out' _ (parts_self fs H2 H4) HB R') as [A B].
      split; [|congruence]. eapply repr_ext; eauto. intros k. unfold om_over, slice_map.
      destruct (k <? len); auto. rewrite M. cbn. destruct (frag_get f (off + k)) as [v|] eqn:EF; auto.
      destruct (find_map _ fs) as [w|] eqn:EW; auto. exfalso. apply (parts_self fs H2 H4) in EW.
      destruct EW as (r & I & G). rewrite Forall_forall in H3. destruct (H3 r I (off + k)); congruence.
  Qed.
  Lemma slice_points_spec : forall off len ps out m0, NoDup (map fst ps) -> repr out m0 ->
    let out' := fold_left (fun out kv => if (off <=? fst kv) && (fst kv <? off + len)
                                       then fst (set_scalar mem out (fst kv - off) (snd kv)) else out) ps out in
    repr out' (om_over (slice_map off len (pget ps)) m0) /\ o_formats out' = o_formats out.
  Proof.
    intros off len. induction ps as [|[k v] ps IH]; intros out m0 ND R; cbn [fold_left fst snd].
    - split; auto. eapply repr_ext; eauto. intros x. unfold om_over, slice_map. cbn. now destruct (x <? len).
    - inversion ND; subst. destruct ((off <=? k) && (k <? off + len)) eqn:E.
      + destruct (set_scalar_spec out m0 (k - off) v R) as [A B]. destruct (IH _ _ H2 A) as [C D].
        split; [|congruence]. eapply repr_ext; eauto. intros x. unfold om_over, slice_map. cbn.
        destruct (x <? len) eqn:EX.
        * destruct (off + x =? k) eqn:EK.
          -- replace (x =? k - off) with true by lia. replace (pget ps (off + x)) with (@None ov); auto.
             symmetry. apply pget_none. now replace (off + x) with k by lia.
          -- replace (x =? k - off) with false by lia. reflexivity.
        * now replace (x =? k - off) with false by lia.
      + destruct (IH _ _ H2 R) as [C D]. split; auto. eapply repr_ext; eauto. intros x. unfold om_over, slice_map. cbn.
        destruct (x <? len) eqn:EX; auto. now replace (off + x =? k) with false by lia.
  Qed.
  Lemma slice_formats_spec : forall off len (fs : list (N * N)) out m0, repr out m0 -> no_general out -> NoDup (map fst fs) ->
    (forall k id, In (k, id) fs -> id <> GENERAL) ->
    let out' := fold_left (fun out kv => if (off <=? fst kv) && (fst kv <? off + len)
                             then ov_set_format out (fst kv - off) (Some (snd kv)) else out) fs out in
    repr out' m0 /\ no_general out' /\
    forall k, pget (o_formats out') k = match (if k <? len then pget fs (off + k) else None) with
                                        | Some id => Some id | None => pget (o_formats out) k end.
  Proof.
    intros off len. induction fs as [|[k id] fs IH]; intros out m0 R G ND NG; cbn [fold_left fst snd].
    - split; auto. split; auto. intros x. cbn. now destruct (x <? len).
    - inversion ND; subst. assert (NG' : forall k id, In (k, id) fs -> id <> GENERAL) by (intros; eapply NG; cbn; eauto).
      destruct ((off <=? k) && (k <? off + len)) eqn:E.
      + destruct (IH (ov_set_format out (k - off) (Some id)) m0) as (A & B & C); auto.
        { now apply set_format_general. }
        split; auto. split; auto. intros x. rewrite C, set_format_get. cbn [mget].
        assert (NZ : id <> 0) by (apply (NG k); cbn; auto). replace (id =? 0) with false by lia.
        destruct (x <? len) eqn:EX.
        * destruct (off + x =? k) eqn:EK.
          -- replace (x =? k - off) with true by lia. replace (pget fs (off + x)) with (@None N); auto.
             symmetry. apply pget_none. now replace (off + x) with k by lia.
          -- now replace (x =? k - off) with false by lia.
        * now replace (x =? k - off) with false by lia.
      + destruct (IH out m0) as (A & B & C); auto. split; auto. split; auto. intros x. rewrite C. cbn [mget].
        destruct (x <? len) eqn:EX; auto. now replace (off + x =? k) with false by lia.
  Qed.
  Lemma ov_slice_spec : forall o m off len, repr o m -> no_general o -> off + len < USIZE_MAX ->
    repr (ov_slice mem o off len) (fun k => if k <? len then m (off + k) else None) /\ no_general (ov_slice mem o off len) /\
    forall k, ov_get_format (ov_slice mem o off len) k = if k <? len then ov_get_format o (off + k) else None.
  Proof.
    intros o m off len (ND & mf & P & DJ & M) [G1 G2] HB. unfold ov_slice.
    replace (sat_add off len) with (off + len) by (unfold sat_add; lia).
    destruct (slice_frags_spec off len (o_frags o) mf ov_new om_empty P HB repr_new) as [A1 A2].
    set (o1 := fold_left _ (o_frags o) ov_new) in *.
    destruct (slice_points_spec off len (o_points o) o1 _ ND A1) as [B1 B2].
    set (o2 := fold_left _ (o_points o) o1) in *.
    destruct (slice_formats_spec off len (o_formats o) o2 _ B1) as (C1 & C2 & C3); auto.
    { split; [rewrite B2, A2; constructor|]. intros k. rewrite B2, A2. discriminate. }
    { intros k id I X. subst. apply (pget_some_in N (o_formats o) k G1) in I. now apply G2 in I. }
    split; [|split; auto].
    - eapply repr_ext; eauto. intros k. unfold om_over, slice_map, om_empty. rewrite M. unfold om_over.
      destruct (k <? len); auto. destruct (pget (o_points o) (off + k)); auto. destruct (mf (off + k)); auto.
    - intros k. unfold ov_get_format. rewrite C3, B2, A2. cbn. destruct (if k <? len then _ else None); auto.
  Qed.

  (* ---- histories ---- *)
  Lemma step_spec : forall o m p, repr o m -> no_general o -> op_ok p ->
    repr (ov_step mem o p) (om_step m p) /\ no_general (ov_step mem o p) /\
    forall k, ov_get_format (ov_step mem o p) k = fm_step (ov_get_format o) p k.
  Proof.
    intros o m p R G OK.
    assert (SAME : forall o', o_formats o' = o_formats o -> no_general o' /\ forall k, ov_get_format o' k = ov_get_format o k).
    { intros o' E. unfold no_general, ov_get_format. now rewrite E. }
    assert (FR : forall f, match f with None => True | Some f => wf f end ->
       repr (apply_opt mem o f) (match f with Some f => om_over (frag_get f) m | None => m end) /\
       o_formats (apply_opt mem o f) = o_formats o).
    { intros [f|] W; cbn [apply_opt]; auto. now apply apply_fragment_spec. }
    destruct p as [off v|off|items|s vs|s vs|a b| |off len|off f]; cbn [ov_step om_step fm_step op_ok] in *.
    - destruct (set_scalar_spec o m off v R) as [A B]. destruct (SAME _ B). auto.
    - destruct (remove_scalar_spec o m off R) as (A & B & _). destruct (SAME _ B). auto.
    - destruct (sparse_offsets items) as [f|] eqn:E.
      + destruct (sparse_offsets_some _ _ E OK) as [W GG]. destruct (FR (Some f) W) as [A B]. destruct (SAME _ B). split; auto.
        eapply repr_ext; eauto. intros k. unfold om_over. now rewrite GG.
      + apply sparse_offsets_none in E. subst. destruct (FR None I) as [A B]. destruct (SAME _ B). split; auto.
    - destruct (dense_range s vs) as [f|] eqn:E.
      + destruct (dense_range_some _ _ _ E OK) as [W GG]. destruct (FR (Some f) W) as [A B]. destruct (SAME _ B). split; auto.
        eapply repr_ext; eauto. intros k. unfold om_over. now rewrite GG.
      + unfold dense_range in E. destruct vs; [|discriminate]. destruct (FR None I) as [A B]. destruct (SAME _ B). split; auto.
        eapply repr_ext; eauto. intros k. unfold om_over, om_block. destruct (k <? s); auto. now destruct (N.to_nat (k - s)).
    - destruct vs as [|v vs0] eqn:EV.
      + cbn [run_range]. destruct (FR None I) as [A B]. destruct (SAME _ B). split; auto.
        eapply repr_ext; eauto. intros k. unfold om_over, om_block. cbn. destruct (k <? s); auto. now destruct (N.to_nat (k - s)).
      + rewrite <- EV in *. destruct (run_range_some s vs) as (f & E & W & GG); [congruence|auto|]. rewrite E.
        destruct (FR (Some f) W) as [A B]. destruct (SAME _ B). split; auto.
        eapply repr_ext; eauto. intros k. unfold om_over. now rewrite GG.
    - destruct (remove_range_spec o m a b R) as [A B]. destruct (SAME _ B). auto.
    - destruct (SAME (fst (clear_all o)) eq_refl). split; auto. cbn. split; [constructor|]. exists (fun _ => None).
      split; [now apply parts_nil|]. split; auto.
    - now apply ov_slice_spec.
    - split; [|split].
      + destruct R as (R1 & mf & R2). split; auto. exists mf. auto.
      + now apply set_format_general.
      + intros k. unfold ov_get_format. rewrite set_format_get. destruct f as [id|]; reflexivity.
  Qed.
  Lemma run_spec : forall h, Forall op_ok h -> repr (ov_run mem h) (om_run h) /\ no_general (ov_run mem h) /\
    forall k, ov_get_format (ov_run mem h) k = fm_run h k.
  Proof.
    unfold ov_run, om_run, fm_run.
    assert (G : forall h o m fm, repr o m -> no_general o -> (forall k, ov_get_format o k = fm k) -> Forall op_ok h ->
      repr (fold_left (ov_step mem) h o) (fold_left om_step h m) /\ no_general (fold_left (ov_step mem) h o) /\
      forall k, ov_get_format (fold_left (ov_step mem) h o) k = fold_left fm_step h fm k).
    { induction h as [|p h IH]; intros o m fm R NG FM OK; cbn [fold_left]; auto. inversion OK; subst.
      destruct (step_spec o m p R NG H1) as (A & B & C). apply IH; auto. intros k. rewrite C.
      destruct p as [| | | | | | |off len|off [id|]]; cbn; rewrite ?FM; auto. }
    intros h OK. apply G; auto; [apply repr_new|]. split; [constructor|]. intros k. discriminate.
  Qed.
End Mem.
