(** The arm that rewrites the formulas of a span. *)
From Verif Require Import Base Maps IntervalModel FpModel FpSpec FpProofs FpProofs2 FpProofs3 FpProofs4 SsModel SsSpec SsProofs SsProofs2 SsProofs3 SsProofs4 SsProofs5 SsProofs6.
From Coq Require Import ZifyN ZifyNat ZifyBool.

Open Scope N_scope.

Lemma offsets_pair : forall ru rw a b, rpair rw ru = Some (a, b) ->
  exists l, rel_offsets ru rw = Some l /\ (forall off, a = Rel off -> In off l) /\ (forall off, b = Rel off -> In off l).
Proof.
  intros ru rw a b H. destruct ru, rw; cbn [rpair] in H; try discriminate; injection H; intros; subst;
    cbn [rel_offsets]; eexists; (split; [reflexivity | ]);
    (split; intros off ->; unfold poffs; cbn [flat_map]; repeat rewrite in_app_iff; cbn [In]; tauto).
Qed.

(** The authored coordinate and the one that is read lie on the same side of the edit. *)
Definition side (op : sop) (moved : bool) (i : N) : Prop := if moved then thr op <= i else i < o_at op.

Lemma frame_side : forall op deps fr s t b x, op_ok op -> frame_sound op deps (f_row fr) (f_col fr) = true ->
  (exists c, tpair (o_rows op) t = Some (b, c) \/ tpair (o_rows op) t = Some (c, b)) ->
  forall i r, at_axis (proj_of (forg fr (o_rows op)) b) x = Z.of_N i -> i <= umax -> In (r, rule_of fr t) deps -> sh r = s -> on (op_axis op r) i ->
  s = o_sh op /\ side op (above (classify op r)) i /\ side op (above (classify op r)) (tix b).
Proof.
  intros op deps fr s t b x K F [c PR] i r Z U J S O.
  unfold frame_sound in F. rewrite forallb_forall in F. specialize (F _ J). unfold frame_dep in F. cbn [fst snd] in F.
  assert (OFF : exists l, rel_offsets (rule_of fr t) (o_rows op) = Some l /\ (forall off, proj_of (forg fr (o_rows op)) b = Rel off -> In off l)).
  { destruct PR as [PR | PR]; pose proof (rpair_of (o_rows op) fr t) as RP; rewrite PR in RP; cbn [option_map fst snd] in RP;
      destruct (offsets_pair _ _ _ _ RP) as [l [L1 [L2 L3]]]; exists l; auto. }
  destruct OFF as [l [L1 L2]]. rewrite L1 in F.
  assert (OR : (if o_rows op then Z.of_N (f_row fr) else Z.of_N (f_col fr)) = Z.of_N (forg fr (o_rows op))) by (unfold forg; destruct (o_rows op); reflexivity).
  rewrite OR in F.
  assert (SO : classify op r <> OtherSheet -> s = o_sh op).
  { intro C. destruct (N.eq_dec (sh r) (o_sh op)) as [E | E]; [congruence | ]. apply class_other in E. congruence. }
  assert (AU : forall fl off, b = TRel off -> forallb (frame_offset op (Z.of_N (forg fr (o_rows op)) - 1) fl) l = true -> side op fl off).
  { intros fl off E G. subst b. cbn [proj_of] in L2. rewrite forallb_forall in G. specialize (G _ (L2 _ eq_refl)).
    unfold frame_offset in G. cbv zeta in G. unfold side, thr.
    replace (Z.of_N (forg fr (o_rows op)) - 1 + (Z.of_N off - (Z.of_N (forg fr (o_rows op)) - 1)))%Z with (Z.of_N off) in G by lia.
    destruct (Z.of_N off <? 0)%Z eqn:N0; [lia | ].
    destruct (o_del op).
    - destruct (_ && _) eqn:B in G; [discriminate | ]. apply eqb_prop in G. destruct fl; lia.
    - apply eqb_prop in G. destruct fl; lia. }
  destruct (classify op r) as [ | | d | | ] eqn:C; try discriminate; cbn [above] in *.
  - assert (LT : i < o_at op) by exact (class_below op r i C U O).
    split; [apply SO; discriminate | ]. split; [exact LT | ].
    destruct b as [off | k]; cbn [tix]; [exact (AU false off eq_refl F) | ]. cbn [proj_of at_axis] in Z. unfold side. lia.
  - destruct (class_above op r d i K C U O) as [LT _].
    split; [apply SO; discriminate | ]. split; [exact LT | ].
    destruct b as [off | k]; cbn [tix]; [exact (AU true off eq_refl F) | ]. cbn [proj_of at_axis] in Z. unfold side. lia.
Qed.

Lemma adjd_moved : forall op m b b' o o' x x' i, side op m i -> side op m (tix b) -> adjd op b b' -> tabs b' = tabs b ->
  (Z.of_N o' = Z.of_N o + dz op)%Z -> (Z.of_N x' = Z.of_N x + dz op)%Z ->
  at_axis (proj_of o b) x = Z.of_N i ->
  exists j, at_axis (proj_of o' b') x' = Z.of_N j /\ goes1 op i = Some j.
Proof.
  intros op m b b' o o' x x' i S1 S2 [A1 A2] T E1 E2 Z. unfold side in *. destruct m.
  - destruct (A2 S2) as [_ A].
    assert (Q : at_axis (proj_of o' b') x' = (Z.of_N i + dz op)%Z).
    { destruct b, b'; cbn [tabs tix proj_of at_axis] in *; try discriminate; lia. }
    exists (Z.to_N (Z.of_N i + dz op)). unfold thr, dz in *. split; [rewrite Q; destruct (o_del op); lia | ].
    apply goes1_iff. right. unfold thr, dz. destruct (o_del op); lia.
  - rewrite (A1 S2) in *. exists i. split; [ | apply goes1_iff; left; auto].
    rewrite <- Z. destruct b; cbn [proj_of at_axis] in *; lia.
Qed.

Lemma rewrite_moves : forall op d deps fr fr' t t' p p', op_ok op -> frame_ok fr ->
  described (meaning fr) d deps -> frame_sound op deps (f_row fr) (f_col fr) = true -> In t (f_refs fr) ->
  (o_del op = true \/ tmax op t + o_n op <= umax) -> adj_ref op t = Some t' -> placed_at d p -> steps op p p' (dz op) ->
  (Z.of_N (f_row fr') = Z.of_N (f_row fr) + odz op true)%Z -> (Z.of_N (f_col fr') = Z.of_N (f_col fr) + odz op false)%Z ->
  follows op p p' (tsheet t, rule_of fr t) (tsheet t', rule_of fr' t').
Proof.
  intros op d deps fr fr' t t' p p' K FK D F J RM A P [S1 S2] O1 O2.
  assert (TK : tref_ok t) by (destruct FK as [FK _]; rewrite Forall_forall in FK; exact (FK _ J)).
  destruct (adj_ref_spec op t t' K TK RM A) as [T1 [T2 [T3 [T4 [T5 T6]]]]].
  assert (JM : In (tsheet t, rule_of fr t) (meaning fr)) by (apply in_map_iff; exists t; auto).
  assert (NR : not_result (rule_of fr t)) by (destruct t; discriminate).
  assert (NR' : not_result (rule_of fr' t')) by (destruct t'; discriminate).
  assert (OX : (Z.of_N (forg fr' (o_rows op)) = Z.of_N (forg fr (o_rows op)) + dz op)%Z /\ forg fr' (negb (o_rows op)) = forg fr (negb (o_rows op))).
  { unfold forg, odz in *. destruct (o_rows op); cbn [Bool.eqb negb] in *; lia. }
  destruct OX as [OX OY].
  assert (PO : pair_same (rpair (negb (o_rows op)) (rule_of fr t)) (rpair (negb (o_rows op)) (rule_of fr' t')) (oth op p)).
  { rewrite !rpair_of, T5, OY. destruct (tpair (negb (o_rows op)) t) as [[a b] | ]; cbn; auto. }
  assert (PM : pair_moved op (tsheet t) (rpair (o_rows op) (rule_of fr t)) (rpair (o_rows op) (rule_of fr' t')) (opx op p) (opx op p')
     /\ (not_whole (rule_of fr t) -> uniform op (tsheet t) (rpair (o_rows op) (rule_of fr t)) (opx op p))).
  { destruct (tpair (o_rows op) t) as [[a b] | ] eqn:TP.
    - assert (RP : rpair (o_rows op) (rule_of fr t) = Some (proj_of (forg fr (o_rows op)) a, proj_of (forg fr (o_rows op)) b))
        by (rewrite rpair_of, TP; reflexivity).
      destruct (bounds_seen op _ _ _ _ _ p _ _ D JM NR P RP) as [[i [r [Z1 [U1 [J1 [H1 N1]]]]]] [j [q [Z2 [U2 [J2 [H2 N2]]]]]]].
      destruct (frame_side op deps fr _ t a (opx op p) K F (ex_intro _ b (or_introl TP)) i r Z1 U1 J1 H1 N1) as [SO [X1 X2]].
      destruct (frame_side op deps fr _ t b (opx op p) K F (ex_intro _ a (or_intror TP)) j q Z2 U2 J2 H2 N2) as [_ [Y1 Y2]].
      specialize (T6 SO). destruct (tpair (o_rows op) t') as [[a' b'] | ] eqn:TP'; [ | contradiction].
      destruct T6 as [TA [TB T6]].
      assert (OA : outside op a) by (unfold outside, side in *; destruct (above (classify op r)); auto).
      assert (OB : outside op b) by (unfold outside, side in *; destruct (above (classify op q)); auto).
      destruct (T6 OA OB) as [DA DB].
      destruct (adjd_moved op _ a a' _ _ _ _ i X1 X2 DA TA OX S2 Z1) as [i' [I1 I2]].
      destruct (adjd_moved op _ b b' _ _ _ _ j Y1 Y2 DB TB OX S2 Z2) as [j' [J3 J4]].
      rewrite (rpair_of _ fr' t'), TP', RP. cbn [option_map fst snd pair_moved uniform].
      split.
      + unfold moved1. rewrite SO, N.eqb_refl. split; [exists i, i' | exists j, j']; auto.
      + intros W _ DF. destruct (bounds_seen1 op _ _ _ _ _ p _ _ D JM W P RP) as [r0 [i0 [j0 [B1 [B2 [B3 [B4 [B5 [B6 [B7 B8]]]]]]]]]].
        destruct (frame_side op deps fr _ t a (opx op p) K F (ex_intro _ b (or_introl TP)) i0 r0 B7 B3 B1 B2 B5) as [_ [V1 _]].
        destruct (frame_side op deps fr _ t b (opx op p) K F (ex_intro _ a (or_intror TP)) j0 r0 B8 B4 B1 B2 B6) as [_ [V2 _]].
        rewrite B7, B8. unfold side, thr in *. rewrite DF in *. destruct (above (classify op r0)); [right | left]; lia.
    - assert (RP : rpair (o_rows op) (rule_of fr t) = None) by (rewrite rpair_of, TP; reflexivity).
      assert (TP' : tpair (o_rows op) t' = None).
      { destruct (o_rows op); [apply T3; exact TP | destruct t; discriminate]. }
      rewrite RP, (rpair_of _ fr' t'), TP'. cbn. auto. }
  destruct PM as [PM PU]. rewrite T2.
  assert (M : moves op (tsheet t) (rule_of fr t) (rule_of fr' t') p p').
  { split; [exact NR | ]. split; [exact NR' | ]. split; [ | split; [exact S1 | split; assumption]].
    specialize (T4 fr). destruct t, t'; cbn [rule_of not_whole] in *; tauto. }
  assert (L : lands (rule_of fr t) p) by (destruct D as [_ [_ DD]]; rewrite Forall_forall in DD; exact (DD _ JM p P)).
  apply moves_follows; [exact M | ]. intro W. exact (moves_onto op _ _ _ p p' K M L (PU W)).
Qed.

Lemma adj_refs_all : forall op l l', adj_refs op l = Some l' -> Forall2 (fun t t' => adj_ref op t = Some t') l l'.
Proof.
  intros op l. induction l as [ | t l IH]; intros l' H; cbn [adj_refs] in H.
  - injection H. intros. subst. constructor.
  - destruct (adj_ref op t) as [t' | ] eqn:A; [ | discriminate]. destruct (adj_refs op l) as [r | ]; [ | discriminate].
    injection H. intros. subst. constructor; [exact A | ]. apply IH. reflexivity.
Qed.

Lemma rewrite_carries : forall op sp dr dc odr odc sp', op_ok op -> sound sp -> roomy op sp ->
  classify_span op (s_dom sp) (s_deps sp) = Shift dr dc odr odc true ->
  do_rewrite op sp dr dc = Moved sp' ->
  sound sp' /\ carries op sp sp'.
Proof.
  intros op sp dr dc odr odc sp' K SD R C H. destruct SD as [K1 [K2 [[[AG1 AG2] SK] D]]].
  unfold do_rewrite in H.
  destruct (with_origin (s_template sp) dr dc) as [fr0 | ] eqn:WO; [ | discriminate].
  destruct (dom_shift dr dc (s_dom sp)) as [d' | ] eqn:DS; [ | discriminate].
  destruct (frame_sound op (s_deps sp) (f_row (s_template sp)) (f_col (s_template sp))) eqn:F; cbn [negb] in H; [ | discriminate].
  destruct (adj_refs op (f_refs (s_template sp))) as [refs | ] eqn:AR; [ | discriminate]. cbv zeta in H.
  destruct (derive (of_domain d') (meaning (Frame refs (f_row fr0) (f_col fr0))) []) as [deps' | ] eqn:DV; [ | discriminate].
  injection H. intros. subst sp'. clear H.
  unfold classify_span in C.
  destruct (classify op (of_domain (s_dom sp))) as [ | | x | | ] eqn:CD;
    try (pose proof (plan_parts op (s_deps sp) 0 0) as PP; rewrite C in PP; exfalso; tauto).
  2: { destruct (o_del op); discriminate. } 2: { discriminate. }
  pose proof (plan_parts op (s_deps sp) (fst (op_delta op)) (snd (op_delta op))) as PP. rewrite C in PP.
  rewrite op_delta_eq in PP. cbn [fst snd] in PP. destruct PP as [-> [-> _]].
  destruct (images_above op _ _ x K CD K1 DS) as [DK [IM [AB ALL]]].
  destruct (op_small op K) as [SZ [SR SC]].
  destruct (meaning_shift _ _ _ _ K2 SR SC WO) as [FK [_ [_ [OR OC]]]].
  pose proof (adj_refs_all _ _ _ AR) as AA.
  assert (RM : forall t, In t (f_refs (s_template sp)) -> o_del op = true \/ tmax op t + o_n op <= umax).
  { intros t J. destruct R as [R | [_ [_ R]]]; [left; exact R | right]. rewrite Forall_forall in R. exact (R _ J). }
  assert (FK' : frame_ok (Frame refs (f_row fr0) (f_col fr0))).
  { split; [ | exact (proj2 FK)]. cbn [f_refs]. rewrite Forall_forall. intros t' J'.
    destruct (forall2_in_r _ _ _ _ _ AA t' J') as [t [J A]].
    assert (TK : tref_ok t) by (destruct K2 as [K2 _]; rewrite Forall_forall in K2; exact (K2 _ J)).
    exact (proj1 (adj_ref_spec op t t' K TK (RM t J) A)). }
  split.
  - split; [exact DK | ]. split; [exact FK' | ]. split; [split; [split; reflexivity | exact FK'] | ].
    cbn [s_template s_dom s_deps]. exact (derive_described d' _ deps' DK FK' DV).
  - split; cbn [s_dom s_eval]; [exact IM | ]. intros p p' P G. rewrite AG1. unfold formula_follows, meaning at 2. cbn [f_refs].
    destruct (AB p P) as [A1 A2]. pose proof (steps_above op p p' A1 A2 G) as ST.
    unfold meaning.
    assert (T : forall l l', (forall t, In t l -> In t (f_refs (s_template sp))) -> Forall2 (fun t t' => adj_ref op t = Some t') l l' ->
      Forall2 (follows op p p') (map (fun t => (tsheet t, rule_of (s_template sp) t)) l)
        (map (fun t => (tsheet t, rule_of (Frame refs (f_row fr0) (f_col fr0)) t)) l')).
    { intros l l' Q H. induction H as [ | t t' l l' A H IH]; cbn [map]; [constructor | ].
      constructor; [ | apply IH; intros q I; apply Q; right; exact I].
      pose proof (Q t (or_introl eq_refl)) as J.
      exact (rewrite_moves op (s_dom sp) (s_deps sp) (s_template sp) _ t t' p p' K K2 D F J (RM t J) A P ST OR OC). }
    exact (T _ _ (fun t I => I) AA).
Qed.
