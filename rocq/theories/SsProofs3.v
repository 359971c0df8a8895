(** Spans whose reads are all on one side keep reading the same cells: the arms that move a
    span without rewriting its formulas. *)
From Verif Require Import Base Maps IntervalModel FpModel FpSpec FpProofs FpProofs2 FpProofs4 SsModel SsSpec SsProofs SsProofs2.
From Coq Require Import ZifyN ZifyNat ZifyBool.

Open Scope N_scope.

(** A bound of a reference on the edited sheet is a coordinate of its summary. *)
Definition seen_at (op : sop) (deps : list dep) (s : N) (ru : rule) (z : Z) : Prop :=
  exists i r, z = Z.of_N i /\ i <= umax /\ In (r, ru) deps /\ sh r = s /\ on (op_axis op r) i.

Lemma some_cell : forall op ru p s a b, rpair (o_rows op) ru = Some (a, b) -> not_result ru -> lands ru p ->
  forall z, (z = at_axis a (opx op p) \/ z = at_axis b (opx op p)) ->
  exists y, ucell y /\ reads_by (s, ru) p y /\ Z.of_N (opx op y) = z.
Proof.
  intros op ru p s a b PR NR L z Z.
  apply (lands_pairs op ru p NR) in L. rewrite PR in L. destruct L as [[L1 L2] L3].
  unfold lands1 in *.
  assert (E : exists j, j <= umax /\ axr (rpair (negb (o_rows op)) ru) (oth op p) j).
  { destruct (rpair (negb (o_rows op)) ru) as [[c d] | ]; cbn [axr lands_pair] in *.
    - unfold lands1 in L3. exists (Z.to_N (at_axis c (oth op p))). unfold between. lia.
    - exists 0. split; [unfold umax; lia | exact I]. }
  destruct E as [j [J1 J2]].
  assert (F : (0 <= z <= Z.of_N umax)%Z) by (destruct Z; subst z; assumption).
  exists (if o_rows op then Cl s (Z.to_N z) j else Cl s j (Z.to_N z)).
  assert (OX : opx op (if o_rows op then Cl s (Z.to_N z) j else Cl s j (Z.to_N z)) = Z.to_N z)
    by (unfold opx; destruct (o_rows op); reflexivity).
  assert (OT : oth op (if o_rows op then Cl s (Z.to_N z) j else Cl s j (Z.to_N z)) = j)
    by (unfold oth; destruct (o_rows op); reflexivity).
  split; [unfold ucell; destruct (o_rows op); cbn [crow ccol]; lia | ].
  split; [ | rewrite OX; lia].
  split; [destruct (o_rows op); reflexivity | ].
  cbn [snd]. apply (reads_axes op ru p _ NR). rewrite OX, OT, PR. split; [ | exact J2].
  cbn [axr]. unfold between. destruct Z as [Z | Z]; rewrite <- Z; lia.
Qed.

Lemma on_within : forall op r y, within r y -> on (op_axis op r) (opx op y).
Proof. intros op r y W. unfold op_axis, opx. destruct W as [_ [A B]]. destruct (o_rows op); assumption. Qed.

Lemma bounds_seen : forall op m d deps s ru p a b, described m d deps -> In (s, ru) m -> not_result ru -> placed_at d p ->
  rpair (o_rows op) ru = Some (a, b) ->
  seen_at op deps s ru (at_axis a (opx op p)) /\ seen_at op deps s ru (at_axis b (opx op p)).
Proof.
  intros op m d deps s ru p a b [DC [_ DL]] I NR P PR. rewrite Forall_forall in DC, DL.
  specialize (DC _ I). apply (covered_iff _ _ _ _ NR) in DC. destruct DC as [DC1 DC2].
  pose proof (DL _ I p P) as L. cbn [snd] in L.
  assert (G : forall z, (z = at_axis a (opx op p) \/ z = at_axis b (opx op p)) -> seen_at op deps s ru z).
  { intros z Z. destruct (some_cell op ru p s a b PR NR L z Z) as [y [Y1 [Y2 Y3]]].
    assert (W : exists r, In (r, ru) deps /\ within r y).
    { destruct (whole_dec ru) as [W | W].
      - destruct (DC1 W) as [r [R1 [_ R3]]]. exists r. split; [exact R1 | exact (R3 p y P Y1 Y2)].
      - destruct (DC2 W p y P Y1 Y2) as [r [R1 [_ R3]]]. exists r. split; assumption. }
    destruct W as [r [W1 W2]]. exists (opx op y), r. split; [symmetry; exact Y3 | ].
    split; [unfold opx, ucell in *; destruct (o_rows op); lia | ]. split; [exact W1 | ].
    split; [ | exact (on_within op r y W2)]. destruct W2 as [W2 _]. rewrite <- W2. exact (proj1 Y2). }
  split; apply G; auto.
Qed.

(** For a reference that is not to whole columns, it is one and the same region. *)
Lemma bounds_seen1 : forall op m d deps s ru p a b, described m d deps -> In (s, ru) m -> not_whole ru -> placed_at d p ->
  rpair (o_rows op) ru = Some (a, b) ->
  exists r i j, In (r, ru) deps /\ sh r = s /\ i <= umax /\ j <= umax /\ on (op_axis op r) i /\ on (op_axis op r) j
    /\ at_axis a (opx op p) = Z.of_N i /\ at_axis b (opx op p) = Z.of_N j.
Proof.
  intros op m d deps s ru p a b [DC [_ DL]] I W P PR. rewrite Forall_forall in DC, DL.
  assert (NR : not_result ru) by (intro; subst; exact W).
  specialize (DC _ I). apply (covered_iff _ _ _ _ NR) in DC. destruct DC as [DC1 _].
  pose proof (DL _ I p P) as L. cbn [snd] in L. destruct (DC1 W) as [r [R1 [R2 R3]]].
  destruct (some_cell op ru p s a b PR NR L _ (or_introl eq_refl)) as [y [Y1 [Y2 Y3]]].
  destruct (some_cell op ru p s a b PR NR L _ (or_intror eq_refl)) as [z [Z1 [Z2 Z3]]].
  exists r, (opx op y), (opx op z). split; [exact R1 | ]. split; [exact R2 | ].
  assert (U : forall c, ucell c -> opx op c <= umax) by (intros c; unfold opx, ucell; destruct (o_rows op); lia).
  split; [exact (U _ Y1) | ]. split; [exact (U _ Z1) | ].
  split; [exact (on_within op r y (R3 p y P Y1 Y2)) | ]. split; [exact (on_within op r z (R3 p z P Z1 Z2)) | ].
  split; symmetry; assumption.
Qed.

(** * The placements *)

Lemma images_still : forall op d, classify op (of_domain d) = OtherSheet \/ classify op (of_domain d) = Below -> dom_ok d ->
  images op d d /\ forall p, placed_at d p -> goes op p = Some p.
Proof.
  intros op d C K.
  assert (G : forall p, placed_at d p -> goes op p = Some p).
  { intros p P. apply goes_iff. split; [reflexivity | ]. split; [reflexivity | ].
    destruct (csh p =? o_sh op) eqn:E; [ | reflexivity].
    pose proof (placed_u _ _ K P) as U. apply of_domain_within in P. destruct C as [C | C].
    - exfalso. apply class_other in C. apply C. destruct P as [P _]. rewrite <- P. lia.
    - apply goes1_iff. left. split; [ | reflexivity].
      apply (class_below op (of_domain d) (opx op p) C); [ | exact (on_within _ _ _ P)].
      unfold opx, ucell in *. destruct (o_rows op); lia. }
  split; [ | exact G]. intros p'. split.
  - intro P. exists p'. auto.
  - intros [p [P Q]]. rewrite (G p P) in Q. injection Q. intros. subst. exact P.
Qed.

Lemma shift32_ok : forall v d w, shift32 v d = Some w -> (Z.of_N w = Z.of_N v + d)%Z /\ w <= umax.
Proof. intros v d w H. unfold shift32 in H. cbv zeta in H. destruct (_ && _) eqn:E in H; [ | discriminate]. injection H. intros. subst. lia. Qed.

Definition odz (op : sop) (rw : bool) : Z := if Bool.eqb rw (o_rows op) then dz op else 0%Z.
Lemma op_delta_eq : forall op, op_delta op = (odz op true, odz op false).
Proof. intro op. unfold op_delta, odz, dz. destruct (o_rows op), (o_del op); reflexivity. Qed.

Lemma dom_shift_placed : forall dr dc d d', dom_ok d -> dom_shift dr dc d = Some d' ->
  dom_ok d' /\ forall p', placed_at d' p' <->
    exists p, placed_at d p /\ csh p' = csh p /\ (Z.of_N (crow p') = Z.of_N (crow p) + dr)%Z /\ (Z.of_N (ccol p') = Z.of_N (ccol p) + dc)%Z.
Proof.
  intros dr dc d d' K H. destruct d as [s r0 r1 c | s r c0 c1 | s r0 r1 c0 c1]; cbn [dom_shift dom_ok] in *;
    repeat match type of H with match shift32 ?x ?y with _ => _ end = _ =>
      let E := fresh "E" in destruct (shift32 x y) eqn:E; [apply shift32_ok in E | discriminate] end;
    injection H; intros; subst; (split; [cbn [dom_ok]; lia | ]); intros [s' r' c']; cbn [placed_at csh crow ccol].
  - split.
    + intros [A [B D]]. exists (Cl s (Z.to_N (Z.of_N r' - dr)) c). cbn [csh crow ccol]. lia.
    + intros [[s2 r2 c2] [[A [B D]] [X [Y Z]]]]. cbn [csh crow ccol] in *. lia.
  - split.
    + intros [A [B D]]. exists (Cl s r (Z.to_N (Z.of_N c' - dc))). cbn [csh crow ccol]. lia.
    + intros [[s2 r2 c2] [[A [B D]] [X [Y Z]]]]. cbn [csh crow ccol] in *. lia.
  - split.
    + intros [A [B D]]. exists (Cl s (Z.to_N (Z.of_N r' - dr)) (Z.to_N (Z.of_N c' - dc))). cbn [csh crow ccol]. lia.
    + intros [[s2 r2 c2] [[A [B D]] [X [Y Z]]]]. cbn [csh crow ccol] in *. lia.
Qed.

Lemma above_moves : forall op r y d, op_ok op -> classify op r = Above d -> ucell y -> within r y ->
  csh y = o_sh op /\ thr op <= opx op y.
Proof.
  intros op r y d K C U W. split.
  - destruct (N.eq_dec (sh r) (o_sh op)) as [E | E]; [destruct W; congruence | ].
    apply class_other in E. congruence.
  - apply (class_above op r d (opx op y) K C); [unfold opx, ucell in *; destruct (o_rows op); lia | exact (on_within _ _ _ W)].
Qed.

Lemma goes_above : forall op y y', csh y = o_sh op -> thr op <= opx op y ->
  (goes op y = Some y' <-> csh y' = csh y /\ (Z.of_N (crow y') = Z.of_N (crow y) + odz op true)%Z
                           /\ (Z.of_N (ccol y') = Z.of_N (ccol y) + odz op false)%Z).
Proof.
  intros op y y' E T. rewrite goes_iff. rewrite E, N.eqb_refl. rewrite goes1_iff.
  unfold opx, oth, odz, thr, dz in *. destruct (o_rows op); cbn [Bool.eqb]; destruct (o_del op); split; intro H; lia.
Qed.

Lemma images_above : forall op d d' x, op_ok op -> classify op (of_domain d) = Above x -> dom_ok d ->
  dom_shift (odz op true) (odz op false) d = Some d' ->
  dom_ok d' /\ images op d d' /\ (forall p, placed_at d p -> csh p = o_sh op /\ thr op <= opx op p)
  /\ (forall p, placed_at d p -> goes op p <> None).
Proof.
  intros op d d' x K C DK H. destruct (dom_shift_placed _ _ _ _ DK H) as [K' P'].
  assert (G : forall p, placed_at d p -> csh p = o_sh op /\ thr op <= opx op p).
  { intros p P. apply (above_moves op (of_domain d) p x K C (placed_u _ _ DK P)). apply of_domain_within. exact P. }
  split; [exact K' | ]. split; [ | split; [exact G | ]].
  - intros p'. rewrite P'. split; intros [p [P Q]]; exists p; (split; [exact P | ]); destruct (G p P) as [G1 G2].
    + apply (goes_above op p p' G1 G2). exact Q.
    + apply (goes_above op p p' G1 G2). exact Q.
  - intros p P N0. destruct (G p P) as [G1 G2]. unfold goes in N0. rewrite G1, N.eqb_refl in N0.
    assert (Z : goes1 op (opx op p) <> None).
    { unfold goes1, thr in *. destruct (opx op p <? o_at op); [discriminate | ]. destruct (o_del op); [ | discriminate].
      destruct (opx op p <? o_at op + o_n op) eqn:F; [lia | discriminate]. }
    unfold opx in Z. destruct (o_rows op); destruct (goes1 op _); try discriminate; congruence.
Qed.

(** * The regions of a summary *)

Lemma ax_shift_ok : forall d a b, ax_ok a -> ax_shift d a = Some b -> ax_ok b /\ ax_bounded b = ax_bounded a.
Proof.
  intros d a b K H. destruct a as [p | s e | s | e | ]; cbn [ax_shift] in H; cbv zeta in H.
  - destruct (_ && _) eqn:E in H; [ | discriminate]. injection H. intros. subst. cbn [ax_ok ax_bounded]. split; [lia | reflexivity].
  - destruct (_ || _) eqn:E in H; [discriminate | ]. injection H. intros. subst. cbn [ax_ok ax_bounded] in *. split; [ | reflexivity].
    split; [apply clamp_mono; unfold sat_add; lia | apply clamp_le].
  - destruct (_ <? _)%Z eqn:E in H; injection H; intros; subst; cbn [ax_ok ax_bounded]; (split; [ | reflexivity]); [exact I | apply clamp_le].
  - destruct (_ <? _)%Z eqn:E in H; [discriminate | ]; injection H; intros; subst; cbn [ax_ok ax_bounded]. split; [apply clamp_le | reflexivity].
  - injection H. intros. subst. split; [exact I | reflexivity].
Qed.
Lemma ax_shift_0 : forall a, ax_ok a -> ax_shift 0 a = Some a.
Proof.
  assert (Q : forall p, p <= umax -> sat_add p 0 = Z.of_N p) by (intros p H; unfold sat_add, umax, i64min, i64max in *; lia).
  assert (C : forall p, p <= umax -> clamp32 (Z.of_N p) = p).
  { intros p H. unfold clamp32. destruct (Z.of_N p <? 0)%Z eqn:E; [lia | ]. destruct (Z.of_N umax <? Z.of_N p)%Z eqn:F; lia. }
  intros [p | s e | s | e | ] K; cbn [ax_shift ax_ok] in *; cbv zeta; rewrite ?Q by lia.
  - destruct (_ && _) eqn:E; [rewrite N2Z.id; reflexivity | lia].
  - destruct (_ || _) eqn:E; [lia | ]. rewrite !C by lia. reflexivity.
  - destruct (_ <? _)%Z eqn:E; [lia | ]. rewrite C by lia. reflexivity.
  - destruct (_ <? _)%Z eqn:E; [lia | ]. rewrite C by lia. reflexivity.
  - reflexivity.
Qed.

Lemma shift_rok : forall dr dc r r', rg_ok r -> shift dr dc r = Some r' ->
  sh r' = sh r /\ rg_ok r' /\ ax_bounded (rows r') = ax_bounded (rows r) /\ ax_bounded (cols r') = ax_bounded (cols r)
  /\ (rows r = All -> rows r' = All).
Proof.
  intros dr dc r r' [K1 K2] H. unfold shift in H.
  destruct (ax_shift dr (rows r)) as [a | ] eqn:A; [ | discriminate].
  destruct (ax_shift dc (cols r)) as [b | ] eqn:B; [ | discriminate]. injection H. intros. subst. cbn [sh rows cols rg_ok].
  destruct (ax_shift_ok _ _ _ K1 A) as [A1 A2]. destruct (ax_shift_ok _ _ _ K2 B) as [B1 B2].
  split; [reflexivity | ]. split; [split; assumption | ]. split; [assumption | ]. split; [assumption | ].
  intro E. rewrite E in A. cbn in A. injection A. auto.
Qed.

(** Backwards along the axis of the edit. *)
Lemma shift_back_op : forall op r r' y', rg_ok r -> ax_bounded (op_axis op r) = true ->
  shift (odz op true) (odz op false) r = Some r' -> ucell y' -> within r' y' ->
  exists y, ucell y /\ within r y /\ csh y' = csh y /\ (Z.of_N (crow y') = Z.of_N (crow y) + odz op true)%Z
            /\ (Z.of_N (ccol y') = Z.of_N (ccol y) + odz op false)%Z.
Proof.
  intros op r r' [s' i' j'] [K1 K2] B H [U1 U2] [W1 [W2 W3]]. unfold shift in H. unfold odz, op_axis in *. cbn [csh crow ccol] in *.
  destruct (o_rows op); cbn [Bool.eqb] in *.
  - destruct (ax_shift (dz op) (rows r)) as [a | ] eqn:A; [ | discriminate]. rewrite (ax_shift_0 _ K2) in H.
    injection H. intros. subst. cbn [sh rows cols] in *.
    destruct (shift_back _ _ _ K1 B A i' U1 W2) as [x [X [X1 X2]]].
    exists (Cl (sh r) x j'). unfold ucell, within. cbn [csh crow ccol]. repeat split; auto; lia.
  - rewrite (ax_shift_0 _ K1) in H. destruct (ax_shift (dz op) (cols r)) as [a | ] eqn:A; [ | discriminate].
    injection H. intros. subst. cbn [sh rows cols] in *.
    destruct (shift_back _ _ _ K2 B A j' U2 W3) as [x [X [X1 X2]]].
    exists (Cl (sh r) i' x). unfold ucell, within. cbn [csh crow ccol]. repeat split; auto; lia.
Qed.

Lemma carried_still : forall op g r ru, rg_ok r -> keeps_kind g ->
  (classify op r = OtherSheet \/ classify op r = Below) -> carried op g (r, ru) (r, g ru).
Proof.
  intros op g r ru K KG C.
  assert (G : forall y, ucell y -> within r y -> goes op y = Some y).
  { intros y U W. apply goes_iff. split; [reflexivity | ]. split; [reflexivity | ].
    destruct (csh y =? o_sh op) eqn:E; [ | reflexivity]. destruct C as [C | C].
    - exfalso. apply class_other in C. apply C. destruct W as [P _]. rewrite <- P. lia.
    - apply goes1_iff. left. split; [ | reflexivity].
      apply (class_below op r (opx op y) C); [ | exact (on_within _ _ _ W)].
      unfold opx, ucell in *. destruct (o_rows op); lia. }
  unfold carried. cbn [fst snd]. split; [reflexivity | ]. split; [reflexivity | ]. split.
  { split; [exact K | ]. unfold shaped. cbn [fst snd]. destruct (KG ru) as [K1 K2].
    destruct ru, (g _); cbn [not_whole] in K1; try tauto;
      try (exfalso; destruct K2 as [K2 K3]; solve [specialize (K2 eq_refl); discriminate | specialize (K3 eq_refl); discriminate]). }
  split; [auto | ]. split.
  - intros y y' U U' W Q. rewrite (G y U W) in Q. injection Q. intros. subst. exact W.
  - intros y' U' W. exists y', y'. rewrite (G y' U' W). auto 6.
Qed.

Lemma keeps_shape : forall g r r' ru, keeps_kind g -> ax_bounded (rows r') = ax_bounded (rows r) -> ax_bounded (cols r') = ax_bounded (cols r) ->
  (rows r = All -> rows r' = All) -> shaped (r, ru) -> shaped (r', g ru).
Proof.
  intros g r r' ru KG A B C. unfold shaped, bounded. cbn [fst snd]. destruct (KG ru) as [K1 K2]. rewrite A, B.
  destruct ru, (g _); cbn [not_whole] in K1; try tauto;
    try (exfalso; destruct K2 as [K2 K3]; solve [specialize (K2 eq_refl); discriminate | specialize (K3 eq_refl); discriminate]).
Qed.

Lemma carried_above : forall op g r r' ru d, op_ok op -> rg_ok r -> keeps_kind g -> shaped (r, ru) -> ru <> WResult ->
  classify op r = Above d -> shift (odz op true) (odz op false) r = Some r' -> carried op g (r, ru) (r', g ru).
Proof.
  intros op g r r' ru d K R KG SH NR C H. destruct (shift_rok _ _ _ _ R H) as [S1 [S2 [S3 [S4 S5]]]].
  unfold carried. cbn [fst snd]. split; [reflexivity | ]. split; [exact S1 | ].
  split; [split; [exact S2 | ]; exact (keeps_shape g r r' ru KG S3 S4 S5) | ].
  split; [exact S5 | ]. split.
  - intros y y' U U' W Q. destruct (above_moves op r y d K C U W) as [A B].
    apply (goes_above op y y' A B) in Q. destruct Q as [Q1 [Q2 Q3]].
    exact (shift_within _ _ _ _ _ _ R H U U' Q1 Q2 Q3 W).
  - intros y' U' W'.
    assert (X : ax_bounded (op_axis op r) = true \/ (o_rows op = true /\ rows r = All /\ ~ not_whole ru)).
    { unfold shaped, bounded in SH. cbn [fst snd] in SH. unfold op_axis. destruct ru; cbn [not_whole].
      - left. destruct (o_rows op); tauto.
      - left. destruct (o_rows op); tauto.
      - destruct (o_rows op); [right | left]; tauto.
      - congruence. }
    destruct X as [B | [RW [AL NW]]].
    + destruct (shift_back_op op r r' y' R B H U' W') as [y [Y1 [Y2 [Y3 [Y4 Y5]]]]].
      destruct (above_moves op r y d K C Y1 Y2) as [P Q]. exists y, y'.
      split; [exact Y1 | ]. split; [exact Y2 | ]. split; [apply (goes_above op y y' P Q); auto | ]. auto.
    + (* whole columns pushed down *)
      destruct (some_row op K) as [i [j [I1 [I2 I3]]]]. destruct W' as [W1 [W2 W3]].
      assert (CC : cols r' = cols r).
      { unfold shift, odz in H. rewrite RW in H. cbn [Bool.eqb] in H. rewrite AL in H. cbn [ax_shift] in H.
        rewrite (ax_shift_0 _ (proj2 R)) in H. injection H. intros. subst. reflexivity. }
      assert (SO : sh r = o_sh op).
      { destruct (N.eq_dec (sh r) (o_sh op)) as [E | E]; [exact E | ]. apply class_other in E. congruence. }
      exists (Cl (csh y') i (ccol y')), (Cl (csh y') j (ccol y')). unfold ucell, within in *. cbn [csh crow ccol].
      split; [lia | ]. split; [rewrite <- S1, <- CC, AL; repeat split; auto | ].
      split; [ | tauto].
      apply goes_iff. unfold opx, oth. rewrite RW. cbn [csh crow ccol].
      replace (csh y' =? o_sh op) with true by (rewrite W1, S1, SO, N.eqb_refl; reflexivity). auto.
Qed.
