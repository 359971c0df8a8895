(** Regions, single edits, histories of edits and literals. *)
From Verif Require Import Base Maps IntervalModel FpModel FpSpec FpProofs FpProofs2 FpProofs3 FpProofs4 SsModel SsSpec SsProofs SsProofs2 SsProofs3 SsProofs4 SsProofs5 SsProofs6 SsProofs7 SsProofs8 SsProofs9.
From Coq Require Import ZifyN ZifyNat ZifyBool.

Open Scope N_scope.

(** * Regions *)
Lemma within_op : forall op r y, within r y -> ucell y -> csh y = sh r /\ on (op_axis op r) (opx op y) /\ opx op y <= umax.
Proof. intros op r y [A [B C]] [U V]. unfold op_axis, opx. destruct (o_rows op); auto. Qed.

Lemma some_within : forall op r i, rg_ok r -> on (op_axis op r) i -> i <= umax ->
  exists y, ucell y /\ within r y /\ opx op y = i /\ csh y = sh r.
Proof.
  intros op r i [R1 R2] O U. destruct (bound_on _ R1) as [X1 [_ [X2 _]]]. destruct (bound_on _ R2) as [Y1 [_ [Y2 _]]].
  unfold op_axis in O. exists (if o_rows op then Cl (sh r) i (fst (ax_bounds (cols r))) else Cl (sh r) (fst (ax_bounds (rows r))) i).
  unfold ucell, within, opx. destruct (o_rows op); cbn [csh crow ccol]; auto.
Qed.

Lemma class_motion : forall op r, op_ok op -> rg_ok r ->
  match classify op r with
  | OtherSheet => sh r <> o_sh op /\ stays op r
  | Below => stays op r
  | Above d => moves_by op d r
  | Contained => deleted op r
  | Straddles => ~ stays op r /\ ~ deleted op r /\ forall d, ~ moves_by op d r
  end.
Proof.
  intros op r K R. destruct (classify op r) as [ | | d | | ] eqn:C.
  - apply class_other in C. split; [exact C | ]. intros y U W. destruct (within_op op r y W U) as [S _].
    apply goes_iff. split; [reflexivity | ]. split; [reflexivity | ]. destruct (csh y =? o_sh op) eqn:E; [lia | reflexivity].
  - intros y U W. destruct (within_op op r y W U) as [S [O X]]. pose proof (class_below op r _ C X O) as L.
    apply goes_iff. split; [reflexivity | ]. split; [reflexivity | ]. destruct (csh y =? o_sh op) eqn:E; [ | reflexivity].
    apply goes1_iff. left. auto.
  - intros y U W. destruct (within_op op r y W U) as [S [O X]]. destruct (class_above op r d _ K C X O) as [T E]. subst d.
    destruct (above_moves op r y _ K C U W) as [SO _].
    assert (G : exists j, goes1 op (opx op y) = Some j).
    { exists (Z.to_N (Z.of_N (opx op y) + dz op)). apply goes1_iff. right. split; [exact T | ]. unfold thr, dz in *. destruct (o_del op); lia. }
    destruct G as [j G]. destruct (goes_some op y j SO G) as [y' Y]. exists y'. split; [exact Y | ].
    apply (goes_above op y y' SO T) in Y. unfold odz in Y. destruct (o_rows op); cbn [Bool.eqb] in Y; tauto.
  - destruct (class_sheet _ _ C) as [SS _]. destruct (class_straddles op r K R C) as [[i [I1 [I2 I3]]] [i0 [j [J1 [J2 [J3 [k [K1 [K2 K3]]]]]]]]].
    split; [ | split].
    + intro H. destruct (some_within op r i R I1 I2) as [y [U [W [Y S]]]]. apply I3. specialize (H y U W). apply goes_iff in H.
      rewrite S, SS, N.eqb_refl, Y in H. tauto.
    + intro H. destruct (some_within op r i0 R J1 J2) as [y [U [W [Y S]]]]. specialize (H y U W).
      rewrite <- Y in J3. destruct (goes_some op y j) as [y' G]; congruence.
    + intros d H. destruct (some_within op r i0 R J1 J2) as [y [U [W [Y S]]]]. destruct (some_within op r k R K1 K2) as [z [UZ [WZ [Z1 S2]]]].
      destruct (H y U W) as [y' [G1 D1]]. destruct (H z UZ WZ) as [z' [G2 D2]].
      apply goes_iff in G1, G2. rewrite S, SS, N.eqb_refl in G1. rewrite S2, SS, N.eqb_refl in G2.
      destruct G1 as [_ [_ G1]]. destruct G2 as [_ [_ G2]]. rewrite Y, J3 in G1. rewrite Z1 in G2. specialize (K3 _ G2).
      injection G1. intro Q. subst j. apply K3. unfold opx in *. destruct (o_rows op); lia.
  - destruct (N.eq_dec (sh r) (o_sh op)) as [SS | SS]; [ | apply class_other in SS; congruence].
    intros y U W. destruct (within_op op r y W U) as [S [O X]]. pose proof (class_contained op r _ K C X O) as L.
    unfold goes. rewrite S, SS, N.eqb_refl. unfold opx in L. destruct (o_rows op); rewrite L; reflexivity.
Qed.

(** * One edit *)
Lemma demote_straddles : forall op d deps, classify_span op d deps = Demote DeleteOverlaps ->
  o_del op = true /\ classify op (of_domain d) = Straddles.
Proof.
  intros op d deps C. unfold classify_span in C.
  assert (NP : forall dr dc, plan_reads op deps dr dc <> Demote DeleteOverlaps).
  { intros dr dc. unfold plan_reads. destruct (partition_reads _ _ _) as [st | ]; [ | discriminate].
    destruct (_ && _); [destruct (_ || _); discriminate | ]. destruct (displaced_abs st); [discriminate | ].
    destruct (shifting_rel st), (still_rel st); discriminate. }
  destruct (classify op (of_domain d)); try (exfalso; exact (NP _ _ C)); try discriminate.
  destruct (o_del op); [auto | discriminate].
Qed.

Lemma within_placed : forall d p, dom_ok d -> (within (of_domain d) p <-> placed_at d p).
Proof. intros d p K. destruct d; unfold within; cbn [of_domain sh rows cols on placed_at dom_ok] in *; intuition lia. Qed.

Lemma straddles_cut : forall op sp, op_ok op -> dom_ok (s_dom sp) -> o_del op = true ->
  classify op (of_domain (s_dom sp)) = Straddles -> cut op sp.
Proof.
  intros op sp K DK DL C. pose proof (of_domain_ok _ DK) as RK. destruct (class_sheet _ _ C) as [SS CA].
  assert (AK : ax_ok (op_axis op (of_domain (s_dom sp)))) by (unfold op_axis, rg_ok in *; destruct (o_rows op); tauto).
  destruct (class_straddles op _ K RK C) as [_ [i [j [J1 [J2 [J3 [k [K1 [K2 K3]]]]]]]]].
  assert (HIT : exists k, on (op_axis op (of_domain (s_dom sp))) k /\ k <= umax /\ goes1 op k = None).
  { destruct (straddles_band op _ K AK DL CA) as [B1 [B2 B3]]. destruct K as [KA KB].
    exists (N.max (o_at op) (fst (ax_bounds (op_axis op (of_domain (s_dom sp)))))).
    split; [ | split; [lia | ]].
    - clear - B1 B2 B3 KB AK. destruct (op_axis op (of_domain (s_dom sp))); cbn in *; lia.
    - unfold goes1. rewrite DL. destruct (_ <? o_at op) eqn:X; [lia | ]. destruct (_ <? o_at op + o_n op) eqn:Y; [reflexivity | lia]. }
  destruct HIT as [h [H1 [H2 H3]]]. split.
  - destruct (some_within op _ h RK H1 H2) as [y [U [W [Y S]]]]. exists y. split; [apply within_placed; assumption | ].
    unfold goes. rewrite S, SS, N.eqb_refl. unfold opx in Y. destruct (o_rows op); rewrite Y, H3; reflexivity.
  - destruct (some_within op _ i RK J1 J2) as [y [U [W [Y S]]]]. exists y. split; [apply within_placed; assumption | ].
    rewrite <- Y in J3. destruct (goes_some op y j) as [y' G]; [congruence | exact J3 | congruence].
Qed.

Lemma edit_carries : forall op sp, op_ok op -> sound sp -> own_origin sp -> roomy op sp -> (cut op sp -> aligned op sp) ->
  match edit_span op sp with
  | Kept => carries op sp sp
  | Moved sp' => (sound sp' /\ own_origin sp') /\ carries op sp sp'
  | Halves up lo => ((sound up /\ own_origin up) /\ (sound lo /\ own_origin lo)) /\ carries2 op sp up lo
  | Gone => forall p, placed_at (s_dom sp) p -> goes op p = None
  | Demoted | Failed => True
  end.
Proof.
  intros op sp K S O R A. unfold edit_span.
  destruct (classify_span op (s_dom sp) (s_deps sp)) as [ | dr dc odr odc rw | | why | ] eqn:C.
  - exact (noop_carries op sp K S C).
  - destruct rw.
    + destruct (do_rewrite op sp dr dc) as [ | sp' | | | | ] eqn:H; auto; try (unfold do_rewrite in H; cbv zeta in H;
        repeat match type of H with context [match ?x with _ => _ end] => destruct x end; discriminate).
      destruct (rewrite_carries op sp dr dc odr odc sp' K S R C H) as [X Y]. split; [ | exact Y]. split; [exact X | ].
      unfold do_rewrite in H. cbv zeta in H. repeat match type of H with context [match ?x with _ => _ end] => destruct x; try discriminate end.
      injection H. intros. subst sp'. split; reflexivity.
    + destruct (do_shift op sp dr dc odr odc) as [ | sp' | | | | ] eqn:H; auto; try (unfold do_shift in H;
        repeat match type of H with context [match ?x with _ => _ end] => destruct x end; discriminate).
      destruct (shift_carries op sp dr dc odr odc sp' K S R C H) as [X Y]. split; [ | exact Y]. split; [exact X | ].
      unfold do_shift in H. repeat match type of H with context [match ?x with _ => _ end] => destruct x; try discriminate end.
      injection H. intros. subst sp'. split; reflexivity.
  - destruct (do_split op sp) as [ | | up lo | | | ] eqn:H; auto; try (exfalso; unfold do_split in H; cbv zeta in H;
      repeat match type of H with context [match ?x with _ => _ end] => destruct x end; discriminate).
    destruct (split_carries op sp up lo K S R O H) as [X [Y Z]]. split; [ | exact Z].
    unfold do_split in H. cbv zeta in H. repeat match type of H with context [match ?x with _ => _ end] => destruct x; try discriminate end.
    injection H. intros. subst up lo. split; (split; [assumption | ]); [exact O | split; reflexivity].
  - destruct why; auto. destruct (do_compact op sp) as [ | sp' | | | | ] eqn:H; auto; try (exfalso; unfold do_compact in H;
      repeat match type of H with context [match ?x with _ => _ end] => destruct x end; discriminate).
    destruct (demote_straddles _ _ _ C) as [DL CS].
    destruct (compact_carries op sp sp' K DL S (A (straddles_cut op sp K (proj1 S) DL CS)) C H) as [X Y]. split; [ | exact Y]. split; [exact X | ].
    unfold do_compact in H. repeat match type of H with context [match ?x with _ => _ end] => destruct x; try discriminate end.
    injection H. intros. subst sp'. split; reflexivity.
  - exact (remove_gone op _ _ K (proj1 S) C).
Qed.

(** * Histories *)
Lemma goes_inj : forall op y z w, goes op y = Some w -> goes op z = Some w -> y = z.
Proof.
  intros op y z w A B. apply goes_iff in A, B. destruct A as [A1 [A2 A3]]. destruct B as [B1 [B2 B3]].
  apply (cell_eq op); [congruence | | congruence]. rewrite <- A1, B1 in A3.
  destruct (csh z =? o_sh op); [ | congruence]. pose proof (goes1_lt _ _ _ _ _ A3 B3). pose proof (goes1_lt _ _ _ _ _ B3 A3). lia.
Qed.
Lemma travels_inj : forall l y z w, travels l y w -> travels l z w -> y = z.
Proof.
  induction l as [ | op l IH]; intros y z w A B; cbn in *; [congruence | ].
  destruct A as [a [A1 [A2 A3]]]. destruct B as [b [B1 [B2 B3]]]. rewrite (IH _ _ _ A3 B3) in A1. exact (goes_inj op y z b A1 B1).
Qed.

Lemma becomes_good : forall op sp sp1, smooth op sp -> sound sp -> own_origin sp -> becomes op sp sp1 ->
  (sound sp1 /\ own_origin sp1)
  /\ (forall p1, placed_at (s_dom sp1) p1 -> exists p, placed_at (s_dom sp) p /\ goes op p = Some p1)
  /\ (forall p p1, placed_at (s_dom sp) p -> goes op p = Some p1 -> placed_at (s_dom sp1) p1 ->
        formula_follows op p p1 (meaning (s_eval sp)) (meaning (s_eval sp1))).
Proof.
  intros op sp sp1 [K [R A]] S O B. pose proof (edit_carries op sp K S O R A) as E. unfold becomes in B.
  destruct (edit_span op sp) as [ | sp' | up lo | | | ]; try contradiction.
  - subst sp1. destruct E as [E1 E2]. split; [auto | ]. split; [intros p1 P; apply E1; exact P | ]. intros p p1 P G _. exact (E2 p p1 P G).
  - subst sp1. destruct E as [GD [E1 E2]]. split; [exact GD | ]. split; [intros p1 P; apply E1; exact P | ]. intros p p1 P G _. exact (E2 p p1 P G).
  - destruct E as [[GU GL] [E1 [_ E2]]]. destruct B as [-> | ->].
    + split; [exact GU | ]. split; [intros p1 P; apply E1; left; exact P | ]. intros p p1 P G PL. exact (proj1 (E2 p p1 P G) PL).
    + split; [exact GL | ]. split; [intros p1 P; apply E1; right; exact P | ]. intros p p1 P G PL. exact (proj2 (E2 p p1 P G) PL).
Qed.

Definition kept_in (l : list sop) (p p' : cell) (sr sr' : N * rule) : Prop :=
  fst sr' = fst sr /\ forall y y', ucell y -> travels l y y' -> (reads_by sr p y <-> reads_by sr' p' y').

Lemma life_good : forall l sp sp', life l sp sp' -> sound sp -> own_origin sp ->
  (sound sp' /\ own_origin sp')
  /\ (forall p', placed_at (s_dom sp') p' -> exists p, placed_at (s_dom sp) p /\ travels l p p')
  /\ (forall p p', placed_at (s_dom sp) p -> travels l p p' -> placed_at (s_dom sp') p' ->
        Forall2 (kept_in l p p') (meaning (s_eval sp)) (meaning (s_eval sp'))).
Proof.
  intros l sp sp' H. induction H as [sp | op l sp sp1 sp' SM B L IH]; intros S O.
  - split; [auto | ]. split; [intros p' P; exists p'; split; [exact P | reflexivity] | ].
    intros p p' P T _. cbn in T. subst p'.
    induction (meaning (s_eval sp)) as [ | sr m IH]; constructor; [ | exact IH]. split; [reflexivity | ].
    intros y y' U T. cbn in T. subst y'. reflexivity.
  - destruct (becomes_good op sp sp1 SM S O B) as [[S1 O1] [B1 B2]]. destruct (IH S1 O1) as [GD [I1 I2]].
    split; [exact GD | ]. split.
    + intros p' P. destruct (I1 p' P) as [q [Q T]]. destruct (B1 q Q) as [p [PP G]]. exists p. split; [exact PP | ].
      cbn. exists q. split; [exact G | ]. split; [exact (placed_u _ _ (proj1 S1) Q) | exact T].
    + intros p p' P [z [G [U T]]] P'. destruct (I1 p' P') as [q [Q TQ]]. rewrite (travels_inj _ _ _ _ TQ T) in Q. clear TQ q.
      specialize (B2 p z P G Q). specialize (I2 z p' Q T P'). unfold formula_follows in B2.
      revert B2 I2. generalize (meaning (s_eval sp)) (meaning (s_eval sp1)) (meaning (s_eval sp')). clear.
      intros m m1 m2 F. revert m2. induction F as [ | a b m m1 [A1 [A2 _]] F IH]; intros m2 F2; inversion F2 as [ | ? c ? m3 [C1 C2] F3]; subst; constructor; [ | exact (IH _ F3)].
      split; [congruence | ]. intros y y' U [w [G [UW T]]]. rewrite (A2 y w U G). exact (C2 w y' UW T).
Qed.

(** * Literals *)
Lemma ordinal_placed : forall d p, placed_at d p -> exists i, ordinal d p = Some i.
Proof.
  intros d p H. unfold ordinal, btw. destruct d as [s r0 r1 c | s r c0 c1 | s r0 r1 c0 c1]; cbn [placed_at dsheet] in *.
  - destruct (s =? csh p) eqn:A; [ | lia]. destruct (ccol p =? c) eqn:B; [ | lia]. cbn [negb andb].
    destruct ((r0 <=? crow p) && (crow p <=? r1)) eqn:D; [eauto | lia].
  - destruct (s =? csh p) eqn:A; [ | lia]. destruct (crow p =? r) eqn:B; [ | lia]. cbn [negb andb].
    destruct ((c0 <=? ccol p) && (ccol p <=? c1)) eqn:D; [eauto | lia].
  - destruct (s =? csh p) eqn:A; [ | lia]. cbn [negb].
    destruct ((r0 <=? crow p) && (crow p <=? r1) && ((c0 <=? ccol p) && (ccol p <=? c1))) eqn:D; [eauto | lia].
Qed.
(** The number of a placement, as an equation. *)
Definition number (d : domain) (p : cell) : N :=
  match d with
  | RowRun _ r0 _ _ => crow p - r0
  | ColRun _ _ c0 _ => ccol p - c0
  | RectDom _ r0 _ c0 c1 => (crow p - r0) * (c1 - c0 + 1) + (ccol p - c0)
  end.
Lemma ordinal_number : forall d p i, ordinal d p = Some i -> i = number d p.
Proof.
  intros d p i H. unfold ordinal in H. destruct (negb _); [discriminate | ].
  destruct d; cbn [number]; destruct (_ && _) in H; try discriminate; injection H; auto.
Qed.

Lemma zero_affine : forall b st d d', zeros st = true -> affine_bindings b st d = affine_bindings b st d'.
Proof.
  induction b as [ | v b IH]; intros [ | z st] d d' Z; cbn in *; auto. destruct (Z.eqb_spec z 0); [subst | discriminate].
  cbn in Z. rewrite (IH st d d' Z). unfold affine_step. rewrite !Z.mul_0_l. reflexivity.
Qed.
Lemma zero_rect : forall b rs cs d d' e e', zeros rs = true -> zeros cs = true -> affine_rect b rs cs d e = affine_rect b rs cs d' e'.
Proof.
  induction b as [ | v b IH]; intros [ | z rs] [ | w cs] d d' e e' Z W; cbn in *; auto.
  destruct (Z.eqb_spec z 0); [subst | discriminate]. destruct (Z.eqb_spec w 0); [subst | discriminate].
  cbn in Z, W. rewrite (IH rs cs d d' e e' Z W). unfold affine_step. rewrite !Z.mul_0_l. reflexivity.
Qed.

Definition same_place (d d' : domain) (p p' : cell) : Prop := number d' p' = number d p.
Lemma lits_same : forall e d d' p p', unsloped e = true -> placed_at d p -> placed_at d' p' ->
  (number d' p' = number d p \/ match e with Dictionary _ _ => False | _ => True end) ->
  bindings_for e d' p' = bindings_for e d p.
Proof.
  intros e d d' p p' U P P' N. destruct (ordinal_placed _ _ P) as [i I]. destruct (ordinal_placed _ _ P') as [j J].
  pose proof (ordinal_number _ _ _ I) as NI. pose proof (ordinal_number _ _ _ J) as NJ.
  destruct e as [b | ids t | o b st | o b st | orow ocol b rs cs]; cbn [unsloped bindings_for] in *.
  - rewrite I, J. reflexivity.
  - destruct N as [N | []]. rewrite I, J. cbn [obind]. congruence.
  - apply zero_affine. exact U.
  - apply zero_affine. exact U.
  - apply andb_true_iff in U. apply zero_rect; tauto.
Qed.

(** A table of one entry. *)
Lemma single_entry : forall ids (t : list (list lit)) i k, (length t <= 1)%nat -> Forall (fun k => k < N.of_nat (length t)) ids ->
  i < N.of_nat (length ids) -> k < N.of_nat (length ids) ->
  obind (nth_error ids (N.to_nat i)) (fun x => nth_error t (N.to_nat x)) = obind (nth_error ids (N.to_nat k)) (fun x => nth_error t (N.to_nat x)).
Proof.
  intros ids t i k T F I K.
  assert (Z : forall i, i < N.of_nat (length ids) -> nth_error ids (N.to_nat i) = Some 0).
  { intros x X. destruct (nth_error ids (N.to_nat x)) as [v | ] eqn:E; [ | apply nth_error_None in E; lia].
    apply nth_error_In in E. rewrite Forall_forall in F. specialize (F _ E). cbn in F. f_equal. lia. }
  rewrite !Z by assumption. reflexivity.
Qed.

Lemma lits_single : forall e d d' p p', single_binding e = true ->
  match e with
  | Dictionary ids t => Forall (fun k => k < N.of_nat (length t)) ids
      /\ forall p, placed_at d p -> exists i, ordinal d p = Some i /\ i < N.of_nat (length ids)
  | _ => True
  end ->
  placed_at d p -> placed_at d' p' -> number d' p' <= number d p ->
  bindings_for e d' p' = bindings_for e d p.
Proof.
  intros e d d' p p' S L P P' NN.
  assert (U : unsloped e = true) by (destruct e; auto).
  destruct e as [b | ids t | o b st | o b st | orow ocol b rs cs]; try (apply lits_same; auto; fail).
  destruct L as [L1 L2]. destruct (L2 p P) as [i [I LI]]. destruct (ordinal_placed _ _ P') as [j J].
  pose proof (ordinal_number _ _ _ I) as NI. pose proof (ordinal_number _ _ _ J) as NJ.
  cbn [bindings_for]. rewrite I, J. cbn [obind]. cbn [single_binding] in S. apply single_entry; [apply Nat.leb_le; exact S | exact L1 | lia | exact LI].
Qed.

(** A literal stays with its formula. *)
Lemma shift_number : forall dr dc d d' p p', dom_ok d -> dom_shift dr dc d = Some d' -> placed_at d p -> placed_at d' p' ->
  (Z.of_N (crow p') = Z.of_N (crow p) + dr)%Z -> (Z.of_N (ccol p') = Z.of_N (ccol p) + dc)%Z -> number d' p' = number d p.
Proof.
  intros dr dc d d' p p' K H P P' A B. destruct d as [s r0 r1 c | s r c0 c1 | s r0 r1 c0 c1]; cbn [dom_shift dom_ok placed_at] in *;
    repeat match type of H with match shift32 ?x ?y with _ => _ end = _ =>
      let E := fresh "E" in destruct (shift32 x y) eqn:E; [apply shift32_ok in E | discriminate] end;
    injection H; intros; subst; cbn [number placed_at] in *; try lia.
Qed.

Lemma shift_class : forall op d deps dr dc odr odc rw, classify_span op d deps = Shift dr dc odr odc rw ->
  dr = odz op true /\ dc = odz op false /\ exists x, classify op (of_domain d) = Above x.
Proof.
  intros op d deps dr dc odr odc rw C. unfold classify_span in C.
  destruct (classify op (of_domain d)) as [ | | x | | ] eqn:CD;
    try (pose proof (plan_parts op deps 0 0) as PP; rewrite C in PP; exfalso; tauto).
  2: { destruct (o_del op); discriminate. } 2: { discriminate. }
  pose proof (plan_parts op deps (fst (op_delta op)) (snd (op_delta op))) as PP. rewrite C in PP.
  rewrite op_delta_eq in PP. cbn [fst snd] in PP. destruct PP as [-> [-> [_ PP]]]. eauto.
Qed.

Lemma moved_number : forall op d d' x p p', op_ok op -> dom_ok d -> classify op (of_domain d) = Above x ->
  dom_shift (odz op true) (odz op false) d = Some d' -> placed_at d p -> goes op p = Some p' -> placed_at d' p' ->
  number d' p' = number d p.
Proof.
  intros op d d' x p p' K DK C DS P G P'. destruct (images_above op d d' x K C DK DS) as [_ [_ [AB _]]].
  destruct (AB p P) as [A1 A2]. apply (goes_above op p p' A1 A2) in G. destruct G as [_ [G1 G2]].
  exact (shift_number _ _ _ _ _ _ DK DS P P' G1 G2).
Qed.

Lemma split_number : forall op d du dl p, dom_ok d -> split_domain op d = Some (du, dl) ->
  (placed_at du p -> number du p <= number d p) /\ (placed_at dl p -> number dl p <= number d p).
Proof.
  intros op d du dl p K H. unfold split_domain in H. destruct (_ || _) in H; [discriminate | ].
  destruct d as [s r0 r1 c | s r c0 c1 | s r0 r1 c0 c1]; cbn [dom_ok] in K; destruct (o_rows op); try discriminate;
    unfold split_axis in H; destruct (_ && _) eqn:E in H; try discriminate; cbn [option_map fst snd] in H; injection H; intros; subst; cbn [number placed_at];
    split; intro P; try lia.
  - apply N.add_le_mono; [apply N.mul_le_mono; lia | lia].
  - apply N.add_le_mono; [apply N.mul_le_mono; lia | lia].
  - apply N.add_le_mono; [apply N.mul_le_mono; lia | lia].
Qed.

Lemma compact_number : forall op d d' p p', op_ok op -> dom_ok d -> o_del op = true -> classify op (of_domain d) = Straddles ->
  compact_domain op d = Some d' -> placed_at d p -> goes op p = Some p' -> placed_at d' p' -> number d' p' <= number d p.
Proof.
  intros op d d' p p' K DK DL C H P G P'. destruct (class_sheet _ _ C) as [SS CA].
  assert (RK := of_domain_ok _ DK). assert (AK : ax_ok (op_axis op (of_domain d))) by (unfold op_axis, rg_ok in *; destruct (o_rows op); tauto).
  destruct (straddles_band op _ K AK DL CA) as [B1 [B2 B3]].
  assert (SP : csh p = o_sh op).
  { rewrite <- SS. destruct d; cbn [of_domain sh placed_at] in *; tauto. }
  apply goes_iff in G. rewrite SP, N.eqb_refl in G. destruct G as [G1 [G2 G3]].
  unfold compact_domain in H. rewrite DL in H. cbn [negb] in H.
  apply goes1_iff in G3. unfold thr, dz in G3. rewrite DL in G3.
  assert (CO : forall lo hi q, lo <= hi <= umax -> o_at op <= hi -> lo < o_at op + o_n op ->
     compact_axis lo hi (o_at op) (o_n op) = Some q ->
     lo <= opx op p <= hi -> fst q <= opx op p' -> opx op p' - fst q <= opx op p - lo /\ snd q - fst q <= hi - lo).
  { intros lo hi [lo' hi'] L1 L2 L3 CX L4 L5. destruct (compact_axis_spec op lo hi lo' hi' K DL L1 L2 L3 CX) as [_ [LE [Y3 _]]].
    unfold compact_axis in CX. cbv zeta in CX. rewrite (sat32_ok _ K) in CX. destruct K as [KA KB]. cbn [fst snd] in *. unfold csub in CX.
    destruct (hi <? o_at op) eqn:E1; [lia | ]. destruct (o_at op + o_n op <=? lo) eqn:E2; [lia | ]. cbn [orb] in CX.
    destruct (lo <? o_at op) eqn:E3; destruct (o_at op + o_n op <=? hi) eqn:E4; try discriminate.
    - destruct (o_n op <=? hi) eqn:E5; [ | lia]. cbn in CX. injection CX. intros. subst. lia.
    - destruct (1 <=? o_at op) eqn:E5; [ | lia]. cbn in CX. injection CX. intros. subst. lia.
    - destruct (o_n op <=? hi) eqn:E5; [ | lia]. cbn in CX. injection CX. intros. subst. lia. }
  unfold opx, oth in *.
  destruct d as [s r0 r1 c | s r c0 c1 | s r0 r1 c0 c1]; destruct (o_rows op) eqn:RW; try discriminate; unfold op_axis in *; rewrite RW in *;
    cbn [of_domain sh rows cols ax_bounds fst snd dom_ok] in *.
  - destruct (compact_axis r0 r1 (o_at op) (o_n op)) as [q | ] eqn:X; [ | discriminate]. cbn in H. injection H. intros. subst d'.
    cbn [number placed_at] in *. specialize (CO _ _ q B1 B2 B3 X). lia.
  - destruct (compact_axis c0 c1 (o_at op) (o_n op)) as [q | ] eqn:X; [ | discriminate]. cbn in H. injection H. intros. subst d'.
    cbn [number placed_at] in *. specialize (CO _ _ q B1 B2 B3 X). lia.
  - destruct (compact_axis r0 r1 (o_at op) (o_n op)) as [q | ] eqn:X; [ | discriminate]. cbn in H. injection H. intros. subst d'.
    cbn [number placed_at] in *. specialize (CO _ _ q B1 B2 B3 X). apply N.add_le_mono; [apply N.mul_le_mono; lia | lia].
  - destruct (compact_axis c0 c1 (o_at op) (o_n op)) as [q | ] eqn:X; [ | discriminate]. cbn in H. injection H. intros. subst d'.
    cbn [number placed_at] in *. specialize (CO _ _ q B1 B2 B3 X). apply N.add_le_mono; [apply N.mul_le_mono; lia | lia].
Qed.

(** Numbers within the table stay within it. *)
Definition numbered (e : encoding) (d : domain) : Prop :=
  match e with
  | Dictionary ids t => Forall (fun k => k < N.of_nat (length t)) ids
      /\ forall p, placed_at d p -> exists i, ordinal d p = Some i /\ i < N.of_nat (length ids)
  | _ => True
  end.
Lemma numbered_less : forall e d d' , numbered e d ->
  (forall p', placed_at d' p' -> exists p, placed_at d p /\ number d' p' <= number d p) -> numbered e d'.
Proof.
  intros [ | ids t | | | ] d d' H M; cbn [numbered] in *; auto. destruct H as [H1 H2]. split; [exact H1 | ]. intros p' P'.
  destruct (M p' P') as [p [P L]]. destruct (H2 p P) as [i [I J]]. destruct (ordinal_placed _ _ P') as [j J'].
  exists j. split; [exact J' | ]. pose proof (ordinal_number _ _ _ I). pose proof (ordinal_number _ _ _ J'). lia.
Qed.

Lemma lits_follow : forall op sp sp', op_ok op -> dom_ok (s_dom sp) -> lits_ok sp -> unsloped (s_lits sp) = true -> becomes op sp sp' ->
  lits_ok sp' /\ unsloped (s_lits sp') = true
  /\ forall p p', placed_at (s_dom sp) p -> goes op p = Some p' -> placed_at (s_dom sp') p' -> literals sp' p' = literals sp p.
Proof.
  intros op sp sp' K DK LK U B. change (lits_ok sp) with (numbered (s_lits sp) (s_dom sp)) in LK. change (lits_ok sp') with (numbered (s_lits sp') (s_dom sp')).
  unfold literals. unfold becomes, edit_span in B.
  destruct (classify_span op (s_dom sp) (s_deps sp)) as [ | dr dc odr odc rw | | why | ] eqn:C; try contradiction.
  - subst sp'. split; [exact LK | ]. split; [exact U | ]. intros p p' P G _. destruct (noop_still op _ _ K C) as [CD _].
    destruct (images_still op _ CD DK) as [_ ST]. rewrite (ST p P) in G. injection G. intros. subst. reflexivity.
  - destruct (shift_class _ _ _ _ _ _ _ _ C) as [-> [-> [x CX]]].
    assert (E : exists d', dom_shift (odz op true) (odz op false) (s_dom sp) = Some d' /\ s_dom sp' = d' /\ s_lits sp' = s_lits sp).
    { destruct rw; [unfold do_rewrite in B | unfold do_shift in B];
        (destruct (with_origin _ _ _) as [fr | ]; [ | contradiction]);
        (destruct (dom_shift _ _ (s_dom sp)) as [d' | ]; [ | contradiction]); exists d'; (split; [reflexivity | ]).
      - destruct (negb _); [contradiction | ]. destruct (adj_refs _ _) as [refs | ]; [ | contradiction]. cbv zeta in B.
        destruct (derive _ _ _); [ | contradiction]. subst sp'. auto.
      - destruct (shifted_deps _ _ _ _ _ _); [ | contradiction]. subst sp'. auto. }
    destruct E as [d' [DS [-> ->]]]. destruct (images_above op _ _ x K CX DK DS) as [_ [IM _]].
    split; [ | split; [exact U | ]].
    + apply (numbered_less _ _ _ LK). intros p' P'. destruct (proj1 (IM p') P') as [p [P G]]. exists p. split; [exact P | ].
      rewrite (moved_number op _ d' x p p' K DK CX DS P G P'). lia.
    + intros p p' P G P'. apply lits_same; try assumption. left. exact (moved_number op _ d' x p p' K DK CX DS P G P').
  - unfold do_split in B. destruct (single_binding (s_lits sp)) eqn:SB; cbn [negb] in B; [ | contradiction].
    destruct (split_domain op (s_dom sp)) as [[du dl] | ] eqn:SP; [ | contradiction].
    destruct (rederive_deps (of_domain du) (s_deps sp) []) as [depu | ]; [ | contradiction].
    destruct (rederive_deps (of_domain dl) (s_deps sp) []) as [depl | ]; [ | contradiction].
    destruct (classify_span op du depu) eqn:CU; try contradiction.
    destruct (classify_span op dl depl) as [ | dr dc odr odc rw | | | ] eqn:CL; try contradiction. destruct rw; [contradiction | ].
    destruct (with_origin (s_shown sp) odr odc) as [shown | ]; [ | contradiction].
    destruct (dom_shift dr dc dl) as [dl' | ] eqn:DS; [ | contradiction].
    destruct (shifted_deps op dr dc odr odc depl) as [depl' | ]; [ | contradiction]. cbv zeta in B.
    destruct (split_halves op _ _ _ DK SP) as [DEL [KU [KL [PP [SO [PU PL]]]]]].
    destruct (shift_class _ _ _ _ _ _ _ _ CL) as [-> [-> [x CX]]].
    destruct (noop_still op _ _ K CU) as [CD _]. destruct (images_still op _ CD KU) as [_ ST].
    destruct (images_above op _ _ x K CX KL DS) as [_ [IM _]].
    destruct B as [-> | ->]; cbn [s_lits s_dom].
    + split; [ | split; [exact U | ]].
      * apply (numbered_less _ _ _ LK). intros p' P'. exists p'. split; [apply PP; auto | ]. exact (proj1 (split_number op _ _ _ p' DK SP) P').
      * intros p p' P G P'. pose proof (ST p' P') as G'. pose proof (goes_inj op p p' p' G G') as Q. subst p.
        apply lits_single; try assumption. exact (proj1 (split_number op _ _ _ p' DK SP) P').
    + assert (Q : forall p p', placed_at (s_dom sp) p -> goes op p = Some p' -> placed_at dl' p' -> number dl' p' <= number (s_dom sp) p).
      { intros p p' P G P'. destruct (proj1 (IM p') P') as [q [Q1 Q2]]. pose proof (goes_inj op p q p' G Q2) as Q. subst q.
        rewrite (moved_number op dl dl' x p p' K KL CX DS Q1 G P'). exact (proj2 (split_number op _ _ _ p DK SP) Q1). }
      split; [ | split; [exact U | ]].
      * apply (numbered_less _ _ _ LK). intros p' P'. destruct (proj1 (IM p') P') as [p [P G]]. exists p.
        assert (PS : placed_at (s_dom sp) p) by (apply PP; auto). split; [exact PS | exact (Q p p' PS G P')].
      * intros p p' P G P'. apply lits_single; try assumption. exact (Q p p' P G P').
  - destruct why; try contradiction. destruct (demote_straddles _ _ _ C) as [DL CS]. unfold do_compact in B.
    destruct (single_binding (s_lits sp)) eqn:SB; cbn [negb orb] in B; [ | contradiction].
    destruct (displaced_absolute _ _); [contradiction | ].
    destruct (compact_domain op (s_dom sp)) as [d' | ] eqn:CD; [ | contradiction].
    destruct (compact_deps op (s_deps sp)) as [deps' | ]; [ | contradiction].
    destruct (origin_through op (s_template sp)) as [fr | ]; [ | contradiction]. subst sp'. cbn [s_lits s_dom].
    destruct (compact_placed op _ _ K DK DL CS CD) as [_ [IM _]]. split; [ | split; [exact U | ]].
    + apply (numbered_less _ _ _ LK). intros p' P'. destruct (proj1 (IM p') P') as [p [P G]]. exists p. split; [exact P | ].
      exact (compact_number op _ _ p p' K DK DL CS CD P G P').
    + intros p p' P G P'. apply lits_single; try assumption. exact (compact_number op _ _ p p' K DK DL CS CD P G P').
Qed.

(** * The dirty part of a span *)
Lemma dirty_exact : forall op d y, dom_ok d -> op_ok op ->
  (placed_at d y /\ goes op y <> Some y <-> exists r, dirty_region op d = Some r /\ within r y).
Proof.
  intros op d y DK K.
  assert (T : forall z, csh z = o_sh op -> (goes op z <> Some z <-> o_at op <= opx op z)).
  { intros z E. destruct (N.lt_ge_cases (opx op z) (o_at op)) as [L | L].
    - split; [ | lia]. intro H. exfalso. apply H. apply goes_iff. rewrite E, N.eqb_refl. split; [reflexivity | ]. split; [reflexivity | ].
      apply goes1_iff. left. auto.
    - split; [auto | ]. intros _ H. apply goes_iff in H. rewrite E, N.eqb_refl in H. destruct H as [_ [_ H]]. apply goes1_iff in H.
      unfold thr, dz in H. destruct K as [K1 K2]. destruct (o_del op); lia. }
  assert (F : forall z, csh z <> o_sh op -> goes op z = Some z).
  { intros z E. unfold goes. destruct (csh z =? o_sh op) eqn:X; [lia | reflexivity]. }
  unfold dirty_region. destruct d as [s r0 r1 c | s r c0 c1 | s r0 r1 c0 c1]; cbn [placed_at dom_ok fst snd] in *;
    (destruct (s =? o_sh op) eqn:S; cbn [negb];
      [ | split; [intros [P H]; exfalso; apply H, F; lia | intros [x [X _]]; discriminate]]);
    (split;
      [ intros [P H]; apply T in H; [ | lia]; unfold opx in H; destruct (o_rows op);
        match goal with |- context [if ?b then _ else _] => destruct b eqn:E; [ | exfalso; lia] end;
        (eexists; split; [reflexivity | ]); unfold within; cbn [sh rows cols on]; lia
      | intros [x [X W]]; destruct (o_rows op) eqn:RW;
        match type of X with context [if ?b then _ else _] => destruct b eqn:E; [ | discriminate] end;
        injection X; intros; subst x; unfold within in W; cbn [sh rows cols on] in W;
        (split; [lia | ]); (apply T; [lia | ]); unfold opx; rewrite RW; lia ]).
Qed.

(** * One edit that does not cut the span *)
Lemma uncut_carries : forall op sp, op_ok op -> sound sp -> roomy op sp -> ~ cut op sp ->
  match edit_span op sp with
  | Kept => carries op sp sp
  | Moved sp' => sound sp' /\ carries op sp sp'
  | Gone => forall p, placed_at (s_dom sp) p -> goes op p = None
  | Halves _ _ | Demoted | Failed => True
  end.
Proof.
  intros op sp K S R A. unfold edit_span.
  destruct (classify_span op (s_dom sp) (s_deps sp)) as [ | dr dc odr odc rw | | why | ] eqn:C.
  - exact (noop_carries op sp K S C).
  - destruct rw.
    + destruct (do_rewrite op sp dr dc) as [ | sp' | | | | ] eqn:H; auto; try (unfold do_rewrite in H; cbv zeta in H;
        repeat match type of H with context [match ?x with _ => _ end] => destruct x end; discriminate).
      exact (rewrite_carries op sp dr dc odr odc sp' K S R C H).
    + destruct (do_shift op sp dr dc odr odc) as [ | sp' | | | | ] eqn:H; auto; try (unfold do_shift in H;
        repeat match type of H with context [match ?x with _ => _ end] => destruct x end; discriminate).
      exact (shift_carries op sp dr dc odr odc sp' K S R C H).
  - destruct (do_split op sp) as [ | | up lo | | | ] eqn:H; auto; try (exfalso; unfold do_split in H; cbv zeta in H;
      repeat match type of H with context [match ?x with _ => _ end] => destruct x end; discriminate).
  - destruct why; auto. destruct (demote_straddles _ _ _ C) as [DL CS].
    exfalso. exact (A (straddles_cut op sp K (proj1 S) DL CS)).
  - exact (remove_gone op _ _ K (proj1 S) C).
Qed.
Lemma halves_carry : forall op sp up lo, op_ok op -> sound sp -> roomy op sp -> own_origin sp ->
  edit_span op sp = Halves up lo -> sound up /\ sound lo /\ carries2 op sp up lo.
Proof.
  intros op sp up lo K S R O H. unfold edit_span in H.
  destruct (classify_span op (s_dom sp) (s_deps sp)) as [ | dr dc odr odc rw | | why | ] eqn:C; try discriminate.
  - destruct rw; [unfold do_rewrite in H | unfold do_shift in H]; cbv zeta in H;
      repeat match type of H with context [match ?x with _ => _ end] => destruct x end; discriminate.
  - exact (split_carries op sp up lo K S R O H).
  - destruct why; try discriminate. unfold do_compact in H.
    repeat match type of H with context [match ?x with _ => _ end] => destruct x end; discriminate.
Qed.
Lemma cut_carries : forall op sp sp', op_ok op -> sound sp -> aligned op sp -> cut op sp ->
  edit_span op sp = Moved sp' -> sound sp' /\ carries op sp sp'.
Proof.
  intros op sp sp' K S A [[p [P1 P2]] [q [Q1 Q2]]] H.
  assert (DL : o_del op = true).
  { destruct (o_del op) eqn:E; [reflexivity | exfalso]. unfold goes, goes1 in P2. rewrite E in P2.
    destruct (csh p =? o_sh op); [ | discriminate]. destruct (o_rows op); destruct (_ <? o_at op); discriminate. }
  pose proof (proj1 S) as DK. pose proof (class_motion op _ K (of_domain_ok _ DK)) as M.
  pose proof (placed_u _ _ DK P1) as U1. pose proof (placed_u _ _ DK Q1) as U2.
  assert (W1 := proj2 (within_placed _ p DK) P1). assert (W2 := proj2 (within_placed _ q DK) Q1).
  unfold edit_span, classify_span in H. destruct (classify op (of_domain (s_dom sp))) as [ | | d | | ] eqn:C.
  - destruct M as [_ M]. specialize (M p U1 W1). congruence.
  - specialize (M p U1 W1). congruence.
  - destruct (M p U1 W1) as [p' [X _]]. congruence.
  - rewrite DL in H. apply (compact_carries op sp sp' K DL S A); [ | exact H]. unfold classify_span. rewrite C, DL. reflexivity.
  - specialize (M q U2 W2). congruence.
Qed.

(** A span as the ingest makes it. *)
Lemma fresh_sound : forall d fr deps lits, dom_ok d -> frame_ok fr -> derive (of_domain d) (meaning fr) [] = Some deps ->
  sound (Span d deps fr fr fr lits) /\ own_origin (Span d deps fr fr fr lits).
Proof.
  intros d fr deps lits K F H. split; [ | split; reflexivity].
  split; [exact K | ]. split; [exact F | ]. split; [split; [split; reflexivity | exact F] | ]. exact (derive_described d fr deps K F H).
Qed.
Lemma not_follow : forall op sp sp' p p' y y' sr sr', placed_at (s_dom sp) p -> goes op p = Some p' -> ucell y -> goes op y = Some y' ->
  meaning (s_eval sp) = [sr] -> meaning (s_eval sp') = [sr'] -> ~ (reads_by sr p y <-> reads_by sr' p' y') -> ~ carries op sp sp'.
Proof.
  intros op sp sp' p p' y y' sr sr' P G U GY M1 M2 X [_ F]. specialize (F p p' P G). unfold formula_follows in F. rewrite M1, M2 in F.
  inversion F as [ | ? ? ? ? [_ [A _]] _]; subst. exact (X (A y y' U GY)).
Qed.

Lemma dirty_moved : forall op d d' y', dom_ok d' -> op_ok op ->
  (forall p', placed_at d' p' <-> exists p, placed_at d p /\ goes op p = Some p') ->
  ((exists p, placed_at d p /\ goes op p = Some y' /\ p <> y') <-> exists r, dirty_region op d' = Some r /\ within r y').
Proof.
  intros op d d' y' DK K IM. rewrite <- (dirty_exact op d' y' DK K). split.
  - intros [p [P [G X]]]. split; [apply IM; eauto | ]. intro G'. exact (X (goes_inj op p y' y' G G')).
  - intros [P X]. apply IM in P. destruct P as [p [P G]]. exists p. split; [exact P | ]. split; [exact G | ]. intro E. subst p. exact (X G).
Qed.
