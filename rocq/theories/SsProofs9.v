(** Compaction of a span that a deletion cuts. *)
From Verif Require Import Base Maps IntervalModel FpModel FpSpec FpProofs FpProofs2 FpProofs3 FpProofs4 SsModel SsSpec SsProofs SsProofs2 SsProofs3 SsProofs4 SsProofs5 SsProofs6.
From Coq Require Import ZifyN ZifyNat ZifyBool.

Open Scope N_scope.

Lemma along_pair : forall rw ru a b, rpair rw ru = Some (a, b) -> In a (along rw ru) /\ In b (along rw ru).
Proof. intros rw ru a b H. destruct rw, ru; cbn in *; try discriminate; injection H; intros; subst; auto. Qed.

(** What is left of a stretch. *)
Lemma compact_axis_spec : forall op lo hi lo' hi', op_ok op -> o_del op = true -> lo <= hi <= umax ->
  o_at op <= hi -> lo < o_at op + o_n op ->
  compact_axis lo hi (o_at op) (o_n op) = Some (lo', hi') ->
  lo' <= hi' /\ hi' <= umax /\ (forall j, lo' <= j <= hi' <-> exists i, lo <= i <= hi /\ goes1 op i = Some j)
  /\ (lo < o_at op \/ o_at op + o_n op <= hi).
Proof.
  intros op lo hi lo' hi' K DL L A B H. unfold compact_axis in H. rewrite (sat32_ok _ K) in H. cbv zeta in H.
  destruct K as [K1 K2].
  destruct (_ || _) eqn:Q in H; [lia | ].
  assert (G : forall i j, goes1 op i = Some j <-> (i < o_at op /\ j = i) \/ (o_at op + o_n op <= i /\ j + o_n op = i)).
  { intros i j. rewrite goes1_iff. unfold thr, dz. rewrite DL. split; intro; lia. }
  unfold csub in H.
  destruct (lo <? o_at op) eqn:C; destruct (o_at op + o_n op <=? hi) eqn:D; try discriminate;
    destruct (_ <=? _) eqn:E in H; try discriminate; cbn [option_map] in H; injection H; intros; subst; clear H;
    (split; [lia | ]); (split; [lia | ]); (split; [ | lia]); intro j; split.
  - intro X. destruct (j <? o_at op) eqn:F; [exists j | exists (j + o_n op)]; (split; [lia | apply G; lia]).
  - intros [i [X Y]]. apply G in Y. lia.
  - intro X. exists j. split; [lia | apply G; lia].
  - intros [i [X Y]]. apply G in Y. lia.
  - intro X. exists (j + o_n op). split; [lia | apply G; lia].
  - intros [i [X Y]]. apply G in Y. lia.
Qed.

Lemma straddles_band : forall op a, op_ok op -> ax_ok a -> o_del op = true -> classify_axis op a = Straddles ->
  fst (ax_bounds a) <= snd (ax_bounds a) <= umax /\ o_at op <= snd (ax_bounds a) /\ fst (ax_bounds a) < o_at op + o_n op.
Proof.
  intros op a K A DL H. unfold classify_axis in H. rewrite DL in H. cbv zeta in H. rewrite (sat32_ok _ K) in H.
  destruct (bounds_ok a A) as [B1 B2].
  destruct (snd (ax_bounds a) <? o_at op) eqn:X; [discriminate | ].
  destruct (o_at op + o_n op <=? fst (ax_bounds a)) eqn:Y; [discriminate | ]. lia.
Qed.

Lemma class_sheet : forall op r, classify op r = Straddles -> sh r = o_sh op /\ classify_axis op (op_axis op r) = Straddles.
Proof.
  intros op r H. unfold classify in H. destruct (sh r =? o_sh op) eqn:E; cbn [negb] in H; [ | discriminate]. split; [lia | exact H].
Qed.

(** * The placements *)
Lemma compact_placed : forall op d d', op_ok op -> dom_ok d -> o_del op = true -> classify op (of_domain d) = Straddles ->
  compact_domain op d = Some d' ->
  dom_ok d' /\ images op d d' /\ exists lo hi, lo <= hi <= umax
    /\ (forall p, placed_at d p -> csh p = o_sh op /\ lo <= opx op p <= hi)
    /\ (forall p q, placed_at d p -> csh q = csh p -> oth op q = oth op p -> lo <= opx op q <= hi -> placed_at d q)
    /\ o_at op <= hi /\ lo < o_at op + o_n op /\ (lo < o_at op \/ o_at op + o_n op <= hi).
Proof.
  intros op d d' K DK DL C H. destruct (class_sheet _ _ C) as [SS CA].
  assert (RK := of_domain_ok _ DK). assert (AK : ax_ok (op_axis op (of_domain d))) by (unfold op_axis, rg_ok in *; destruct (o_rows op); tauto).
  destruct (straddles_band op _ K AK DL CA) as [B1 [B2 B3]].
  unfold compact_domain in H. rewrite DL in H. cbn [negb] in H.
  assert (GI : forall p p', csh p = o_sh op -> (goes op p = Some p' <-> csh p' = csh p /\ oth op p' = oth op p /\ goes1 op (opx op p) = Some (opx op p'))).
  { intros p p' E. rewrite goes_iff, E, N.eqb_refl. reflexivity. }
  destruct d as [s r0 r1 c | s r c0 c1 | s r0 r1 c0 c1]; destruct (o_rows op) eqn:RW; try discriminate.
  - destruct (compact_axis r0 r1 (o_at op) (o_n op)) as [[lo' hi'] | ] eqn:X; [ | discriminate]. cbn [option_map fst snd] in H. injection H. intros. subst d'. clear H.
    unfold op_axis in B1, B2, B3. rewrite RW in B1, B2, B3. cbn [of_domain sh rows cols ax_bounds fst snd dom_ok] in *.
    destruct (compact_axis_spec op r0 r1 lo' hi' K DL B1 B2 B3 X) as [Y1 [Y2 [Y3 Y4]]].
    split; [lia | ]. split.
    + intro p'. split.
      * cbn [placed_at]. intros [P1 [P2 P3]]. apply Y3 in P2. destruct P2 as [i [I1 I2]]. exists (Cl s i c).
        split; [cbn; lia | ]. apply GI; [exact SS | ]. unfold opx, oth. rewrite RW. cbn [csh crow ccol]. auto.
      * intros [p [[P1 [P2 P3]] G]]. apply GI in G; [ | congruence]. unfold opx, oth in G. rewrite RW in G. destruct G as [G1 [G2 G3]].
        cbn [placed_at]. split; [congruence | ]. split; [ | congruence]. apply Y3. exists (crow p). auto.
    + exists r0, r1. unfold opx, oth. rewrite RW. split; [lia | ]. split; [cbn [placed_at]; intros p [Q1 [Q2 Q3]]; split; [congruence | lia] | ]. split; [ | lia]. cbn. intros p q [Q1 [Q2 Q3]] E1 E2 E3. split; [congruence | ]. split; [lia | congruence].
  - destruct (compact_axis c0 c1 (o_at op) (o_n op)) as [[lo' hi'] | ] eqn:X; [ | discriminate]. cbn [option_map fst snd] in H. injection H. intros. subst d'. clear H.
    unfold op_axis in B1, B2, B3. rewrite RW in B1, B2, B3. cbn [of_domain sh rows cols ax_bounds fst snd dom_ok] in *.
    destruct (compact_axis_spec op c0 c1 lo' hi' K DL B1 B2 B3 X) as [Y1 [Y2 [Y3 Y4]]].
    split; [lia | ]. split.
    + intro p'. split.
      * cbn [placed_at]. intros [P1 [P2 P3]]. apply Y3 in P3. destruct P3 as [i [I1 I2]]. exists (Cl s r i).
        split; [cbn; lia | ]. apply GI; [exact SS | ]. unfold opx, oth. rewrite RW. cbn [csh crow ccol]. auto.
      * intros [p [[P1 [P2 P3]] G]]. apply GI in G; [ | congruence]. unfold opx, oth in G. rewrite RW in G. destruct G as [G1 [G2 G3]].
        cbn [placed_at]. split; [congruence | ]. split; [congruence | ]. apply Y3. exists (ccol p). auto.
    + exists c0, c1. unfold opx, oth. rewrite RW. split; [lia | ]. split; [cbn [placed_at]; intros p [Q1 [Q2 Q3]]; split; [congruence | lia] | ]. split; [ | lia]. cbn. intros p q [Q1 [Q2 Q3]] E1 E2 E3. split; [congruence | ]. split; [congruence | lia].
  - destruct (compact_axis r0 r1 (o_at op) (o_n op)) as [[lo' hi'] | ] eqn:X; [ | discriminate]. cbn [option_map fst snd] in H. injection H. intros. subst d'. clear H.
    unfold op_axis in B1, B2, B3. rewrite RW in B1, B2, B3. cbn [of_domain sh rows cols ax_bounds fst snd dom_ok] in *.
    destruct (compact_axis_spec op r0 r1 lo' hi' K DL B1 B2 B3 X) as [Y1 [Y2 [Y3 Y4]]].
    split; [lia | ]. split.
    + intro p'. split.
      * cbn [placed_at]. intros [P1 [P2 P3]]. apply Y3 in P2. destruct P2 as [i [I1 I2]]. exists (Cl s i (ccol p')).
        split; [cbn; lia | ]. apply GI; [exact SS | ]. unfold opx, oth. rewrite RW. cbn [csh crow ccol]. auto.
      * intros [p [[P1 [P2 P3]] G]]. apply GI in G; [ | congruence]. unfold opx, oth in G. rewrite RW in G. destruct G as [G1 [G2 G3]].
        cbn [placed_at]. split; [congruence | ]. split; [ | rewrite G2; exact P3]. apply Y3. exists (crow p). auto.
    + exists r0, r1. unfold opx, oth. rewrite RW. split; [lia | ]. split; [cbn [placed_at]; intros p [Q1 [Q2 Q3]]; split; [congruence | lia] | ]. split; [ | lia]. cbn. intros p q [Q1 [Q2 Q3]] E1 E2 E3. split; [congruence | ]. split; [lia | rewrite E2; exact Q3].
  - destruct (compact_axis c0 c1 (o_at op) (o_n op)) as [[lo' hi'] | ] eqn:X; [ | discriminate]. cbn [option_map fst snd] in H. injection H. intros. subst d'. clear H.
    unfold op_axis in B1, B2, B3. rewrite RW in B1, B2, B3. cbn [of_domain sh rows cols ax_bounds fst snd dom_ok] in *.
    destruct (compact_axis_spec op c0 c1 lo' hi' K DL B1 B2 B3 X) as [Y1 [Y2 [Y3 Y4]]].
    split; [lia | ]. split.
    + intro p'. split.
      * cbn [placed_at]. intros [P1 [P2 P3]]. apply Y3 in P3. destruct P3 as [i [I1 I2]]. exists (Cl s (crow p') i).
        split; [cbn; lia | ]. apply GI; [exact SS | ]. unfold opx, oth. rewrite RW. cbn [csh crow ccol]. auto.
      * intros [p [[P1 [P2 P3]] G]]. apply GI in G; [ | congruence]. unfold opx, oth in G. rewrite RW in G. destruct G as [G1 [G2 G3]].
        cbn [placed_at]. split; [congruence | ]. split; [rewrite G2; exact P2 | ]. apply Y3. exists (ccol p). auto.
    + exists c0, c1. unfold opx, oth. rewrite RW. split; [lia | ]. split; [cbn [placed_at]; intros p [Q1 [Q2 Q3]]; split; [congruence | lia] | ]. split; [ | lia]. cbn. intros p q [Q1 [Q2 Q3]] E1 E2 E3. split; [congruence | ]. split; [rewrite E2; exact Q2 | lia].
Qed.

(** * The summary *)

Definition same_rule (ru : rule) : rule := ru.
Lemma same_kind : keeps_kind same_rule.
Proof. intro ru. unfold same_rule. tauto. Qed.

Lemma compact_range_spec : forall op a a', op_ok op -> o_del op = true -> ax_ok a -> classify_axis op a = Straddles ->
  compact_range a (o_at op) (o_n op) = Some a' ->
  ax_ok a' /\ ax_bounded a' = ax_bounded a /\ (a = All -> a' = All)
  /\ (a <> All -> forall j, on a' j <-> exists i, i <= umax /\ on a i /\ goes1 op i = Some j).
Proof.
  intros op a a' K DL A C H. destruct (straddles_band op a K A DL C) as [B1 [B2 B3]].
  destruct a as [p | l h | l | h | ]; cbn [compact_range ax_bounds fst snd ax_ok] in *; try discriminate.
  - destruct (compact_axis p p (o_at op) (o_n op)) as [[x y] | ] eqn:X; [ | discriminate]. cbn in H. injection H. intros. subst a'.
    destruct (compact_axis_spec op p p x y K DL B1 B2 B3 X) as [Y1 [Y2 [Y3 Y4]]]. exfalso.
    assert (o_at op + o_n op <= p) by lia. lia.
  - destruct (compact_axis l h (o_at op) (o_n op)) as [[x y] | ] eqn:X; [ | discriminate]. cbn in H. injection H. intros. subst a'.
    destruct (compact_axis_spec op l h x y K DL B1 B2 B3 X) as [Y1 [Y2 [Y3 Y4]]]. cbn [ax_ok ax_bounded on].
    split; [lia | ]. split; [reflexivity | ]. split; [discriminate | ]. intros _ j. rewrite Y3. split; intros [i I].
    + exists i. split; [lia | tauto].
    + exists i. tauto.
  - injection H. intros. subst a'. split; [exact I | ]. split; [reflexivity | ]. split; [auto | congruence].
Qed.

Lemma carried_compact : forall op r r' ru, op_ok op -> o_del op = true -> rg_ok r -> shaped (r, ru) -> ru <> WResult ->
  classify op r = Straddles -> compact_region op r = Some r' -> carried op same_rule (r, ru) (r', ru).
Proof.
  intros op r r' ru K DL R SH NR C H. destruct (class_sheet _ _ C) as [SS CA].
  unfold compact_region in H. rewrite DL, SS, N.eqb_refl in H. cbn [andb] in H.
  assert (AK : ax_ok (op_axis op r)) by (unfold op_axis, rg_ok in *; destruct (o_rows op); tauto).
  assert (E : exists a', compact_range (op_axis op r) (o_at op) (o_n op) = Some a' /\ sh r' = sh r /\ op_axis op r' = a'
     /\ (if o_rows op then cols r' = cols r else rows r' = rows r)).
  { unfold op_axis. destruct (o_rows op).
    - destruct (compact_range (rows r) (o_at op) (o_n op)) as [a' | ]; [ | discriminate]. injection H. intros. subst r'. exists a'. auto.
    - destruct (compact_range (cols r) (o_at op) (o_n op)) as [a' | ]; [ | discriminate]. injection H. intros. subst r'. exists a'. auto. }
  destruct E as [a' [E1 [E2 [E3 E4]]]]. destruct (compact_range_spec op _ _ K DL AK CA E1) as [A1 [A2 [A3 A4]]]. subst a'.
  assert (W : forall y, within r' y <-> csh y = sh r /\ on (op_axis op r') (opx op y) /\ (if o_rows op then on (cols r) (ccol y) else on (rows r) (crow y))).
  { intro y. unfold within, op_axis, opx. rewrite E2. destruct (o_rows op); rewrite E4; tauto. }
  assert (V : forall y, within r y <-> csh y = sh r /\ on (op_axis op r) (opx op y) /\ (if o_rows op then on (cols r) (ccol y) else on (rows r) (crow y))).
  { intro y. unfold within, op_axis, opx. destruct (o_rows op); tauto. }
  assert (GI : forall p p', csh p = o_sh op -> (goes op p = Some p' <-> csh p' = csh p /\ oth op p' = oth op p /\ goes1 op (opx op p) = Some (opx op p'))).
  { intros p p' E. rewrite goes_iff, E, N.eqb_refl. reflexivity. }
  assert (AL : rows r = All -> rows r' = All).
  { intro Q. unfold op_axis in *. destruct (o_rows op); [exact (A3 Q) | congruence]. }
  unfold carried. cbn [fst snd]. split; [reflexivity | ]. split; [exact E2 | ]. split; [split | ].
  - unfold rg_ok, op_axis in *. destruct R as [R1 R2]. destruct (o_rows op); rewrite E4; auto.
  - apply (keeps_shape same_rule r r' ru same_kind); [ | | exact AL]; unfold op_axis in *; destruct (o_rows op); congruence.
  - split; [exact AL | ]. split.
    + intros y y' U U' WY G. apply V in WY. destruct WY as [W1 [W2 W3]].
      apply GI in G; [ | congruence]. destruct G as [G1 [G2 G3]]. apply W. split; [congruence | ]. split.
      * destruct (op_axis op r) eqn:OA; try (apply A4; [discriminate | ]; exists (opx op y); split; [unfold opx, ucell in *; destruct (o_rows op); lia | auto]).
        rewrite (A3 eq_refl). exact I.
      * unfold oth in G2. destruct (o_rows op); rewrite G2; exact W3.
    + intros y' U' WY. apply W in WY. destruct WY as [W1 [W2 W3]].
      assert (D : op_axis op r = All \/ op_axis op r <> All) by (destruct (op_axis op r); solve [right; discriminate | left; reflexivity]).
      destruct D as [D | D].
      * (* whole columns *)
        assert (RW : o_rows op = true /\ ~ not_whole ru).
        { unfold shaped, bounded in SH. cbn [fst snd] in SH. unfold op_axis in D. destruct ru; cbn [not_whole];
            destruct (o_rows op); try rewrite D in SH; cbn in SH; intuition discriminate. }
        destruct RW as [RW NW]. destruct (some_row op K) as [i [j [I1 [I2 I3]]]].
        exists (Cl (csh y') i (ccol y')), (Cl (csh y') j (ccol y')). unfold ucell in *. cbn [csh crow ccol].
        split; [lia | ]. split; [apply V; cbn [csh crow ccol]; rewrite D; rewrite RW in *; cbn [on]; auto | ].
        split; [ | tauto]. apply GI; [cbn [csh]; congruence | ]. unfold opx, oth. rewrite RW. cbn [csh crow ccol]. auto.
      * apply (A4 D) in W2. destruct W2 as [i [I1 [I2 I3]]].
        exists (if o_rows op then Cl (csh y') i (ccol y') else Cl (csh y') (crow y') i), y'.
        split; [unfold ucell in *; destruct (o_rows op); cbn [crow ccol]; lia | ]. split; [ | split].
        -- apply V. unfold opx. destruct (o_rows op); cbn [csh crow ccol]; auto.
        -- apply GI; [destruct (o_rows op); cbn [csh]; congruence | ]. unfold opx, oth in *. destruct (o_rows op); cbn [csh crow ccol]; auto.
        -- auto.
Qed.

Lemma compact_carried : forall op deps deps', op_ok op -> o_del op = true ->
  Forall (fun dp => rg_ok (fst dp) /\ shaped dp /\ snd dp <> WResult) deps ->
  compact_deps op deps = Some deps' -> Forall2 (carried op same_rule) deps deps'.
Proof.
  intros op deps. induction deps as [ | [r ru] l IH]; intros deps' K DL F H; cbn [compact_deps] in H.
  - injection H. intros. subst. constructor.
  - inversion F as [ | ? ? [F1 [F2 F3]] FL]; subst. cbn [fst snd] in *.
    destruct (match classify op r with OtherSheet | Below => Some r | Above _ => shift (fst (op_delta op)) (snd (op_delta op)) r | Straddles => compact_region op r | Contained => None end) as [r' | ] eqn:C; [ | discriminate].
    destruct (compact_deps op l) as [l' | ] eqn:T; [ | discriminate]. injection H. intros. subst.
    constructor; [ | exact (IH l' K DL FL eq_refl)].
    destruct (classify op r) as [ | | d | | ] eqn:CR; try discriminate.
    + injection C. intros. subst. exact (carried_still op same_rule r' ru F1 same_kind (or_introl CR)).
    + injection C. intros. subst. exact (carried_still op same_rule r' ru F1 same_kind (or_intror CR)).
    + rewrite op_delta_eq in C. cbn [fst snd] in C. exact (carried_above op same_rule r r' ru d K F1 same_kind F2 F3 CR C).
    + exact (carried_compact op r r' ru K DL F1 F2 F3 CR C).
Qed.

(** * A surviving reader *)

Lemma goes1_out : forall op i, o_del op = true -> (i < o_at op \/ o_at op + o_n op <= i) -> exists j, goes1 op i = Some j.
Proof.
  intros op i DL H. unfold goes1. rewrite DL. destruct (i <? o_at op) eqn:A; [eauto | ].
  destruct (i <? o_at op + o_n op) eqn:B; [lia | eauto].
Qed.
Lemma goes1_in : forall op i, o_del op = true -> goes1 op i = None -> o_at op <= i < o_at op + o_n op.
Proof.
  intros op i DL H. unfold goes1 in H. rewrite DL in H. destruct (i <? o_at op) eqn:A; [discriminate | ].
  destruct (i <? o_at op + o_n op) eqn:B; [lia | discriminate].
Qed.
Lemma goes_some : forall op p j, csh p = o_sh op -> goes1 op (opx op p) = Some j -> exists p', goes op p = Some p'.
Proof. intros op p j E H. unfold goes. rewrite E, N.eqb_refl. unfold opx in H. destruct (o_rows op); rewrite H; cbn; eauto. Qed.

Lemma survivor : forall op d ru s lo hi p y y', op_ok op -> o_del op = true ->
  (forall q, placed_at d q -> csh q = o_sh op /\ lo <= opx op q <= hi) ->
  (forall q z, placed_at d q -> csh z = csh q -> oth op z = oth op q -> lo <= opx op z <= hi -> placed_at d z) ->
  o_at op <= hi -> lo < o_at op + o_n op -> (lo < o_at op \/ o_at op + o_n op <= hi) ->
  not_result ru -> Forall (in_line op s) (along (o_rows op) ru) ->
  placed_at d p -> reads ru p y -> csh y = s -> goes op y = Some y' ->
  exists q q', placed_at d q /\ goes op q = Some q' /\ reads ru q y.
Proof.
  intros op d ru s lo hi p y y' K DL P1 P2 B1 B2 B3 NR AL P RD S G.
  destruct (goes op p) as [p' | ] eqn:GP; [exists p, p'; auto | ].
  destruct (P1 p P) as [PS PX].
  assert (IN : o_at op <= opx op p < o_at op + o_n op).
  { apply goes1_in; [exact DL | ]. destruct (goes1 op (opx op p)) as [j | ] eqn:E; [ | reflexivity].
    destruct (goes_some op p j PS E) as [p' E']. congruence. }
  pose proof (proj1 (reads_axes op ru p y NR) RD) as [R1 R2].
  (* a placement of another coordinate *)
  assert (MK : forall i, lo <= i <= hi -> (i < o_at op \/ o_at op + o_n op <= i) -> axr (rpair (o_rows op) ru) i (opx op y) ->
    exists q q', placed_at d q /\ goes op q = Some q' /\ reads ru q y).
  { intros i I1 I2 I3. set (q := if o_rows op then Cl (csh p) i (ccol p) else Cl (csh p) (crow p) i).
    assert (Q1 : csh q = csh p) by (unfold q; destruct (o_rows op); reflexivity).
    assert (Q2 : opx op q = i) by (unfold q, opx; destruct (o_rows op); reflexivity).
    assert (Q3 : oth op q = oth op p) by (unfold q, oth; destruct (o_rows op); reflexivity).
    destruct (goes1_out op i DL I2) as [j J]. destruct (goes_some op q j) as [q' Q']; [congruence | congruence | ].
    exists q, q'. split; [apply (P2 p q P Q1 Q3); lia | ]. split; [exact Q' | ].
    apply (reads_axes op ru q y NR). rewrite Q2, Q3. auto. }
  assert (PICK : exists i, lo <= i <= hi /\ (i < o_at op \/ o_at op + o_n op <= i)).
  { destruct B3 as [B3 | B3]; [exists lo | exists hi]; lia. }
  destruct PICK as [i0 [I1 I2]].
  destruct (rpair (o_rows op) ru) as [[a b] | ] eqn:PR; [ | apply (MK i0 I1 I2); exact Logic.I].
  destruct (along_pair _ _ _ _ PR) as [A1 A2]. rewrite Forall_forall in AL. specialize (AL _ A1) as L1. specialize (AL _ A2) as L2.
  cbn [axr] in *. unfold between in *.
  destruct a as [x | i], b as [z | j]; cbn [in_line at_axis] in *.
  - (* the same row: it survives *)
    exfalso. apply goes_iff in G. destruct G as [_ [_ G]]. rewrite S in G. destruct L1 as [L1 L1']. rewrite L1, N.eqb_refl in G.
    apply goes1_iff in G. unfold thr, dz in G. rewrite DL in G. lia.
  - destruct L1 as [L1 L1']. specialize (L2 L1). apply goes_iff in G. destruct G as [_ [_ G]]. rewrite S, L1, N.eqb_refl in G.
    apply goes1_iff in G. unfold thr, dz in G. rewrite DL in G.
    destruct (o_at op + o_n op <=? hi) eqn:HH; [apply (MK hi) | apply (MK (o_at op - 1))]; lia.
  - destruct L2 as [L2 L2']. specialize (L1 L2). apply goes_iff in G. destruct G as [_ [_ G]]. rewrite S, L2, N.eqb_refl in G.
    apply goes1_iff in G. unfold thr, dz in G. rewrite DL in G.
    destruct (o_at op + o_n op <=? hi) eqn:HH; [apply (MK hi) | apply (MK (o_at op - 1))]; lia.
  - apply (MK i0 I1 I2). exact R1.
Qed.

Lemma pair_refl : forall o x, pair_same o o x.
Proof. intros [[a b] | ] x; cbn; auto. Qed.

Lemma compact_carries : forall op sp sp', op_ok op -> o_del op = true -> sound sp -> aligned op sp ->
  classify_span op (s_dom sp) (s_deps sp) = Demote DeleteOverlaps ->
  do_compact op sp = Moved sp' -> sound sp' /\ carries op sp sp'.
Proof.
  intros op sp sp' K DL SD [AL AO] C H. destruct SD as [K1 [K2 [[[AG1 AG2] SK] D]]].
  unfold do_compact in H.
  destruct (negb (single_binding (s_lits sp)) || displaced_absolute (s_deps sp) op); [discriminate | ].
  destruct (compact_domain op (s_dom sp)) as [d' | ] eqn:CD; [ | discriminate].
  destruct (compact_deps op (s_deps sp)) as [deps' | ] eqn:CP; [ | discriminate].
  destruct (origin_through op (s_template sp)) as [fr | ] eqn:OT; [ | discriminate].
  injection H. intros. subst sp'. clear H.
  assert (CS : classify op (of_domain (s_dom sp)) = Straddles).
  { unfold classify_span in C. assert (NP : forall dr dc, plan_reads op (s_deps sp) dr dc <> Demote DeleteOverlaps).
    { intros dr dc. unfold plan_reads. destruct (partition_reads _ _ _) as [st | ]; [ | discriminate].
      destruct (_ && _); [destruct (_ || _); discriminate | ]. destruct (displaced_abs st); [discriminate | ].
      destruct (shifting_rel st), (still_rel st); discriminate. }
    destruct (classify op (of_domain (s_dom sp))); auto; try (exfalso; exact (NP _ _ C)); discriminate. }
  assert (FE : fr = s_template sp).
  { unfold origin_through in OT. rewrite DL in OT. cbn [negb] in OT. unfold origin_coord, csub, obind in OT.
    destruct (s_template sp) as [f r c]. cbn [f_refs f_row f_col] in *. destruct (o_rows op).
    - destruct (1 <=? r) eqn:E; [ | discriminate]. destruct (r - 1 <? o_at op) eqn:F; [ | lia]. cbn in OT. injection OT. auto.
    - destruct (1 <=? c) eqn:E; [ | discriminate]. destruct (c - 1 <? o_at op) eqn:F; [ | lia]. cbn in OT. injection OT. auto. }
  subst fr.
  destruct (compact_placed op _ _ K K1 DL CS CD) as [DK [IM [lo [hi [LH [P1 [P2 [B1 [B2 B3]]]]]]]]].
  rewrite Forall_forall in AL.
  assert (MV : forall s ru p p', In (s, ru) (meaning (s_template sp)) -> placed_at (s_dom sp) p -> goes op p = Some p' ->
     moves op s ru ru p p' /\ onto op (s, ru) p' /\ lands ru p').
  { intros s ru p p' J P G. pose proof (meaning_rule _ _ _ J) as NR.
    assert (L : lands ru p) by (destruct D as [_ [_ DD]]; rewrite Forall_forall in DD; exact (DD _ J p P)).
    pose proof (proj1 (lands_pairs op ru p NR) L) as [L1 L2].
    destruct (P1 p P) as [PS PX]. apply goes_iff in G. rewrite PS, N.eqb_refl in G. destruct G as [G1 [G2 G3]].
    specialize (AL _ J). cbn [fst snd] in AL. rewrite Forall_forall in AL.
    assert (B : forall q, In q (along (o_rows op) ru) -> lands1 q (opx op p) ->
        moved1 op s (at_axis q (opx op p)) (at_axis q (opx op p')) /\ lands1 q (opx op p')).
    { intros q Q LQ. specialize (AL _ Q). unfold moved1, lands1 in *. apply goes1_iff in G3. unfold thr, dz in G3. rewrite DL in G3.
      assert (GG : goes1 op (opx op p) = Some (opx op p')) by (apply goes1_iff; unfold thr, dz; rewrite DL; exact G3).
      destruct q as [off | i]; cbn [in_line at_axis] in *.
      - destruct AL as [-> ->]. rewrite N.eqb_refl. rewrite !Z.add_0_r in *. split; [eauto | lia].
      - split; [ | lia]. destruct (s =? o_sh op) eqn:E; [ | reflexivity].
        exists i, i. split; [reflexivity | ]. split; [reflexivity | ]. apply goes1_iff. left. split; [apply AL; lia | reflexivity]. }
    assert (PM : pair_moved op s (rpair (o_rows op) ru) (rpair (o_rows op) ru) (opx op p) (opx op p') /\ lands_pair (rpair (o_rows op) ru) (opx op p')).
    { destruct (rpair (o_rows op) ru) as [[a b] | ] eqn:PR; cbn [pair_moved lands_pair] in *; [ | auto].
      destruct (along_pair _ _ _ _ PR) as [A1 A2]. destruct (B a A1 (proj1 L1)) as [X1 X2]. destruct (B b A2 (proj2 L1)) as [Y1 Y2]. auto. }
    destruct PM as [PM PL].
    assert (M : moves op s ru ru p p').
    { split; [exact NR | ]. split; [exact NR | ]. split; [tauto | ]. split; [exact G2 | ]. split; [exact PM | apply pair_refl]. }
    split; [exact M | ]. split.
    - apply (moves_onto op s ru ru p p' K M L). unfold uniform. destruct (rpair (o_rows op) ru) as [[a b] | ]; [ | exact Logic.I]. intros _ X. congruence.
    - apply (lands_pairs op ru p' NR). rewrite G2. auto. }
  split.
  - split; [exact DK | ]. split; [exact K2 | ]. split; [split; [split; reflexivity | exact K2] | ]. cbn [s_template s_dom s_deps].
    assert (ID : map (fun sr => (fst sr, same_rule (snd sr))) (meaning (s_template sp)) = meaning (s_template sp)).
    { rewrite <- (map_id (meaning (s_template sp))) at 2. apply map_ext. intros [s ru]. reflexivity. }
    rewrite <- ID.
    apply (described_image op same_rule _ (s_dom sp) (s_deps sp) d' deps' same_kind (meaning_rule _) D IM); [ | exact MV | ].
    + exact (compact_carried op _ _ K DL (deps_fine _ _ _ D) CP).
    + intros r ru y y' J U W G. pose proof D as [_ [DG _]]. rewrite Forall_forall in DG.
      destruct (DG _ J) as [_ [_ [JM GR]]]. cbn [fst snd] in *. destruct (GR y U W) as [p [P R]].
      apply (survivor op (s_dom sp) ru (sh r) lo hi p y y' K DL P1 P2 B1 B2 B3 (meaning_rule _ _ _ JM)); try assumption.
      * exact (AL _ JM).
      * exact (proj1 W).
  - split; cbn [s_dom s_eval]; [exact IM | ]. intros p p' P G. rewrite AG1. unfold formula_follows.
    assert (T : forall l, (forall sr, In sr l -> In sr (meaning (s_template sp))) -> Forall2 (follows op p p') l l).
    { induction l as [ | [s ru] l IH]; intro Q; [constructor | ].
      constructor; [ | apply IH; intros sr J; apply Q; right; exact J].
      destruct (MV s ru p p' (Q _ (or_introl eq_refl)) P G) as [M [O _]].
      apply moves_follows; [exact M | intros _; exact O]. }
    apply T. auto.
Qed.
