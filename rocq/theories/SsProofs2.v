(** A rule whose bounds move with the edit follows the cells it reads. *)
From Verif Require Import Base Maps IntervalModel FpModel FpSpec SsModel SsSpec SsProofs.
From Coq Require Import ZifyN ZifyNat ZifyBool.

Open Scope N_scope.

Definition moved1 (op : sop) (s : N) (z w : Z) : Prop :=
  if s =? o_sh op then exists i j, z = Z.of_N i /\ w = Z.of_N j /\ goes1 op i = Some j else w = z.
Definition pair_moved (op : sop) (s : N) (o o' : option (proj * proj)) (x x' : N) : Prop :=
  match o, o' with
  | Some (a, b), Some (a', b') => moved1 op s (at_axis a x) (at_axis a' x') /\ moved1 op s (at_axis b x) (at_axis b' x')
  | None, None => True
  | _, _ => False
  end.
Definition pair_same (o o' : option (proj * proj)) (x : N) : Prop :=
  match o, o' with
  | Some (a, b), Some (a', b') => at_axis a' x = at_axis a x /\ at_axis b' x = at_axis b x
  | None, None => True
  | _, _ => False
  end.
(** For an insertion, both bounds are on the same side. *)
Definition uniform (op : sop) (s : N) (o : option (proj * proj)) (x : N) : Prop :=
  match o with
  | Some (a, b) =>
      s = o_sh op -> o_del op = false ->
      ((at_axis a x < Z.of_N (o_at op))%Z /\ (at_axis b x < Z.of_N (o_at op))%Z) \/
      ((Z.of_N (o_at op) <= at_axis a x)%Z /\ (Z.of_N (o_at op) <= at_axis b x)%Z)
  | None => True
  end.
Definition lands_pair (o : option (proj * proj)) (x : N) : Prop :=
  match o with Some (a, b) => lands1 a x /\ lands1 b x | None => True end.

Lemma lands_pairs : forall op ru p, not_result ru ->
  (lands ru p <-> lands_pair (rpair (o_rows op) ru) (opx op p) /\ lands_pair (rpair (negb (o_rows op)) ru) (oth op p)).
Proof.
  intros op ru p NR. unfold opx, oth. destruct ru; try (exfalso; apply NR; reflexivity);
    destruct (o_rows op); cbn [rpair lands lands_pair negb]; tauto.
Qed.

Lemma between_moved : forall op s A B A' B' y y',
  moved1 op s A A' -> moved1 op s B B' ->
  (if s =? o_sh op then goes1 op y = Some y' else y' = y) ->
  (between A B y <-> between A' B' y').
Proof.
  intros op s A B A' B' y y' MA MB MY. unfold moved1 in *. destruct (s =? o_sh op).
  - destruct MA as [a [a' [-> [-> GA]]]]. destruct MB as [b [b' [-> [-> GB]]]]. unfold between.
    pose proof (goes1_lt _ _ _ _ _ GA MY). pose proof (goes1_lt _ _ _ _ _ MY GA).
    pose proof (goes1_lt _ _ _ _ _ GB MY). pose proof (goes1_lt _ _ _ _ _ MY GB).
    pose proof (goes1_lt _ _ _ _ _ GA GB). pose proof (goes1_lt _ _ _ _ _ GB GA). lia.
  - subst. reflexivity.
Qed.

Lemma pair_iff : forall op s o o' x x' y y', pair_moved op s o o' x x' ->
  (if s =? o_sh op then goes1 op y = Some y' else y' = y) ->
  (axr o x y <-> axr o' x' y').
Proof.
  intros op s o o' x x' y y' M Y. destruct o as [[a b] | ], o' as [[a' b'] | ]; cbn in *; try tauto.
  destruct M as [MA MB]. eapply between_moved; eauto.
Qed.

Lemma same_iff : forall o o' x y, pair_same o o' x -> (axr o x y <-> axr o' x y).
Proof.
  intros o o' x y M. destruct o as [[a b] | ], o' as [[a' b'] | ]; cbn in *; try tauto.
  destruct M as [-> ->]. reflexivity.
Qed.

(** One reference, moved: what is needed of its rule before and after. *)
Definition moves (op : sop) (s : N) (ru ru' : rule) (p p' : cell) : Prop :=
  not_result ru /\ not_result ru' /\ (not_whole ru <-> not_whole ru') /\ oth op p' = oth op p
  /\ pair_moved op s (rpair (o_rows op) ru) (rpair (o_rows op) ru') (opx op p) (opx op p')
  /\ pair_same (rpair (negb (o_rows op)) ru) (rpair (negb (o_rows op)) ru') (oth op p).

Lemma moves_iff : forall op s ru ru' p p' y y', moves op s ru ru' p p' -> goes op y = Some y' ->
  (reads_by (s, ru) p y <-> reads_by (s, ru') p' y').
Proof.
  intros op s ru ru' p p' y y' [N1 [N2 [_ [O [M S]]]]] G.
  apply goes_iff in G. destruct G as [G1 [G2 G3]].
  unfold reads_by. cbn [fst snd]. rewrite (reads_axes op ru p y N1), (reads_axes op ru' p' y' N2).
  rewrite O, G1, G2.
  split; intros [E [R1 R2]]; (split; [exact E | ]); rewrite E in G3; split.
  - apply (proj1 (pair_iff _ _ _ _ _ _ _ _ M G3)). exact R1.
  - apply (proj1 (same_iff _ _ _ _ S)). exact R2.
  - apply (proj2 (pair_iff _ _ _ _ _ _ _ _ M G3)). exact R1.
  - apply (proj2 (same_iff _ _ _ _ S)). exact R2.
Qed.

Lemma between_onto : forall op s A B A' B' y', op_ok op ->
  (0 <= A <= Z.of_N umax)%Z -> (0 <= B <= Z.of_N umax)%Z ->
  moved1 op s A A' -> moved1 op s B B' ->
  (s = o_sh op -> o_del op = false ->
      (A < Z.of_N (o_at op) /\ B < Z.of_N (o_at op))%Z \/ (Z.of_N (o_at op) <= A /\ Z.of_N (o_at op) <= B)%Z) ->
  y' <= umax -> between A' B' y' ->
  exists y, y <= umax /\ if s =? o_sh op then goes1 op y = Some y' else y' = y.
Proof.
  intros op s A B A' B' y' [K1 K2] LA LB MA MB U Y Bt. unfold moved1 in *.
  destruct (s =? o_sh op) eqn:E.
  - destruct MA as [a [a' [-> [-> GA]]]]. destruct MB as [b [b' [-> [-> GB]]]]. unfold between in Bt.
    apply goes1_iff in GA. apply goes1_iff in GB.
    assert (E' : s = o_sh op) by lia. specialize (U E').
    unfold thr, dz in *. destruct (o_del op) eqn:D.
    + destruct (y' <? o_at op) eqn:F.
      * exists y'. split; [lia | ]. apply goes1_iff. left. split; [lia | reflexivity].
      * exists (y' + o_n op). split; [lia | ]. apply goes1_iff. right. unfold thr, dz. rewrite D. split; lia.
    + specialize (U eq_refl). destruct U as [[U1 U2] | [U1 U2]].
      * exists y'. split; [lia | ]. apply goes1_iff. left. split; lia.
      * exists (y' - o_n op). split; [lia | ]. apply goes1_iff. right. unfold thr, dz. rewrite D. split; lia.
  - exists y'. split; [assumption | reflexivity].
Qed.

(** A row (column) that stays on the sheet. *)
Lemma some_row : forall op, op_ok op -> exists i j, i <= umax /\ j <= umax /\ goes1 op i = Some j.
Proof.
  intros op [K1 K2]. destruct (o_del op) eqn:D.
  - exists (o_at op + o_n op), (o_at op). split; [lia | ]. split; [lia | ].
    apply goes1_iff. right. unfold thr, dz. rewrite D. split; lia.
  - destruct (N.eq_dec (o_at op) 0) as [Z | NZ].
    + exists 0, (o_n op). split; [unfold umax; lia | ]. split; [lia | ].
      apply goes1_iff. right. unfold thr, dz. rewrite D. split; lia.
    + exists 0, 0. split; [unfold umax; lia | ]. split; [unfold umax; lia | ]. apply goes1_iff. left. split; lia.
Qed.

Definition onto (op : sop) (sr' : N * rule) (p' : cell) : Prop :=
  forall y', ucell y' -> reads_by sr' p' y' ->
  exists y y'', ucell y /\ ucell y'' /\ goes op y = Some y'' /\ csh y'' = csh y' /\ ccol y'' = ccol y' /\ (not_whole (snd sr') -> y'' = y').

Lemma moves_onto : forall op s ru ru' p p', op_ok op -> moves op s ru ru' p p' -> lands ru p ->
  uniform op s (rpair (o_rows op) ru) (opx op p) -> onto op (s, ru') p'.
Proof.
  intros op s ru ru' p p' K [N1 [N2 [W [O [M S]]]]] L U y' UY [E R]. cbn [fst snd] in *.
  apply (lands_pairs op ru p N1) in L. destruct L as [L _].
  rewrite (reads_axes op ru' p' y' N2) in R. destruct R as [R1 R2].
  assert (UX : opx op y' <= umax /\ oth op y' <= umax) by (unfold opx, oth, ucell in *; destruct (o_rows op); lia).
  destruct (rpair (o_rows op) ru) as [[a b] | ] eqn:PR; destruct (rpair (o_rows op) ru') as [[a' b'] | ] eqn:PR';
    cbn [pair_moved] in M; try tauto.
  - cbn [axr lands_pair uniform] in *. destruct L as [L1 L2]. destruct M as [M1 M2].
    destruct (between_onto op s _ _ _ _ (opx op y') K L1 L2 M1 M2 U (proj1 UX) R1) as [i [I1 I2]].
    exists (if o_rows op then Cl (csh y') i (ccol y') else Cl (csh y') (crow y') i), y'.
    split; [unfold ucell, opx, oth in *; destruct (o_rows op); cbn [crow ccol]; lia | ].
    split; [exact UY | ]. split; [ | repeat split; auto].
    apply goes_iff. rewrite <- E in I2. unfold opx, oth in *.
    destruct (o_rows op); cbn [csh crow ccol]; repeat split; assumption.
  - (* whole columns, rows edited *)
    apply (axes_pair ru' _ N2) in PR'. destruct PR' as [c0 [c1 [-> RW]]].
    destruct (some_row op K) as [i [j [I1 [I2 I3]]]].
    unfold opx, oth, ucell in *. rewrite RW in *.
    destruct (csh y' =? o_sh op) eqn:Q.
    + exists (Cl (csh y') i (ccol y')), (Cl (csh y') j (ccol y')). cbn [csh crow ccol snd not_whole].
      split; [lia | ]. split; [lia | ]. split; [ | repeat split; tauto].
      apply goes_iff. unfold opx, oth. rewrite RW. cbn [csh crow ccol]. rewrite Q. repeat split; assumption.
    + exists y', y'. cbn [snd not_whole]. split; [lia | ]. split; [lia | ]. split; [ | repeat split; tauto].
      apply goes_iff. rewrite Q. repeat split; reflexivity.
Qed.

Lemma moves_follows : forall op s ru ru' p p', moves op s ru ru' p p' ->
  (not_whole ru -> onto op (s, ru') p') -> follows op p p' (s, ru) (s, ru').
Proof.
  intros op s ru ru' p p' M O. split; [reflexivity | ]. split.
  - intros y y' _ G. exact (moves_iff _ _ _ _ _ _ _ _ M G).
  - intros W y' U R. cbn [snd] in W. destruct (O W y' U R) as [y [y'' [A [_ [B [_ [_ C]]]]]]].
    cbn [snd] in C. destruct M as [_ [_ [W2 _]]]. apply W2 in W. rewrite (C W) in B. exists y. auto.
Qed.

(** * Summaries carried along *)

Definition carried (op : sop) (g : rule -> rule) (dp dp' : dep) : Prop :=
  snd dp' = g (snd dp) /\ sh (fst dp') = sh (fst dp) /\ (rg_ok (fst dp') /\ (shaped dp -> shaped dp'))
  /\ (rows (fst dp) = All -> rows (fst dp') = All)
  /\ (forall y y', ucell y -> ucell y' -> within (fst dp) y -> goes op y = Some y' -> within (fst dp') y')
  /\ (forall y', ucell y' -> within (fst dp') y' -> exists y y'', ucell y /\ within (fst dp) y /\ goes op y = Some y''
        /\ csh y'' = csh y' /\ ccol y'' = ccol y' /\ (not_whole (snd dp) -> y'' = y')).

Definition images (op : sop) (d d' : domain) : Prop :=
  forall p', placed_at d' p' <-> exists p, placed_at d p /\ goes op p = Some p'.

Lemma reads_col : forall ru p y z, ru <> WResult -> ~ not_whole ru -> ccol y = ccol z -> reads ru p y -> reads ru p z.
Proof.
  intros ru p y z N W C R. destruct ru; cbn in *; try tauto. rewrite <- C. exact R.
Qed.

Lemma whole_dec : forall ru, not_whole ru \/ ~ not_whole ru.
Proof. destruct ru; cbn; tauto. Qed.

Lemma placed_u : forall d p, dom_ok d -> placed_at d p -> ucell p.
Proof. intros d p K P. unfold ucell. destruct d; cbn in *; lia. Qed.

Definition keeps_kind (g : rule -> rule) : Prop :=
  forall ru, (not_whole ru <-> not_whole (g ru)) /\ (ru = WResult <-> g ru = WResult).

Lemma covered_iff : forall deps d s ru, ru <> WResult ->
  (covered deps d (s, ru) <->
   (not_whole ru -> exists r, In (r, ru) deps /\ sh r = s /\ forall p y, placed_at d p -> ucell y -> reads_by (s, ru) p y -> within r y)
   /\ (~ not_whole ru -> forall p y, placed_at d p -> ucell y -> reads_by (s, ru) p y -> exists r, In (r, ru) deps /\ rows r = All /\ within r y)).
Proof.
  intros deps d s ru N. unfold covered. cbn [fst snd]. destruct ru; cbn [not_whole]; tauto.
Qed.

Lemma forall2_in_l : forall A B (R : A -> B -> Prop) l l', Forall2 R l l' ->
  forall x, In x l -> exists y, In y l' /\ R x y.
Proof.
  intros A B R l l' H. induction H as [ | a b l l' X T IH]; intros x I; [destruct I | ].
  destruct I as [-> | I]; [exists b; split; [left; reflexivity | assumption] | ].
  destruct (IH x I) as [z [P Q]]. exists z. split; [right; assumption | assumption].
Qed.
Lemma forall2_in_r : forall A B (R : A -> B -> Prop) l l', Forall2 R l l' ->
  forall y, In y l' -> exists x, In x l /\ R x y.
Proof.
  intros A B R l l' H. induction H as [ | a b l l' X T IH]; intros x I; [destruct I | ].
  destruct I as [-> | I]; [exists a; split; [left; reflexivity | assumption] | ].
  destruct (IH x I) as [z [P Q]]. exists z. split; [right; assumption | assumption].
Qed.

Lemma described_image : forall op g m d deps d' deps', keeps_kind g ->
  (forall s ru, In (s, ru) m -> ru <> WResult) ->
  described m d deps -> images op d d' ->
  Forall2 (carried op g) deps deps' ->
  (forall s ru p p', In (s, ru) m -> placed_at d p -> goes op p = Some p' ->
     moves op s ru (g ru) p p' /\ onto op (s, g ru) p' /\ lands (g ru) p') ->
  (forall r ru y y', In (r, ru) deps -> ucell y -> within r y -> goes op y = Some y' ->
     exists p p', placed_at d p /\ goes op p = Some p' /\ reads ru p y) ->
  described (map (fun sr => (fst sr, g (snd sr))) m) d' deps'.
Proof.
  intros op g m d deps d' deps' KG NR [DC [DG DL]] IM CA MV SV.
  rewrite Forall_forall in DC, DG, DL.
  pose proof (forall2_in_l _ _ _ _ _ CA) as CAR. pose proof (forall2_in_r _ _ _ _ _ CA) as CAL. clear CA.
  assert (NRG : forall s ru, In (s, ru) m -> g ru <> WResult)
    by (intros s ru I E; apply (NR _ _ I); apply (proj2 (KG ru)); exact E).
  split; [ | split].
  - rewrite Forall_forall. intros sr' I. apply in_map_iff in I. destruct I as [[s ru] [<- I]]. cbn [fst snd].
    specialize (DC _ I). apply (covered_iff _ _ _ _ (NR _ _ I)) in DC. destruct DC as [DC1 DC2].
    apply (covered_iff _ _ _ _ (NRG _ _ I)). split; intro W'.
    + assert (W : not_whole ru) by (apply (proj1 (KG ru)); exact W').
      destruct (DC1 W) as [r [X1 [X2 X3]]].
      destruct (CAR _ X1) as [[r' ru'] [Y1 Y2]]. destruct Y2 as [Z1 [Z2 [_ [_ [Z3 _]]]]]. cbn [fst snd] in *. subst ru'.
      exists r'. split; [exact Y1 | ]. split; [congruence | ].
      intros p' y' P' U' R'. apply IM in P'. destruct P' as [p [P G]].
      destruct (MV _ _ _ _ I P G) as [M [O _]].
      destruct (O y' U' R') as [y [y'' [A [_ [B [_ [_ C]]]]]]]. cbn [snd] in C.
      specialize (C W'). subst y''. apply (Z3 y y' A U'); [ | exact B].
      apply (X3 p y P A). apply (proj2 (moves_iff _ _ _ _ _ _ _ _ M B)). exact R'.
    + assert (W : ~ not_whole ru) by (intro W; apply W'; apply (proj1 (KG ru)); exact W).
      intros p' y' P' U' R'. apply IM in P'. destruct P' as [p [P G]].
      destruct (MV _ _ _ _ I P G) as [M [O _]].
      destruct (O y' U' R') as [y [y'' [A [U'' [B [C1 [C2 _]]]]]]].
      assert (R'' : reads_by (s, g ru) p' y'').
      { split; cbn [fst snd]; [rewrite C1; exact (proj1 R') | ].
        apply (reads_col _ _ y' y'' (NRG _ _ I) W'); [congruence | exact (proj2 R')]. }
      apply (proj2 (moves_iff _ _ _ _ _ _ _ _ M B)) in R''.
      destruct (DC2 W p y P A R'') as [r [X1 [X2 X3]]].
      destruct (CAR _ X1) as [[r' ru'] [Y1 Y2]]. destruct Y2 as [Z1 [Z2 [_ [Z4 [Z3 _]]]]]. cbn [fst snd] in *. subst ru'.
      exists r'. split; [exact Y1 | ]. split; [exact (Z4 X2) | ].
      pose proof (Z3 y y'' A U'' X3 B) as [Q1 [_ Q2]]. rewrite C2 in Q2. rewrite C1 in Q1.
      split; [exact Q1 | ]. rewrite (Z4 X2). split; [constructor | exact Q2].
  - rewrite Forall_forall. intros [r' ru'] I. destruct (CAL _ I) as [[r ru] [J Y]].
    destruct Y as [Z1 [Z2 [Z5 [Z4 [_ Z3]]]]]. cbn [fst snd] in *. subst ru'.
    destruct (DG _ J) as [G1 [GS [G2 G3]]]. destruct Z5 as [Z5 Z6]. cbn [fst snd] in *.
    split; [exact Z5 | ]. split; [exact (Z6 GS) | ]. split; [cbn [fst snd]; rewrite Z2; apply in_map_iff; exists (sh r, ru); auto | ].
    intros y' U' R'. cbn [fst snd] in *. destruct (Z3 y' U' R') as [y [y'' [A [B [C [D1 [D2 D3]]]]]]].
    destruct (SV _ _ _ _ J A B C) as [p [p' [P1 [P2 P3]]]].
    exists p'. split; [apply IM; exists p; auto | ].
    destruct (MV _ _ _ _ G2 P1 P2) as [M _].
    assert (R'' : reads_by (sh r, g ru) p' y'').
    { apply (proj1 (moves_iff _ _ _ _ _ _ _ _ M C)). split; [exact (proj1 B) | exact P3]. }
    destruct (whole_dec ru) as [W | W]; [rewrite <- (D3 W); exact (proj2 R'') | ].
    apply (reads_col _ _ y'' y' (NRG _ _ G2)); [ | exact D2 | exact (proj2 R'')].
    intro W'. apply W. apply (proj1 (KG ru)). exact W'.
  - rewrite Forall_forall. intros sr' I. apply in_map_iff in I. destruct I as [[s ru] [<- I]]. cbn [snd].
    intros p' P'. apply IM in P'. destruct P' as [p [P G]]. exact (proj2 (proj2 (MV _ _ _ _ I P G))).
Qed.
