(** Regions, projections of changes and summaries of reads. *)
From Coq Require Import ZifyN ZifyNat ZifyBool.
From Verif Require Import Base Maps IntervalModel FpModel FpSpec FpProofs.

Open Scope N_scope.

(** * Regions *)
Lemma meets_within : forall a b, rg_ok a -> rg_ok b ->
  (meets a b = true <-> exists c, ucell c /\ within a c /\ within b c).
Proof.
  intros a b [A1 A2] [B1 B2]. unfold meets, within, ucell. rewrite !andb_true_iff, N.eqb_eq, !meets_on by auto. split.
  - intros [[E (x & X & X1 & X2)] (y & Y & Y1 & Y2)]. exists (Cl (sh a) x y). cbn. tauto.
  - intros (c & (U1 & U2) & (E1 & R1 & C1) & (E2 & R2 & C2)). split; [split; [congruence|]|]; eauto.
Qed.
Lemma has_within : forall a c, has a c = true <-> within a c.
Proof. intros a c. unfold has, within. rewrite !andb_true_iff, N.eqb_eq, !has_on. intuition. Qed.
Lemma inter_within : forall a b, rg_ok a -> rg_ok b ->
  match inter a b with
  | Some r => rg_ok r /\ (forall c, within r c <-> within a c /\ within b c) /\ exists c, ucell c /\ within r c
  | None => forall c, ~ (within a c /\ within b c)
  end.
Proof.
  intros a b [A1 A2] [B1 B2]. unfold inter. destruct (N.eqb (sh a) (sh b)) eqn:E; cbn [negb].
  - assert (E' : sh a = sh b) by lia. clear E. unfold within.
    assert (K1 := fun x => inter_on (rows a) (rows b) x A1 B1). assert (K2 := fun x => inter_on (cols a) (cols b) x A2 B2).
    assert (O1 := inter_ok (rows a) (rows b) A1 B1). assert (O2 := inter_ok (cols a) (cols b) A2 B2).
    assert (S1 := fun d => inter_some (rows a) (rows b) d A1 B1). assert (S2 := fun d => inter_some (cols a) (cols b) d A2 B2).
    destruct (ax_inter (rows a) (rows b)) as [r|], (ax_inter (cols a) (cols b)) as [c|]; cbn [oon o_ok] in *.
    + split; [split; auto|]. split.
      * intros x. cbn [sh rows cols]. rewrite K1, K2, <- E'. tauto.
      * destruct (S1 r eq_refl) as (x & X & X'), (S2 c eq_refl) as (y & Y & Y'). exists (Cl (sh a) x y). cbn. unfold ucell. cbn. tauto.
    + intros x [(_ & _ & H1) (_ & _ & H2)]. apply (K2 (ccol x)). auto.
    + intros x [(_ & H1 & _) (_ & H2 & _)]. apply (K1 (crow x)). auto.
    + intros x [(_ & H1 & _) (_ & H2 & _)]. apply (K1 (crow x)). auto.
  - intros c [(H1 & _) (H2 & _)]. rewrite H1 in H2. lia.
Qed.
Lemma covers_within : forall a b, rg_ok a -> rg_ok b ->
  (covers a b = true <-> forall c, ucell c -> within b c -> within a c).
Proof.
  intros a b [A1 A2] [B1 B2]. unfold covers, within, ucell. rewrite !andb_true_iff, N.eqb_eq, !covers_on by auto. split.
  - intros [[E H1] H2] c [U1 U2] (W & W1 & W2). rewrite E. auto.
  - intros H. destruct (bounds_ok _ B1), (bounds_ok _ B2).
    assert (P : forall x y, x <= umax -> y <= umax -> on (rows b) x -> on (cols b) y -> sh b = sh a /\ on (rows a) x /\ on (cols a) y).
    { intros x y X Y O1 O2. apply (H (Cl (sh b) x y)); auto. }
    assert (X0 : on (rows b) (fst (ax_bounds (rows b)))) by (apply bounds_on; lia).
    assert (Y0 : on (cols b) (fst (ax_bounds (cols b)))) by (apply bounds_on; lia).
    split; [split|].
    + symmetry. apply (P (fst (ax_bounds (rows b))) (fst (ax_bounds (cols b)))); auto; lia.
    + intros x X O. apply (P x (fst (ax_bounds (cols b)))); auto; lia.
    + intros y Y O. apply (P (fst (ax_bounds (rows b))) y); auto; lia.
Qed.
Lemma norm_within : forall a c, within (norm a) c <-> within a c.
Proof. intros a c. unfold within, norm. cbn [sh rows cols]. now rewrite !norm_on. Qed.
Lemma norm_rok : forall a, rg_ok a -> rg_ok (norm a).
Proof. intros a [A B]. split; cbn [norm rows cols]; now apply norm_ok. Qed.

(** A cell moved by whole rows and columns. *)
Lemma shift_within : forall dr dc a b c d, rg_ok a -> shift dr dc a = Some b -> ucell c -> ucell d ->
  csh d = csh c -> (Z.of_N (crow d) = Z.of_N (crow c) + dr)%Z -> (Z.of_N (ccol d) = Z.of_N (ccol c) + dc)%Z ->
  within a c -> within b d.
Proof.
  intros dr dc a b c d [A B] H [U1 U2] [V1 V2] S1 R C (W1 & W2 & W3). unfold shift in H.
  destruct (ax_shift dr (rows a)) as [r|] eqn:E1; [|discriminate]. destruct (ax_shift dc (cols a)) as [q|] eqn:E2; [|discriminate].
  injection H as <-. unfold within. cbn [sh rows cols]. split; [congruence|].
  split; [exact (shift_on dr (rows a) r A E1 _ _ U1 V1 R W2)|exact (shift_on dc (cols a) q B E2 _ _ U2 V2 C W3)].
Qed.
Lemma shift_gone : forall dr dc a c d, rg_ok a -> shift dr dc a = None -> ucell c -> ucell d ->
  (Z.of_N (crow d) = Z.of_N (crow c) + dr)%Z -> (Z.of_N (ccol d) = Z.of_N (ccol c) + dc)%Z -> ~ within a c.
Proof.
  intros dr dc a c d [A B] H [U1 U2] [V1 V2] R C (W1 & W2 & W3). unfold shift in H.
  destruct (ax_shift dr (rows a)) as [r|] eqn:E1; [|exact (shift_none dr (rows a) A E1 _ _ U1 V1 R W2)].
  destruct (ax_shift dc (cols a)) as [q|] eqn:E2; [discriminate|exact (shift_none dc (cols a) B E2 _ _ U2 V2 C W3)].
Qed.
Lemma shift_image : forall dr dc a b d, rg_ok a -> bounded a -> shift dr dc a = Some b -> ucell d -> within b d ->
  exists c, ucell c /\ within a c /\ csh c = csh d /\
    (Z.of_N (crow d) = Z.of_N (crow c) + dr)%Z /\ (Z.of_N (ccol d) = Z.of_N (ccol c) + dc)%Z.
Proof.
  intros dr dc a b d [A B] [BA BB] H [V1 V2] (W1 & W2 & W3). unfold shift in H.
  destruct (ax_shift dr (rows a)) as [r|] eqn:E1; [|discriminate]. destruct (ax_shift dc (cols a)) as [q|] eqn:E2; [|discriminate].
  injection H as <-. cbn [sh rows cols] in *.
  destruct (shift_back dr (rows a) r A BA E1 (crow d)) as (x & X & X1 & X2); auto.
  destruct (shift_back dc (cols a) q B BB E2 (ccol d)) as (y & Y & Y1 & Y2); auto.
  exists (Cl (sh a) x y). unfold ucell, within. cbn [csh crow ccol]. repeat (split; auto).
Qed.

Lemma ext_axis_on : forall e x, on (ext_axis e) x <-> fst e <= x <= snd e \/ (fst e = snd e /\ x = fst e).
Proof. intros [a b] x. unfold ext_axis. cbn [fst snd]. destruct (N.eqb a b) eqn:E; cbn [on]; lia. Qed.
Lemma axes_region_within : forall s r c x, ax_ok r -> ax_ok c -> ucell x ->
  (within (axes_region s r c) x <-> csh x = s /\ on r (crow x) /\ on c (ccol x)).
Proof.
  intros s r c x R C [U1 U2].
  assert (G : within (ext_region s (ax_bounds r) (ax_bounds c)) x <-> csh x = s /\ on r (crow x) /\ on c (ccol x)).
  { unfold within, ext_region. cbn [sh rows cols]. rewrite !ext_axis_on, !bounds_on by auto.
    destruct (bounds_ok r R), (bounds_ok c C). split; intros (? & ? & ?); repeat split; auto; lia. }
  destruct r, c; try exact G; unfold axes_region, within; cbn [sh rows cols]; tauto.
Qed.
Lemma ext_axis_ok : forall e, fst e <= snd e -> snd e <= umax -> ax_ok (ext_axis e).
Proof. intros [a b] H1 H2. unfold ext_axis. cbn [fst snd] in *. destruct (N.eqb a b) eqn:E; cbn [ax_ok]; lia. Qed.
Lemma axes_region_ok : forall s r c, ax_ok r -> ax_ok c -> rg_ok (axes_region s r c).
Proof.
  intros s r c R C. assert (G : rg_ok (ext_region s (ax_bounds r) (ax_bounds c))).
  { destruct (bounds_ok r R), (bounds_ok c C). split; cbn [ext_region rows cols]; now apply ext_axis_ok. }
  destruct r, c; try exact G; split; auto.
Qed.
Lemma region_dirty_cell : forall r result c, dirty_cell (region_dirty r) result c <-> within r c.
Proof.
  intros [s r c] result x. unfold region_dirty. cbn [rows cols sh].
  destruct r, c; cbn [dirty_cell]; try (split; [intros (y & [<-|[]] & H); auto|intros H; eexists; split; [left; reflexivity|auto]]).
  unfold within. cbn [sh rows cols on]. destruct x as [xs xr xc]. cbn [csh crow ccol]. split.
  - intros [H|[]]. injection H as <- <- <-. auto.
  - intros (-> & -> & ->). now left.
Qed.
Lemma region_dirty_ok : forall r, rg_ok r -> dirty_ok (region_dirty r).
Proof.
  intros [s r c] [A B]. unfold region_dirty. cbn [rows cols sh] in *.
  destruct r, c; cbn [dirty_ok]; constructor; auto; split; auto.
Qed.

(** * Projections *)
Lemma dirty_axis_no_panic : forall p ch re, dirty_axis p ch re <> Panic.
Proof. intros [off|i] ch re; cbn [dirty_axis]; [|discriminate]. unfold neg. destruct (Z.eqb _ _); cbn [rbind]; discriminate. Qed.
Lemma dirty_range_no_panic : forall a b ch re, dirty_range a b ch re <> Panic.
Proof.
  intros a b ch re. rewrite dirty_range_eq. destruct a, b; unfold rel_dirty, mix_dirty, through2, neg.
  - destruct ch; repeat (destruct (Z.eqb _ _); cbn [rbind]); discriminate.
  - repeat (destruct (Z.eqb _ _); cbn [rbind]); discriminate.
  - repeat (destruct (Z.eqb _ _); cbn [rbind]); discriminate.
  - discriminate.
Qed.

(** The outcome names the cells of its axes. *)
Lemma both_sound : forall s b r c p, (forall o, r = Ok o -> o_ok o /\ oon o (crow p)) -> (forall o, c = Ok o -> o_ok o /\ oon o (ccol p)) ->
  r <> Panic -> c <> Panic -> csh p = s -> ucell p ->
  match both s b r c with
  | Exact d | Conservative d _ => forall result, dirty_cell d result p
  | NoInter => False
  | Unsupported _ => True
  end.
Proof.
  intros s b r c p R C PR PC S U. unfold both. destruct r as [[dr|]|e|]; auto.
  - destruct (R _ eq_refl) as [R1 R2]. destruct c as [[dc|]|e|]; auto.
    + destruct (C _ eq_refl) as [C1 C2]. cbn [o_ok oon] in *. unfold axes_outcome. destruct (_ && _); auto.
      intros result. apply region_dirty_cell. apply axes_region_within; auto.
    + destruct (C _ eq_refl) as [_ C2]. exact C2.
  - destruct (R _ eq_refl) as [_ R2]. exact R2.
Qed.
Lemma project_sound : forall ru ch read result p y, rule_i64 ru -> rg_ok ch -> rg_ok read -> rg_ok result ->
  ucell p -> ucell y -> within ch y -> within read y -> within result p -> reads ru p y ->
  match project ru ch read result with
  | Exact d | Conservative d _ => dirty_cell d result p
  | NoInter => False
  | Unsupported _ => True
  end.
Proof.
  intros ru ch read result p y I Och Ord Ore Up Uy Wc Wr Wp R. unfold project.
  assert (M : meets ch read = true) by (apply meets_within; eauto). rewrite M. cbn [negb]. cbv zeta.
  destruct Wc as (W1 & W2 & W3). destruct Och as [Oc1 Oc2]. assert (Wp' := Wp). destruct Wp as (P1 & P2 & P3). destruct Ore as [Or1 Or2].
  assert (Up' := Up). destruct Up as [Up1 Up2]. destruct Uy as [Uy1 Uy2].
  destruct ru as [r c|r0 r1 c0 c1|c0 c1|]; cbn [rule_i64 reads] in *.
  - destruct I as [I1 I2], R as [R1 R2].
    assert (G := both_sound (sh result) (match extents result with Some _ => true | None => false end)
      (dirty_axis r (rows ch) (rows result)) (dirty_axis c (cols ch) (cols result)) p).
    match type of G with ?A -> ?B -> ?C -> ?D -> ?E -> ?F -> _ => assert (GA : A); [|assert (GB : B); [|specialize (G GA GB)]] end.
    + intros o H. split; [eapply dirty_axis_ok; [| |exact H]; auto|exact (dirty_axis_sound r _ _ o (crow p) (crow y) Oc1 Or1 I1 Up1 Uy1 H R1 W2 P2)].
    + intros o H. split; [eapply dirty_axis_ok; [| |exact H]; auto|exact (dirty_axis_sound c _ _ o (ccol p) (ccol y) Oc2 Or2 I2 Up2 Uy2 H R2 W3 P3)].
    + specialize (G (dirty_axis_no_panic _ _ _) (dirty_axis_no_panic _ _ _) P1 Up').
      destruct (both _ _ _ _); auto.
  - destruct I as (I1 & I2 & I3 & I4), R as [R1 R2].
    assert (G := both_sound (sh result) (match extents result with Some _ => true | None => false end)
      (dirty_range r0 r1 (rows ch) (rows result)) (dirty_range c0 c1 (cols ch) (cols result)) p).
    match type of G with ?A -> ?B -> ?C -> ?D -> ?E -> ?F -> _ => assert (GA : A); [|assert (GB : B); [|specialize (G GA GB)]] end.
    + intros o H. split; [eapply dirty_range_ok; [| | | |exact H]; auto|exact (dirty_range_sound r0 r1 _ _ o (crow p) (crow y) I1 I2 Oc1 Or1 H Up1 Uy1 R1 W2 P2)].
    + intros o H. split; [eapply dirty_range_ok; [| | | |exact H]; auto|exact (dirty_range_sound c0 c1 _ _ o (ccol p) (ccol y) I3 I4 Oc2 Or2 H Up2 Uy2 R2 W3 P3)].
    + specialize (G (dirty_range_no_panic _ _ _ _) (dirty_range_no_panic _ _ _ _) P1 Up').
      destruct (both _ _ _ _); auto.
  - cbn [dirty_cell]. exists result. split; [now left|auto].
  - exact Wp'.
Qed.
(** What a projection names lies in the result and is well formed. *)
Lemma both_exact : forall s b r c d, (forall o, r = Ok o -> o_ok o) -> (forall o, c = Ok o -> o_ok o) -> both s b r c = Exact d ->
  exists dr dc, r = Ok (Some dr) /\ c = Ok (Some dc) /\ d = region_dirty (axes_region s dr dc).
Proof.
  intros s b r c d R C H. unfold both in H. destruct r as [[dr|]|e|]; try discriminate. destruct c as [[dc|]|e|]; try discriminate.
  unfold axes_outcome in H. destruct (_ && _) in H; [discriminate|]. injection H as <-. eauto.
Qed.
Lemma no_conservative : forall ru ch read result d r, project ru ch read result <> Conservative d r.
Proof.
  intros ru ch read result d r. unfold project. destruct (negb _); [discriminate|]. cbv zeta.
  assert (G : forall s b x c, both s b x c <> Conservative d r).
  { intros s b x c. unfold both. destruct x as [[dr|]|e|]; try discriminate. destruct c as [[dc|]|e|]; try discriminate.
    unfold axes_outcome. destruct (_ && _); discriminate. }
  destruct ru; try apply G; discriminate.
Qed.
Lemma project_ok : forall ru ch read result d, rule_i64 ru -> rg_ok ch -> rg_ok result -> project ru ch read result = Exact d ->
  dirty_ok d /\ forall p, ucell p -> dirty_cell d result p -> within result p.
Proof.
  intros ru ch read result d I [Oc1 Oc2] Ore H. assert (Ore' := Ore). destruct Ore as [Or1 Or2].
  unfold project in H. destruct (negb _) eqn:M in H; [discriminate|]. cbv zeta in H.
  destruct ru as [r c|r0 r1 c0 c1|c0 c1|]; cbn [rule_i64] in *.
  - destruct I as [I1 I2]. destruct (dirty_axis r (rows ch) (rows result)) as [o1| |] eqn:E1; [|discriminate|discriminate].
    destruct (dirty_axis c (cols ch) (cols result)) as [o2| |] eqn:E2; [|destruct o1; discriminate|destruct o1; discriminate].
    assert (K1 : o_ok o1) by (eapply dirty_axis_ok; [| |exact E1]; auto). assert (K2 : o_ok o2) by (eapply dirty_axis_ok; [| |exact E2]; auto).
    apply both_exact in H; [|intros o X; apply Ok_inj in X; now subst|intros o X; apply Ok_inj in X; now subst].
    destruct H as (dr & dc & X1 & X2 & ->). apply Ok_inj in X1. apply Ok_inj in X2. subst o1 o2. cbn [o_ok] in *.
    split; [apply region_dirty_ok, axes_region_ok; auto|]. intros p U D. apply region_dirty_cell in D. apply (proj1 (axes_region_within _ _ _ _ K1 K2 U)) in D.
    destruct D as (D1 & D2 & D3), U as [U1 U2]. repeat split; auto.
    + eapply (dirty_axis_result r _ _ (Some dr)); [| | |exact E1|]; auto.
    + eapply (dirty_axis_result c _ _ (Some dc)); [| | |exact E2|]; auto.
  - destruct I as (I1 & I2 & I3 & I4). destruct (dirty_range r0 r1 (rows ch) (rows result)) as [o1| |] eqn:E1; [|discriminate|discriminate].
    destruct (dirty_range c0 c1 (cols ch) (cols result)) as [o2| |] eqn:E2; [|destruct o1; discriminate|destruct o1; discriminate].
    assert (K1 : o_ok o1) by (eapply dirty_range_ok; [| | | |exact E1]; auto). assert (K2 : o_ok o2) by (eapply dirty_range_ok; [| | | |exact E2]; auto).
    apply both_exact in H; [|intros o X; apply Ok_inj in X; now subst|intros o X; apply Ok_inj in X; now subst].
    destruct H as (dr & dc & X1 & X2 & ->). apply Ok_inj in X1. apply Ok_inj in X2. subst o1 o2. cbn [o_ok] in *.
    split; [apply region_dirty_ok, axes_region_ok; auto|]. intros p U D. apply region_dirty_cell in D. apply (proj1 (axes_region_within _ _ _ _ K1 K2 U)) in D.
    destruct D as (D1 & D2 & D3), U as [U1 U2]. repeat split; auto.
    + eapply (dirty_range_result r0 r1 _ _ (Some dr)); [| | | |exact E1| |]; auto.
    + eapply (dirty_range_result c0 c1 _ _ (Some dc)); [| | | |exact E2| |]; auto.
  - injection H as <-. cbn [dirty_ok dirty_cell]. split; [constructor; auto|]. intros p U (r & [<-|[]] & W). auto.
  - injection H as <-. cbn [dirty_ok dirty_cell]. auto.
Qed.
