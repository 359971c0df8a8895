(** The reads of a rule, and how exact the projection of a change is. *)
From Coq Require Import ZifyN ZifyNat ZifyBool.
From Verif Require Import Base Maps IntervalModel FpModel FpSpec FpProofs FpProofs2.

Open Scope N_scope.

(** * Read extents *)
Lemma extent_on : forall a e, ax_ok a -> extent a = Some e -> fst e <= snd e /\ snd e <= umax /\ forall x, on a x <-> fst e <= x <= snd e.
Proof. intros a e A H; destruct a; cbn in *; try discriminate; injection H as <-; cbn [fst snd]; repeat split; intros; lia. Qed.
Lemma add_offset_ok : forall v off w, add_offset v off = Ok w -> Z.of_N w = (Z.of_N v + off)%Z /\ w <= umax.
Proof. intros v off w H. unfold add_offset in H. cbv zeta in H. destruct (_ && _) eqn:C in H; [|discriminate]. apply Ok_inj in H. subst w. unfold umax in *. lia. Qed.
Lemma source_spec : forall p e f, pi64 p -> fst e <= snd e -> source_extent p e = Ok f ->
  Z.of_N (fst f) = at_axis p (fst e) /\ Z.of_N (snd f) = at_axis p (snd e) /\ fst f <= snd f /\ snd f <= umax.
Proof.
  intros [off|i] [a b] f P L H; cbn [source_extent fst snd at_axis pi64] in *.
  - destruct (add_offset a off) as [u| |] eqn:E1; try discriminate. cbn [rbind] in H.
    destruct (add_offset b off) as [v| |] eqn:E2; try discriminate. cbn [rbind] in H. apply Ok_inj in H. subst f.
    apply add_offset_ok in E1. apply add_offset_ok in E2. cbn [fst snd]. lia.
  - apply Ok_inj in H. subst f. cbn [fst snd]. lia.
Qed.
Lemma at_mono : forall p x y, x <= y -> (at_axis p x <= at_axis p y)%Z.
Proof. intros [off|i] x y H; cbn [at_axis]; lia. Qed.
Lemma source_inside : forall p e f x, pi64 p -> fst e <= x <= snd e -> source_extent p e = Ok f ->
  (0 <= at_axis p x <= Z.of_N umax)%Z.
Proof.
  intros p e f x P X H. apply source_spec in H; [|auto|lia]. destruct H as (H1 & H2 & H3 & H4).
  assert (A := at_mono p (fst e) x). assert (B := at_mono p x (snd e)). lia.
Qed.
Lemma source_reads : forall p e f y, pi64 p -> fst e <= snd e -> source_extent p e = Ok f ->
  (fst f <= y <= snd f <-> exists x, fst e <= x <= snd e /\ Z.of_N y = at_axis p x).
Proof.
  intros p e f y P L H. assert (H' := H). apply source_spec in H; auto. destruct H as (H1 & H2 & H3 & H4). split.
  - intros Y. destruct p as [off|i]; cbn [at_axis] in *.
    + exists (Z.to_N (Z.of_N y - off)). lia.
    + exists (fst e). lia.
  - intros (x & X & E). assert (A := at_mono p (fst e) x). assert (B := at_mono p x (snd e)). lia.
Qed.
Lemma range_extent_parts : forall a b e f, range_extent a b e = Ok f ->
  exists u v, source_extent a e = Ok u /\ source_extent b e = Ok v /\ f = (N.min (fst u) (fst v), N.max (snd u) (snd v)).
Proof.
  intros a b e f H. unfold range_extent in H. destruct (source_extent a e) as [u| |]; try discriminate. cbn [rbind] in H.
  destruct (source_extent b e) as [v| |]; try discriminate. cbn [rbind] in H. apply Ok_inj in H. eauto.
Qed.
Lemma range_spec : forall a b e f, pi64 a -> pi64 b -> fst e <= snd e -> range_extent a b e = Ok f ->
  fst f <= snd f /\ snd f <= umax /\
  (forall x, fst e <= x <= snd e -> (0 <= at_axis a x <= Z.of_N umax)%Z /\ (0 <= at_axis b x <= Z.of_N umax)%Z) /\
  forall y, (fst f <= y <= snd f <-> exists x, fst e <= x <= snd e /\ between (at_axis a x) (at_axis b x) y).
Proof.
  intros a b e f Pa Pb L H. apply range_extent_parts in H. destruct H as (u & v & Hu & Hv & ->). cbn [fst snd].
  assert (Su := source_spec a e u Pa L Hu). assert (Sv := source_spec b e v Pb L Hv).
  destruct Su as (U1 & U2 & U3 & U4), Sv as (V1 & V2 & V3 & V4).
  split; [lia|]. split; [lia|]. split; [intros x X; split; eapply source_inside; eauto|].
  intros y. unfold between. split.
  - intros Y. destruct a as [x|i], b as [z|j]; cbn [at_axis] in *.
    + destruct (Z.leb (Z.of_N y - Z.min x z) (Z.of_N (snd e))) eqn:E.
      * destruct (Z.leb (Z.of_N (fst e)) (Z.of_N y - Z.min x z)) eqn:E2.
        -- exists (Z.to_N (Z.of_N y - Z.min x z)). lia.
        -- exists (fst e). lia.
      * exists (snd e). lia.
    + destruct (N.leb y j) eqn:E; [exists (fst e)|exists (snd e)]; lia.
    + destruct (N.leb y i) eqn:E; [exists (fst e)|exists (snd e)]; lia.
    + exists (fst e). lia.
  - intros (x & X & B). assert (A1 := at_mono a (fst e) x). assert (A2 := at_mono a x (snd e)).
    assert (B1 := at_mono b (fst e) x). assert (B2 := at_mono b x (snd e)). lia.
Qed.

Lemma extents_parts : forall r er ec, extents r = Some (er, ec) -> extent (rows r) = Some er /\ extent (cols r) = Some ec.
Proof. intros r er ec H. unfold extents in H. destruct (extent (rows r)) as [a|]; [|discriminate]. destruct (extent (cols r)) as [b|]; [|discriminate]. now injection H as <- <-. Qed.
Lemma ext_on : forall e x, fst e <= snd e -> (on (ext_axis e) x <-> fst e <= x <= snd e).
Proof. intros e x H. rewrite ext_axis_on. lia. Qed.
Lemma upto_in : forall a b x, In x (upto a b) <-> a <= x <= b.
Proof.
  intros a b x. unfold upto. rewrite in_map_iff. split.
  - intros (i & <- & H). apply in_seq in H. lia.
  - intros H. exists (N.to_nat (x - a)). split; [lia|]. apply in_seq. lia.
Qed.

(** The rules of accepted summaries name the cells they read, no more and no fewer. *)
Theorem read_regions_exact : forall ru s result rs, rule_i64 ru -> rg_ok result -> read_regions ru s result = Ok rs ->
  Forall rg_ok rs /\
  (forall y, ucell y -> ((exists r, In r rs /\ within r y) <-> csh y = s /\ exists p, within result p /\ reads ru p y)).
Proof.
  intros ru s result rs I [O1 O2] H. destruct ru as [r c|r0 r1 c0 c1|c0 c1|]; cbn [read_regions read_region rule_i64] in *; [| | |discriminate].
  - destruct (extents result) as [[er ec]|] eqn:X; [|discriminate]. apply extents_parts in X. destruct X as [X1 X2].
    destruct (extent_on _ _ O1 X1) as (L1 & M1 & N1), (extent_on _ _ O2 X2) as (L2 & M2 & N2). destruct I as [I1 I2].
    destruct (source_extent r er) as [fr| |] eqn:E1; try discriminate. cbn [rbind] in H.
    destruct (source_extent c ec) as [fc| |] eqn:E2; try discriminate. cbn [rbind] in H. apply Ok_inj in H. subst rs.
    assert (S1 := source_spec _ _ _ I1 L1 E1). assert (S2 := source_spec _ _ _ I2 L2 E2).
    split. { constructor; [|constructor]. split; cbn [ext_region rows cols]; apply ext_axis_ok; lia. }
    intros y [U1 U2]. split.
    + intros (q & [<-|[]] & (W1 & W2 & W3)). cbn [ext_region sh rows cols] in *. split; auto.
      apply ext_on in W2; [|lia]. apply ext_on in W3; [|lia].
      apply (source_reads _ _ _ _ I1 L1 E1) in W2. apply (source_reads _ _ _ _ I2 L2 E2) in W3.
      destruct W2 as (a & A1 & A2), W3 as (b & B1 & B2). exists (Cl (sh result) a b). unfold within. cbn [csh crow ccol reads].
      rewrite N1, N2. auto.
    + intros (Es & p & (W1 & W2 & W3) & (R1 & R2)). eexists. split; [left; reflexivity|]. unfold within. cbn [ext_region sh rows cols].
      split; [auto|]. rewrite N1 in W2. rewrite N2 in W3. split; apply ext_on; try lia.
      * apply (source_reads _ _ _ _ I1 L1 E1). eauto.
      * apply (source_reads _ _ _ _ I2 L2 E2). eauto.
  - destruct (extents result) as [[er ec]|] eqn:X; [|discriminate]. apply extents_parts in X. destruct X as [X1 X2].
    destruct (extent_on _ _ O1 X1) as (L1 & M1 & N1), (extent_on _ _ O2 X2) as (L2 & M2 & N2). destruct I as (I1 & I2 & I3 & I4).
    destruct (range_extent r0 r1 er) as [fr| |] eqn:E1; try discriminate. cbn [rbind] in H.
    destruct (range_extent c0 c1 ec) as [fc| |] eqn:E2; try discriminate. cbn [rbind] in H. apply Ok_inj in H. subst rs.
    destruct (range_spec _ _ _ _ I1 I2 L1 E1) as (P1 & P2 & _ & P3). destruct (range_spec _ _ _ _ I3 I4 L2 E2) as (Q1 & Q2 & _ & Q3).
    split. { constructor; [|constructor]. split; cbn [ext_region rows cols]; apply ext_axis_ok; lia. }
    intros y [U1 U2]. split.
    + intros (q & [<-|[]] & (W1 & W2 & W3)). cbn [ext_region sh rows cols] in *. split; auto.
      apply ext_on in W2; [|lia]. apply ext_on in W3; [|lia]. apply P3 in W2. apply Q3 in W3.
      destruct W2 as (a & A1 & A2), W3 as (b & B1 & B2). exists (Cl (sh result) a b). unfold within. cbn [csh crow ccol reads].
      rewrite N1, N2. auto.
    + intros (Es & p & (W1 & W2 & W3) & (R1 & R2)). eexists. split; [left; reflexivity|]. unfold within. cbn [ext_region sh rows cols].
      split; [auto|]. rewrite N1 in W2. rewrite N2 in W3. split; apply ext_on; try lia.
      * apply P3. eauto.
      * apply Q3. eauto.
  - destruct (extents result) as [[er ec]|] eqn:X; [|discriminate]. apply extents_parts in X. destruct X as [X1 X2].
    destruct (extent_on _ _ O1 X1) as (L1 & M1 & N1), (extent_on _ _ O2 X2) as (L2 & M2 & N2). destruct I as (I3 & I4).
    destruct (range_extent c0 c1 ec) as [fc| |] eqn:E2; try discriminate. cbn [rbind] in H.
    destruct (range_spec _ _ _ _ I3 I4 L2 E2) as (Q1 & Q2 & _ & Q3).
    destruct (N.ltb _ _) in H; [discriminate|]. destruct (N.ltb _ _) in H; [discriminate|]. destruct (N.ltb _ _) in H; [discriminate|].
    apply Ok_inj in H. subst rs. split.
    + rewrite Forall_forall. intros q Q. apply in_map_iff in Q. destruct Q as (k & <- & K). apply upto_in in K. split; cbn; [auto|lia].
    + intros y [U1 U2]. split.
      * intros (q & Q & (W1 & W2 & W3)). apply in_map_iff in Q. destruct Q as (k & <- & K). apply upto_in in K. cbn [sh rows cols on] in *.
        split; auto. subst k. apply Q3 in K. destruct K as (b & B1 & B2). exists (Cl (sh result) (fst er) b).
        unfold within. cbn [csh crow ccol reads]. rewrite N1, N2. repeat (split; auto); lia.
      * intros (Es & p & (W1 & W2 & W3) & R). exists (Rg s All (Pt (ccol y))). split.
        -- apply in_map_iff. exists (ccol y). split; auto. apply upto_in. apply Q3. exists (ccol p). rewrite <- N2. auto.
        -- unfold within. cbn. auto.
Qed.

(** * What a projection names depends on the change *)
Lemma neg_source : forall p e f, pi64 p -> fst e <= snd e -> snd e <= umax -> source_extent p e = Ok f -> match p with Rel off => exists n, neg off = Ok n | Abs _ => True end.
Proof.
  intros [off|i] e f P L M H; auto. apply source_spec in H; auto. cbn [at_axis pi64] in *. unfold neg. destruct (Z.eqb off i64min) eqn:E; [|eauto].
  unfold umax, i64min in *. lia.
Qed.
Lemma dirty_axis_some : forall p ch re e f, pi64 p -> ax_ok re -> extent re = Some e -> source_extent p e = Ok f -> exists o, dirty_axis p ch re = Ok o.
Proof.
  intros p ch re e f P O X H. destruct (extent_on _ _ O X) as (L & M & _). assert (G := neg_source p e f P L M H).
  destruct p as [off|i]; cbn [dirty_axis]; [destruct G as [n ->]|]; cbn [rbind]; eauto.
Qed.
Lemma dirty_range_some : forall a b ch re e f, pi64 a -> pi64 b -> ax_ok re -> extent re = Some e -> range_extent a b e = Ok f -> exists o, dirty_range a b ch re = Ok o.
Proof.
  intros a b ch re e f Pa Pb O X H. destruct (extent_on _ _ O X) as (L & M & _). apply range_extent_parts in H. destruct H as (u & v & Hu & Hv & _).
  assert (G := neg_source a e u Pa L M Hu). assert (K := neg_source b e v Pb L M Hv). rewrite dirty_range_eq.
  destruct a as [x|i], b as [y|j].
  - destruct G as [n G], K as [k K].
    assert (G1 : exists n, neg (Z.min x y) = Ok n) by (destruct (Z.min_spec x y) as [[_ ->]|[_ ->]]; eauto).
    assert (G2 : exists n, neg (Z.max x y) = Ok n) by (destruct (Z.max_spec x y) as [[_ ->]|[_ ->]]; eauto).
    destruct G1 as [n1 G1], G2 as [n2 G2]. destruct ch; unfold rel_dirty, through2; rewrite ?G1, ?G2; cbn [rbind]; rewrite ?G1, ?G2; cbn [rbind]; eauto.
  - destruct G as [n G]. unfold mix_dirty. rewrite G. cbn [rbind]. eauto.
  - destruct K as [n K]. unfold mix_dirty. rewrite K. cbn [rbind]. eauto.
  - eauto.
Qed.
Theorem project_supported : forall ru s result rs ch read r, rule_i64 ru -> rg_ok result -> read_regions ru s result = Ok rs ->
  project ru ch read result <> Unsupported r.
Proof.
  intros ru s result rs ch read r I [O1 O2] H. unfold project. destruct (negb _); [discriminate|]. cbv zeta.
  destruct ru as [pr pc|r0 r1 c0 c1|c0 c1|]; cbn [read_regions read_region rule_i64] in *; [| |discriminate|discriminate];
  destruct (extents result) as [[er ec]|] eqn:X; try discriminate; apply extents_parts in X; destruct X as [X1 X2].
  - destruct I as [I1 I2]. destruct (source_extent pr er) as [fr| |] eqn:E1; try discriminate. cbn [rbind] in H.
    destruct (source_extent pc ec) as [fc| |] eqn:E2; try discriminate.
    destruct (dirty_axis_some pr (rows ch) _ _ _ I1 O1 X1 E1) as [o1 ->]. destruct (dirty_axis_some pc (cols ch) _ _ _ I2 O2 X2 E2) as [o2 ->].
    unfold both, axes_outcome. destruct o1, o2; discriminate.
  - destruct I as (I1 & I2 & I3 & I4). destruct (range_extent r0 r1 er) as [fr| |] eqn:E1; try discriminate. cbn [rbind] in H.
    destruct (range_extent c0 c1 ec) as [fc| |] eqn:E2; try discriminate.
    destruct (dirty_range_some r0 r1 (rows ch) _ _ _ I1 I2 O1 X1 E1) as [o1 ->]. destruct (dirty_range_some c0 c1 (cols ch) _ _ _ I3 I4 O2 X2 E2) as [o2 ->].
    unfold both, axes_outcome. destruct o1, o2; discriminate.
Qed.

Theorem project_exact : forall ru s ch read result rs d p, rule_i64 ru -> not_whole ru -> rg_ok ch -> rg_ok result ->
  read_regions ru s result = Ok rs -> In read rs -> project ru ch read result = Exact d ->
  ucell p -> dirty_cell d result p ->
  within result p /\ exists y, ucell y /\ within ch y /\ within read y /\ reads ru p y.
Proof.
  intros ru s ch read result rs d p I NW Och Ore RR IN H U D.
  destruct (project_ok _ _ _ _ _ I Och Ore H) as [_ PW]. specialize (PW p U D). split; auto.
  assert (EX := read_regions_exact ru s result rs I Ore RR). destruct EX as [_ EX].
  assert (HT : exists p1 y1, within result p1 /\ on (rows ch) (crow y1) /\ on (cols ch) (ccol y1) /\ reads ru p1 y1).
  { unfold project in H. destruct (meets ch read) eqn:M; cbn [negb] in H; [|discriminate].
    assert (RO : rg_ok read) by (destruct (read_regions_exact ru s result rs I Ore RR) as [F _]; rewrite Forall_forall in F; auto).
    apply meets_within in M; auto. destruct M as (y1 & U1 & (_ & A1 & A2) & W1). destruct (proj1 (EX y1 U1)) as (_ & p1 & P1 & R1); [eauto|]. eauto 8. }
  assert (G : exists y, ucell y /\ csh y = s /\ on (rows ch) (crow y) /\ on (cols ch) (ccol y) /\ reads ru p y).
  { clear EX. destruct HT as (p1 & y1 & (_ & Q2 & Q3) & T1 & T2 & T3). destruct U as [Lr Lc]. destruct Och as [Oc1 Oc2], Ore as [Or1 Or2], PW as (W1 & W2 & W3). unfold project in H. destruct (negb _) in H; [discriminate|]. cbv zeta in H.
    destruct ru as [pr pc|r0 r1 c0 c1|c0 c1|]; cbn [read_regions read_region rule_i64 not_whole] in *; try contradiction;
    destruct (extents result) as [[er ec]|] eqn:X; try discriminate; apply extents_parts in X; destruct X as [X1 X2];
    destruct (extent_on _ _ Or1 X1) as (L1 & M1 & N1), (extent_on _ _ Or2 X2) as (L2 & M2 & N2).
    - destruct I as [I1 I2]. destruct (source_extent pr er) as [fr| |] eqn:E1; try discriminate. cbn [rbind] in RR.
      destruct (source_extent pc ec) as [fc| |] eqn:E2; try discriminate.
      apply both_exact in H; [|intros o Ho; eapply dirty_axis_ok; [| |exact Ho]; auto|intros o Ho; eapply dirty_axis_ok; [| |exact Ho]; auto].
      destruct H as (dr & dc & H1 & H2 & ->). apply region_dirty_cell in D.
      assert (K1 : ax_ok dr) by exact (dirty_axis_ok _ _ _ _ Oc1 Or1 H1). assert (K2 : ax_ok dc) by exact (dirty_axis_ok _ _ _ _ Oc2 Or2 H2).
      apply (proj1 (axes_region_within _ _ _ _ K1 K2 (conj Lr Lc))) in D. destruct D as (_ & D1 & D2).
      assert (V1 := source_inside pr er fr (crow p) I1 (proj1 (N1 _) W2) E1). assert (V2 := source_inside pc ec fc (ccol p) I2 (proj1 (N2 _) W3) E2).
      exists (Cl s (Z.to_N (at_axis pr (crow p))) (Z.to_N (at_axis pc (ccol p)))). unfold ucell. cbn [csh crow ccol reads].
      split; [lia|]. split; [auto|]. split; [|split; [|lia]].
      + eapply (dirty_axis_exact pr (rows ch) (rows result) (Some dr) (crow p)); eauto; try lia. destruct T3 as [T3 T4]. apply N1 in Q2. exists (crow p1), (crow y1). repeat split; auto; lia.
      + eapply (dirty_axis_exact pc (cols ch) (cols result) (Some dc) (ccol p)); eauto; try lia. destruct T3 as [T3 T4]. apply N2 in Q3. exists (ccol p1), (ccol y1). repeat split; auto; lia.
    - destruct I as (I1 & I2 & I3 & I4). destruct (range_extent r0 r1 er) as [fr| |] eqn:E1; try discriminate. cbn [rbind] in RR.
      destruct (range_extent c0 c1 ec) as [fc| |] eqn:E2; try discriminate.
      apply both_exact in H; [|intros o Ho; eapply dirty_range_ok; [| | | |exact Ho]; auto|intros o Ho; eapply dirty_range_ok; [| | | |exact Ho]; auto].
      destruct H as (dr & dc & H1 & H2 & ->). apply region_dirty_cell in D.
      assert (K1 : ax_ok dr) by exact (dirty_range_ok _ _ _ _ _ I1 I2 Oc1 Or1 H1). assert (K2 : ax_ok dc) by exact (dirty_range_ok _ _ _ _ _ I3 I4 Oc2 Or2 H2).
      apply (proj1 (axes_region_within _ _ _ _ K1 K2 (conj Lr Lc))) in D. destruct D as (_ & D1 & D2).
      destruct (range_spec _ _ _ _ I1 I2 L1 E1) as (_ & _ & V1 & _). destruct (range_spec _ _ _ _ I3 I4 L2 E2) as (_ & _ & V2 & _).
      destruct (V1 (crow p) (proj1 (N1 _) W2)) as [Va Vb]. destruct (V2 (ccol p) (proj1 (N2 _) W3)) as [Vc Vd].
      destruct (dirty_range_exact r0 r1 (rows ch) (rows result) (Some dr) (crow p) I1 I2 Oc1 Or1 H1 Lr Va Vb ltac:(destruct T3 as [T3 T4]; apply N1 in Q2; exists (crow p1), (crow y1); split; [lia|]; split; auto) D1) as (a & A & A1 & A2).
      destruct (dirty_range_exact c0 c1 (cols ch) (cols result) (Some dc) (ccol p) I3 I4 Oc2 Or2 H2 Lc Vc Vd ltac:(destruct T3 as [T3 T4]; apply N2 in Q3; exists (ccol p1), (ccol y1); split; [lia|]; split; auto) D2) as (b & B & B1 & B2).
      exists (Cl s a b). unfold ucell. cbn [csh crow ccol reads]. repeat (split; auto). }
  destruct G as (y & Uy & Es & Y1 & Y2 & R).
  destruct (proj2 (EX y Uy)) as (r & Ir & Wr); [split; eauto|].
  assert (r = read).
  { destruct ru as [pr pc|r0 r1 c0 c1|c0 c1|]; cbn [not_whole] in NW; try contradiction; cbn [read_regions] in RR;
    destruct (read_region _ s result) as [q| |]; try discriminate; cbn [rbind] in RR; apply Ok_inj in RR; subst rs;
    destruct Ir as [<-|[]], IN as [<-|[]]; reflexivity. }
  subst r. exists y. repeat (split; auto). destruct Wr as (Wr & _).
  unfold project in H. destruct (meets ch read) eqn:M; cbn [negb] in H; [|discriminate].
  unfold meets in M. apply andb_true_iff in M. destruct M as [M _]. apply andb_true_iff in M. destruct M as [M _]. apply N.eqb_eq in M. congruence.
Qed.

(** * Summaries *)
Lemma ax_eqb_spec : forall a b, ax_eqb a b = true <-> a = b.
Proof.
  intros a b. destruct a, b; cbn [ax_eqb]; rewrite ?andb_true_iff, ?N.eqb_eq; split; intros H; try discriminate; try congruence; auto;
    first [injection H as -> ->; now auto|now (destruct H; subst)].
Qed.
Lemma rg_eqb_spec : forall a b, rg_eqb a b = true <-> a = b.
Proof.
  intros [s r c] [s' r' c']. unfold rg_eqb. cbn [sh rows cols]. rewrite !andb_true_iff, N.eqb_eq, !ax_eqb_spec. split.
  - intros [[-> ->] ->]. auto.
  - intros H. injection H as -> -> ->. auto.
Qed.
Lemma cl_eqb_spec : forall a b, cl_eqb a b = true <-> a = b.
Proof.
  intros [s r c] [s' r' c']. unfold cl_eqb. cbn [csh crow ccol]. rewrite !andb_true_iff, !N.eqb_eq. split.
  - intros [[-> ->] ->]. auto.
  - intros H. injection H as -> -> ->. auto.
Qed.
Lemma proj_eqb_spec : forall a b, proj_eqb a b = true <-> a = b.
Proof.
  intros [x|x] [y|y]; cbn; rewrite ?Z.eqb_eq, ?N.eqb_eq; split; intros H; try discriminate; try congruence.
Qed.
Lemma rule_eqb_spec : forall a b, rule_eqb a b = true <-> a = b.
Proof.
  intros [] []; cbn [rule_eqb]; rewrite ?andb_true_iff, ?proj_eqb_spec; split; intros H; try discriminate; auto;
    try (injection H; intros; subst; auto); intuition; subst; auto.
Qed.
Lemma dep_eqb_spec : forall a b, dep_eqb a b = true <-> a = b.
Proof.
  intros [r u] [r' u']. unfold dep_eqb. cbn [fst snd]. rewrite andb_true_iff, rg_eqb_spec, rule_eqb_spec. split; [intros [-> ->]; auto|]. intros H. now injection H as -> ->.
Qed.
Lemma append_unique_in : forall A (eqb : A -> A -> bool), (forall a b, eqb a b = true <-> a = b) ->
  forall new old x, In x (append_unique eqb old new) <-> In x old \/ In x new.
Proof.
  intros A eqb S. induction new as [|a r IH]; intros old x; cbn [append_unique In]; [tauto|]. rewrite IH.
  destruct (existsb (eqb a) old) eqn:E.
  - apply existsb_exists in E. destruct E as (b & B & E). apply S in E. subst b. intuition; subst; auto.
  - rewrite in_app_iff. cbn [In]. tauto.
Qed.
