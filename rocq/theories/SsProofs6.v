(** Rewritten templates, and summaries made afresh. *)
From Verif Require Import Base Maps IntervalModel FpModel FpSpec FpProofs FpProofs2 FpProofs3 FpProofs4 SsModel SsSpec SsProofs SsProofs2 SsProofs3 SsProofs4 SsProofs5.
From Verif Require RefModel.
From Coq Require Import ZifyN ZifyNat ZifyBool.

Open Scope N_scope.

(** * A summary made from the formulas is right *)

Lemma small_i64 : forall ru, rsmall ru -> rule_i64 ru.
Proof.
  assert (P : forall p, psmall p -> pi64 p) by (intros [off | i]; cbn; unfold small, i64, i64min, i64max; lia).
  intros [r c | r0 r1 c0 c1 | c0 c1 | ]; cbn [rsmall rule_i64]; intuition.
Qed.

Lemma read_regions_lands : forall ru s result rs, rule_i64 ru -> rg_ok result -> read_regions ru s result = Ok rs ->
  ru <> WResult /\ forall p, within result p -> lands ru p.
Proof.
  intros ru s result rs I [O1 O2] H. destruct ru as [r c | r0 r1 c0 c1 | c0 c1 | ]; cbn [read_regions read_region rule_i64] in *; [ | | | discriminate];
    (split; [discriminate | ]); intros p [W1 [W2 W3]];
    (destruct (extents result) as [[er ec] | ] eqn:X; [ | discriminate]); apply extents_parts in X; destruct X as [X1 X2];
    destruct (extent_on _ _ O1 X1) as (L1 & M1 & N1), (extent_on _ _ O2 X2) as (L2 & M2 & N2);
    apply N1 in W2; apply N2 in W3; cbn [lands]; unfold lands1.
  - destruct (source_extent r er) as [fr | | ] eqn:E1; try discriminate. cbn [rbind] in H.
    destruct (source_extent c ec) as [fc | | ] eqn:E2; try discriminate.
    split; [exact (source_inside _ _ _ _ (proj1 I) W2 E1) | exact (source_inside _ _ _ _ (proj2 I) W3 E2)].
  - destruct (range_extent r0 r1 er) as [fr | | ] eqn:E1; try discriminate. cbn [rbind] in H.
    destruct (range_extent c0 c1 ec) as [fc | | ] eqn:E2; try discriminate.
    destruct I as [I1 [I2 [I3 I4]]].
    destruct (range_spec _ _ _ _ I1 I2 L1 E1) as [_ [_ [A _]]]. destruct (range_spec _ _ _ _ I3 I4 L2 E2) as [_ [_ [B _]]].
    destruct (A _ W2). destruct (B _ W3). tauto.
  - destruct (range_extent c0 c1 ec) as [fc | | ] eqn:E2; try discriminate.
    destruct (range_spec _ _ _ _ (proj1 I) (proj2 I) L2 E2) as [_ [_ [B _]]]. exact (B _ W3).
Qed.

Lemma read_regions_form : forall ru s result rs, rule_i64 ru -> rg_ok result -> read_regions ru s result = Ok rs ->
  Forall (fun r => sh r = s /\ shaped (r, ru)) rs
  /\ (not_whole ru -> exists r, rs = [r]) /\ (~ not_whole ru -> Forall (fun r => rows r = All) rs).
Proof.
  intros ru s result rs I O H. destruct ru as [r c | r0 r1 c0 c1 | c0 c1 | ]; cbn [read_regions read_region] in *; [ | | | discriminate].
  - destruct (extents result) as [[er ec] | ]; [ | discriminate].
    destruct (source_extent r er) as [fr | | ]; try discriminate. cbn [rbind] in H.
    destruct (source_extent c ec) as [fc | | ]; try discriminate. cbn [rbind] in H. apply Ok_inj in H. subst rs.
    split; [ | cbn [not_whole]; split; [eauto | tauto]].
    constructor; [ | constructor]. split; [reflexivity | ]. unfold shaped, bounded, ext_region, ext_axis. cbn [fst snd rows cols].
    destruct (_ =? _), (_ =? _); auto.
  - destruct (extents result) as [[er ec] | ]; [ | discriminate].
    destruct (range_extent r0 r1 er) as [fr | | ]; try discriminate. cbn [rbind] in H.
    destruct (range_extent c0 c1 ec) as [fc | | ]; try discriminate. cbn [rbind] in H. apply Ok_inj in H. subst rs.
    split; [ | cbn [not_whole]; split; [eauto | tauto]].
    constructor; [ | constructor]. split; [reflexivity | ]. unfold shaped, bounded, ext_region, ext_axis. cbn [fst snd rows cols].
    destruct (_ =? _), (_ =? _); auto.
  - destruct (extents result) as [[er ec] | ]; [ | discriminate].
    destruct (range_extent c0 c1 ec) as [fc | | ]; try discriminate. cbn [rbind] in H.
    destruct (N.ltb _ _) in H; [discriminate | ]. destruct (N.ltb _ _) in H; [discriminate | ]. destruct (N.ltb _ _) in H; [discriminate | ].
    apply Ok_inj in H. subst rs. split; [ | cbn [not_whole]; split; [tauto | intros _]].
    + rewrite Forall_forall. intros q Q. apply in_map_iff in Q. destruct Q as [k [<- _]]. split; [reflexivity | ].
      unfold shaped. cbn. auto.
    + rewrite Forall_forall. intros q Q. apply in_map_iff in Q. destruct Q as [k [<- _]]. reflexivity.
Qed.

(** What a fold over references or entries collects. *)
Definition made (result : region) (m : list (N * rule)) (dp : dep) : Prop :=
  exists s rs, In (s, snd dp) m /\ read_regions (snd dp) s result = Ok rs /\ In (fst dp) rs.

Lemma derive_in : forall result m acc deps, derive result m acc = Some deps ->
  (forall dp, In dp deps <-> In dp acc \/ made result m dp)
  /\ (forall s ru, In (s, ru) m -> exists rs, read_regions ru s result = Ok rs).
Proof.
  intros result m. induction m as [ | [s ru] l IH]; intros acc deps H; cbn [derive] in H.
  - injection H. intros. subst. split; [ | intros s ru []]. intro dp. split; [auto | ]. intros [Q | [s [rs [[] _]]]]. exact Q.
  - destruct (read_regions ru s result) as [rs | | ] eqn:R; try discriminate.
    destruct (IH _ _ H) as [A B]. split.
    + intros [r ru']. rewrite A. rewrite (append_unique_in _ _ dep_eqb_spec). unfold made. cbn [fst snd]. split.
      * intros [[Q | Q] | [s' [rs' [Q1 [Q2 Q3]]]]].
        -- left. exact Q.
        -- right. apply in_map_iff in Q. destruct Q as [x [E X]]. injection E. intros. subst. exists s, rs. split; [left; reflexivity | ]. auto.
        -- right. exists s', rs'. split; [right; exact Q1 | auto].
      * intros [Q | [s' [rs' [[Q1 | Q1] [Q2 Q3]]]]].
        -- left. left. exact Q.
        -- injection Q1. intros. subst. left. right. apply in_map_iff. exists r. rewrite R in Q2. apply Ok_inj in Q2. subst. auto.
        -- right. exists s', rs'. auto.
    + intros s' ru' [Q | Q]; [injection Q; intros; subst; eauto | exact (B _ _ Q)].
Qed.

Lemma made_described : forall d m deps, dom_ok d -> (forall s ru, In (s, ru) m -> rsmall ru) ->
  (forall dp, In dp deps <-> made (of_domain d) m dp) ->
  (forall s ru, In (s, ru) m -> exists rs, read_regions ru s (of_domain d) = Ok rs) ->
  described m d deps.
Proof.
  intros d m deps K SM MA RR. pose proof (of_domain_ok _ K) as RK.
  split; [ | split]; rewrite Forall_forall.
  - intros [s ru] J. destruct (RR _ _ J) as [rs R]. pose proof (small_i64 _ (SM _ _ J)) as I64.
    destruct (read_regions_lands _ _ _ _ I64 RK R) as [NR _].
    destruct (read_regions_form _ _ _ _ I64 RK R) as [F1 [F2 F3]].
    destruct (read_regions_exact _ _ _ _ I64 RK R) as [_ EX].
    apply (covered_iff _ _ _ _ NR). split; intro W.
    + destruct (F2 W) as [r ->]. exists r. split; [apply MA; exists s, [r]; cbn; auto | ].
      rewrite Forall_forall in F1. split; [exact (proj1 (F1 r (or_introl eq_refl))) | ].
      intros p y P U [R1 R2]. cbn [fst snd] in *.
      destruct (proj2 (EX y U)) as [q [[-> | []] Q]]; [ | exact Q]. split; [exact R1 | ]. exists p. split; [apply of_domain_within; exact P | exact R2].
    + intros p y P U [R1 R2]. cbn [fst snd] in *.
      destruct (proj2 (EX y U)) as [q [Q1 Q2]]; [split; [exact R1 | ]; exists p; split; [apply of_domain_within; exact P | exact R2] | ].
      exists q. split; [apply MA; exists s, rs; auto | ]. split; [ | exact Q2]. specialize (F3 W). rewrite Forall_forall in F3. exact (F3 q Q1).
  - intros [r ru] J. apply MA in J. destruct J as [s [rs [J [R I]]]]. cbn [fst snd] in *. pose proof (small_i64 _ (SM _ _ J)) as I64.
    destruct (read_regions_form _ _ _ _ I64 RK R) as [F1 _]. destruct (read_regions_exact _ _ _ _ I64 RK R) as [RO EX].
    rewrite Forall_forall in F1, RO. destruct (F1 r I) as [S1 S2].
    split; [exact (RO r I) | ]. split; [exact S2 | ]. cbn [fst snd]. split; [rewrite S1; exact J | ].
    intros y U W. destruct (proj1 (EX y U)) as [_ [p [P Q]]]; [exists r; auto | ]. exists p. split; [apply of_domain_within; exact P | exact Q].
  - intros [s ru] J p P. destruct (RR _ _ J) as [rs R]. pose proof (small_i64 _ (SM _ _ J)) as I64.
    destruct (read_regions_lands _ _ _ _ I64 RK R) as [_ L]. apply L. apply of_domain_within. exact P.
Qed.

Lemma derive_described : forall d fr deps, dom_ok d -> frame_ok fr -> derive (of_domain d) (meaning fr) [] = Some deps ->
  described (meaning fr) d deps.
Proof.
  intros d fr deps K F H. destruct (derive_in _ _ _ _ H) as [A B]. apply made_described; try assumption.
  - intros s ru J. exact (meaning_small _ _ _ F J).
  - intro dp. rewrite A. cbn [In]. tauto.
Qed.

(** * The references after the edit *)

Definition tpair (rw : bool) (t : tref) : option (tb * tb) :=
  match t, rw with
  | TCell _ r _, true => Some (r, r)
  | TCell _ _ c, false => Some (c, c)
  | TRange _ r0 r1 _ _, true => Some (r0, r1)
  | TRange _ _ _ c0 c1, false => Some (c0, c1)
  | TCols _ c0 c1, false => Some (c0, c1)
  | TCols _ _ _, true => None
  end.
Definition forg (fr : frame) (rw : bool) : N := if rw then f_row fr else f_col fr.
Lemma rpair_of : forall rw fr t, rpair rw (rule_of fr t) =
  option_map (fun q => (proj_of (forg fr rw) (fst q), proj_of (forg fr rw) (snd q))) (tpair rw t).
Proof. intros rw fr t. destruct rw, t; reflexivity. Qed.

Definition outside (op : sop) (b : tb) : Prop := tix b < o_at op \/ thr op <= tix b.
Definition adjd (op : sop) (b b' : tb) : Prop :=
  (tix b < o_at op -> b' = b) /\ (thr op <= tix b -> tabs b' = tabs b /\ (Z.of_N (tix b') = Z.of_N (tix b) + dz op)%Z).

Lemma tset_ix : forall b i, tix (tset b i) = i. Proof. destruct b; reflexivity. Qed.
Lemma tset_abs : forall b i, tabs (tset b i) = tabs b. Proof. destruct b; reflexivity. Qed.
Lemma tset_same : forall b, tset b (tix b) = b. Proof. destruct b; reflexivity. Qed.
Lemma addw_fits : forall a b, a + b <= umax -> RefModel.addw a b = a + b.
Proof. intros a b H. unfold RefModel.addw, umax in *. apply N.mod_small. unfold U32. lia. Qed.

Lemma adj1_spec : forall op b b', op_ok op -> tix b <= umax -> (o_del op = true \/ tix b + o_n op <= umax) ->
  adj1 op b = Some b' -> adjd op b b' /\ tix b' <= umax /\ tabs b' = tabs b.
Proof.
  intros op b b' [K1 K2] U RM H. unfold adj1 in H.
  destruct (RefModel.adj_cell_index false (tabs b) (okind op) (o_at op) (o_n op) (tix b)) as [i | ] eqn:E; [ | discriminate].
  injection H. intros. subst b'. unfold adjd. rewrite !tset_ix, !tset_abs. unfold okind, thr, dz in *.
  destruct (o_del op); cbn [RefModel.adj_cell_index andb orb] in E.
  - rewrite addw_fits in E by lia. destruct (_ && _) eqn:A in E; [discriminate | ]. destruct (_ <=? _) eqn:B in E; injection E; intros; subst i.
    + split; [split; [lia | intro; split; [reflexivity | lia]] | split; [lia | reflexivity]].
    + split; [split; [intro; apply tset_same | lia] | split; [lia | reflexivity]].
  - destruct RM as [RM | RM]; [discriminate | ]. rewrite addw_fits in E by lia. destruct (_ <? _) eqn:A in E; injection E; intros; subst i.
    + split; [split; [intro; apply tset_same | lia] | split; [lia | reflexivity]].
    + split; [split; [lia | intro; split; [reflexivity | lia]] | split; [lia | reflexivity]].
Qed.

Lemma adj2_spec : forall op a b a' b', op_ok op -> tix a <= tix b -> tix b <= umax -> (o_del op = true \/ tix b + o_n op <= umax) ->
  adj2 op a b = Some (a', b') ->
  (outside op a -> outside op b -> adjd op a a' /\ adjd op b b') /\ tix a' <= tix b' <= umax /\ tabs a' = tabs a /\ tabs b' = tabs b.
Proof.
  intros op a b a' b' [K1 K2] L U RM H. unfold adj2 in H.
  destruct (RefModel.adj_bounds false (okind op) (o_at op) (o_n op) (Some (RefModel.mkB (tix a) (tabs a))) (Some (RefModel.mkB (tix b) (tabs b)))) as [[[i | ] [j | ]] | ] eqn:E; try discriminate.
  injection H. intros. subst a' b'. clear H. unfold adjd, outside. rewrite !tset_ix, !tset_abs. unfold okind, thr, dz in *.
  destruct (o_del op); cbn [RefModel.adj_bounds negb orb RefModel.b_idx RefModel.b_abs option_map] in E.
  - rewrite addw_fits in E by lia.
    destruct (_ || _) eqn:A in E.
    + destruct (o_at op + o_n op <=? tix a) eqn:B; destruct (o_at op + o_n op <=? tix b) eqn:C; injection E; intros; subst i j;
        (split; [intros _ _; split; (split; [intro; solve [apply tset_same | lia] | intro; split; [reflexivity | lia]]) | split; [lia | auto]]).
    + destruct (_ && _) eqn:B in E; [discriminate | ].
      destruct (tix a <? o_at op) eqn:C; destruct (o_at op + o_n op <=? tix b) eqn:D; injection E; intros; subst i j;
        (split; [intros OA OB; split; (split; [intro; solve [apply tset_same | lia] | intro; split; [reflexivity | lia]]) | split; [lia | auto]]).
  - destruct RM as [RM | RM]; [discriminate | ]. unfold RefModel.adj_insert in E. cbn [andb RefModel.b_idx RefModel.b_abs] in E.
    rewrite !addw_fits in E by lia.
    destruct (o_at op <=? tix a) eqn:A; destruct (o_at op <=? tix b) eqn:B; injection E; intros; subst i j;
        (split; [intros _ _; split; (split; [intro; solve [apply tset_same | lia] | intro; split; [reflexivity | lia]]) | split; [lia | auto]]).
Qed.

Lemma adj_ref_spec : forall op t t', op_ok op -> tref_ok t -> (o_del op = true \/ tmax op t + o_n op <= umax) ->
  adj_ref op t = Some t' ->
  tref_ok t' /\ tsheet t' = tsheet t /\ (tpair true t = None <-> tpair true t' = None)
  /\ (forall fr, not_whole (rule_of fr t) <-> not_whole (rule_of fr t'))
  /\ tpair (negb (o_rows op)) t' = tpair (negb (o_rows op)) t
  /\ (tsheet t = o_sh op ->
      match tpair (o_rows op) t, tpair (o_rows op) t' with
      | Some (a, b), Some (a', b') =>
          tabs a' = tabs a /\ tabs b' = tabs b /\ (outside op a -> outside op b -> adjd op a a' /\ adjd op b b')
      | None, None => True
      | _, _ => False
      end).
Proof.
  intros op t t' K T RM H. unfold adj_ref in H.
  destruct (tsheet t =? o_sh op) eqn:S; cbn [negb] in H.
  2: { injection H. intros. subst t'. split; [exact T | ]. split; [reflexivity | ]. split; [tauto | ]. split; [tauto | ]. split; [reflexivity | lia]. }
  destruct t as [s r c | s r0 r1 c0 c1 | s c0 c1]; cbn [tref_ok tsheet tmax] in *.
  - destruct (o_rows op) eqn:RW.
    + destruct (adj1 op r) as [r' | ] eqn:A; [ | discriminate]. injection H. intros. subst t'.
      destruct (adj1_spec op r r' K (proj1 T) RM A) as [X1 [X2 X3]].
      cbn [tref_ok tpair negb tsheet rule_of not_whole fst snd].
      split; [lia | ]. split; [reflexivity | ]. split; [split; discriminate | ]. split; [tauto | ]. split; [reflexivity | ]. auto.
    + destruct (adj1 op c) as [c' | ] eqn:A; [ | discriminate]. injection H. intros. subst t'.
      destruct (adj1_spec op c c' K (proj2 T) RM A) as [X1 [X2 X3]].
      cbn [tref_ok tpair negb tsheet rule_of not_whole fst snd].
      split; [lia | ]. split; [reflexivity | ]. split; [split; discriminate | ]. split; [tauto | ]. split; [reflexivity | ]. auto.
  - unfold t_ordered in H. replace ((tix r0 <=? tix r1) && (tix c0 <=? tix c1)) with true in H by lia. cbn [negb] in H.
    destruct T as [[T1 T2] [T3 T4]]. destruct (o_rows op) eqn:RW.
    + destruct (adj2 op r0 r1) as [[a' b'] | ] eqn:A; [ | discriminate]. injection H. intros. subst t'.
      destruct (adj2_spec op r0 r1 a' b' K T1 T2 RM A) as [X1 [X2 X3]].
      cbn [tref_ok tpair negb tsheet rule_of not_whole fst snd]. 
      split; [lia | ]. split; [reflexivity | ]. split; [split; solve [discriminate | reflexivity] | ]. split; [tauto | ]. split; [reflexivity | ]. tauto.
    + destruct (adj2 op c0 c1) as [[a' b'] | ] eqn:A; [ | discriminate]. injection H. intros. subst t'.
      destruct (adj2_spec op c0 c1 a' b' K T3 T4 RM A) as [X1 [X2 X3]].
      cbn [tref_ok tpair negb tsheet rule_of not_whole fst snd]. 
      split; [lia | ]. split; [reflexivity | ]. split; [split; solve [discriminate | reflexivity] | ]. split; [tauto | ]. split; [reflexivity | ]. tauto.
  - unfold t_ordered in H. replace (tix c0 <=? tix c1) with true in H by lia. cbn [negb orb] in H.
    destruct (o_rows op) eqn:RW.
    + injection H. intros. subst t'. cbn. tauto.
    + destruct (adj2 op c0 c1) as [[a' b'] | ] eqn:A; [ | discriminate]. injection H. intros. subst t'.
      destruct (adj2_spec op c0 c1 a' b' K (proj1 T) (proj2 T) RM A) as [X1 [X2 X3]].
      cbn [tref_ok tpair negb tsheet rule_of not_whole fst snd]. 
      split; [lia | ]. split; [reflexivity | ]. split; [split; solve [discriminate | reflexivity] | ]. split; [tauto | ]. split; [reflexivity | ]. tauto.
Qed.
