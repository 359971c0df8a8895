(** The dirty closure. *)
From Coq Require Import ZifyN ZifyNat ZifyBool Permutation.
From Verif Require Import Base Maps IntervalModel IntervalProofs FpModel FpSpec FpProofs FpProofs2 FpProofs3 FpProofs4 FpProofs5 FpProofs6.

Open Scope N_scope.

(** * The consumers of a change *)
Fixpoint numbered (n : nat) (es : list rentry) : list (region * N) :=
  match es with [] => [] | e :: r => (eread e, N.of_nat n) :: numbered (S n) r end.
Definition number_ops (l : list (region * N)) : list (xop N) := map (fun p => XInsert (fst p) (snd p)) l.

Lemma numbered_app : forall a n b, numbered n (a ++ b) = numbered n a ++ numbered (n + length a) b.
Proof. induction a as [|e a IH]; intros n b; cbn [app numbered length]; [now rewrite PeanoNat.Nat.add_0_r|]. rewrite IH. cbn [app]. do 3 f_equal. lia. Qed.
Lemma built_eq : forall es, centries (built es) = es /\ cidx (built es) = xrun (ri_empty 64 16) (number_ops (numbered 0 es)).
Proof.
  intros es. unfold built. induction es as [|e es [I1 I2]] using rev_ind; [split; reflexivity|]. rewrite fold_left_app. cbn [fold_left]. unfold insert_read at 1 3.
  cbn [centries cidx]. rewrite I1. split; [reflexivity|]. rewrite I2, numbered_app. unfold number_ops, xrun. rewrite map_app, fold_left_app. cbn. now rewrite ?PeanoNat.Nat.add_0_l.
Qed.
Lemma number_hist : forall l, xhist (number_ops l) = l.
Proof.
  intros l. unfold xhist, number_ops. assert (G : forall l h, fold_left (fun h (o : xop N) => match o with XInsert r v => h ++ [(r, v)] | XClear => [] end) (map (fun p => XInsert (fst p) (snd p)) l) h = h ++ l).
  { clear. induction l as [|[r v] l IH]; intros h; cbn [map fold_left fst snd]; [now rewrite app_nil_r|]. rewrite IH, <- app_assoc. reflexivity. }
  apply (G l []).
Qed.
Definition look (en : list rentry) (p : region * N) : list rentry := match nth_error en (N.to_nat (snd p)) with Some e => [e] | None => [] end.
Lemma lookups_flat : forall en l, (forall p, In p l -> exists e, nth_error en (N.to_nat (snd p)) = Some e) -> lookups en l = Ok (flat_map (look en) l).
Proof.
  intros en. induction l as [|[r id] l IH]; intros H; [reflexivity|]. cbn [lookups flat_map]. destruct (H (r, id) (or_introl eq_refl)) as [e E]. cbn [snd] in E.
  rewrite E, IH by (intros p P; apply H; now right). cbn [rbind]. unfold look at 2. cbn [snd]. rewrite E. reflexivity.
Qed.
Lemma look_all : forall ch es, flat_map (look es) (filter (fun e => meets (fst e) ch) (numbered 0 es)) = filter (fun e => meets (eread e) ch) es.
Proof.
  intros ch es. assert (G : forall suf pre, es = pre ++ suf -> flat_map (look es) (filter (fun e => meets (fst e) ch) (numbered (length pre) suf)) = filter (fun e => meets (eread e) ch) suf).
  { induction suf as [|e suf IH]; intros pre E; [reflexivity|]. cbn [numbered filter fst].
    specialize (IH (pre ++ [e])). rewrite app_length in IH. cbn [length] in IH. rewrite PeanoNat.Nat.add_1_r in IH. rewrite <- app_assoc in IH. specialize (IH E).
    destruct (meets (eread e) ch); cbn [flat_map]; rewrite IH; [|reflexivity]. unfold look. cbn [snd]. rewrite Nnat.Nat2N.id.
    assert (N1 : nth_error es (length pre) = Some e) by (rewrite E, nth_error_app2 by lia; now rewrite PeanoNat.Nat.sub_diag). rewrite N1. reflexivity. }
  apply (G es []). reflexivity.
Qed.
Lemma numbered_in : forall es n p, In p (numbered n es) -> (n <= N.to_nat (snd p) < n + length es)%nat.
Proof. induction es as [|e es IH]; intros n p H; cbn [numbered] in H; [destruct H|]. destruct H as [<-|H]; cbn [snd length]; [lia|]. apply IH in H. lia. Qed.

Lemma matches_spec : forall ord es ch, (forall l, Permutation (ord l) l) -> Forall (fun e => rg_ok (eread e)) es -> rg_ok ch ->
  exists ms, changed_matches ord (built es) ch = Ok ms /\ Permutation ms (filter (fun e => meets (eread e) ch) es).
Proof.
  intros ord es ch P F C. unfold changed_matches. destruct (built_eq es) as [E1 E2]. rewrite E1, E2.
  assert (F2 : Forall xop_ok (number_ops (numbered 0 es))).
  { rewrite Forall_forall in *. intros o I. unfold number_ops in I. apply in_map_iff in I. destruct I as ([r id] & <- & I). cbn [xop_ok fst].
    assert (G : forall l n, In (r, id) (numbered n l) -> exists e, In e l /\ r = eread e).
    { clear. induction l as [|e l IH]; intros n H; cbn [numbered] in H; [destruct H|]. destruct H as [H|H]; [injection H as <- _; exists e; cbn; auto|].
      apply IH in H. destruct H as (x & X & ->). exists x. cbn. auto. }
    apply G in I. destruct I as (e & I & ->). auto. }
  destruct (query_finds N ord 64 16 (number_ops (numbered 0 es)) ch P) as (l & L1 & L2); [lia|lia|exact F2|exact C|].
  rewrite L1. cbn [rbind]. rewrite number_hist in L2. rewrite lookups_flat.
  - eexists. split; [reflexivity|]. rewrite <- look_all. now apply Permutation_flat_map.
  - intros p I. apply (Permutation_in _ L2) in I. apply filter_In in I. destruct I as [I _]. apply numbered_in in I.
    destruct (nth_error es (N.to_nat (snd p))) as [e|] eqn:E; [eauto|]. apply nth_error_None in E. lia.
Qed.

(** * One candidate *)
Section Run.
  Variable ord : list N -> list N.
  Hypothesis ordp : forall l, Permutation (ord l) l.
  Variable result_of : producer -> option region.
  Variable es : list rentry.
  Hypothesis eok : forall e, In e es -> entry_ok result_of e.
  Hypothesis e64 : forall e, In e es -> rule_i64 (erule e).

  Definition marked (st : cstate) (c : producer) (result : region) (p : cell) : Prop := exists d, mget N.eqb (cdirty st) c = Some d /\ dirty_cell d result p.
  Definition seen_at (st : cstate) (p : cell) : Prop := exists r, In r (seen st) /\ within r p.
  Record good (st : cstate) : Prop := Good {
    g_seen : Forall rg_ok (seen st);
    g_dirty : forall c d, mget N.eqb (cdirty st) c = Some d -> exists result, result_of c = Some result /\ dirty_ok d /\ forall p, dirty_cell d result p -> ucell p -> within result p;
    g_cover : forall c result p, result_of c = Some result -> ucell p -> marked st c result p -> seen_at st p }.
  Definition extends (st st' : cstate) : Prop :=
    (exists new, queue st' = queue st ++ new /\ seen st' = seen st ++ new /\ cout st' = cout st ++ new) /\
    (exists f, cfall st' = cfall st ++ f) /\
    (forall c result p, result_of c = Some result -> ucell p -> marked st c result p -> marked st' c result p).

  Definition grows (st st' : cstate) : Prop :=
    (exists new, seen st' = seen st ++ new /\ cout st' = cout st ++ new) /\
    (exists f, cfall st' = cfall st ++ f) /\
    (forall c result p, result_of c = Some result -> ucell p -> marked st c result p -> marked st' c result p).
  Lemma extends_grows : forall st st', extends st st' -> grows st st'.
  Proof. intros st st' ((new & _ & A & B) & F & M). split; eauto. Qed.
  Lemma grows_trans : forall a b c, grows a b -> grows b c -> grows a c.
  Proof.
    intros a b c ((n1 & A2 & A3) & (f1 & A4) & A5) ((n2 & B2 & B3) & (f2 & B4) & B5). split; [|split].
    - exists (n1 ++ n2). rewrite B2, B3, A2, A3, !app_assoc. auto.
    - exists (f1 ++ f2). rewrite B4, A4, app_assoc. auto.
    - intros k r p K U M. apply B5; auto.
  Qed.

  Lemma extends_refl : forall st, extends st st.
  Proof. intros st. split; [exists []; now rewrite !app_nil_r|]. split; [exists []; now rewrite app_nil_r|auto]. Qed.
  Lemma extends_trans : forall a b c, extends a b -> extends b c -> extends a c.
  Proof.
    intros a b c ((n1 & A1 & A2 & A3) & (f1 & A4) & A5) ((n2 & B1 & B2 & B3) & (f2 & B4) & B5). split; [|split].
    - exists (n1 ++ n2). rewrite B1, B2, B3, A1, A2, A3, !app_assoc. auto.
    - exists (f1 ++ f2). rewrite B4, A4, app_assoc. auto.
    - intros k r p K U M. apply B5; auto.
  Qed.

  Lemma emit_all : forall rs st, let st' := fold_left emit rs st in
    cdirty st' = cdirty st /\ cfall st' = cfall st /\
    (exists new, queue st' = queue st ++ new /\ seen st' = seen st ++ new /\ cout st' = cout st ++ new /\ forall r, In r new -> In r rs) /\
    forall r, In r rs -> In r (seen st').
  Proof.
    induction rs as [|r rs IH]; intros st; cbn [fold_left]; cbv zeta.
    - repeat split; auto. exists []. rewrite !app_nil_r. repeat split; auto. intros r [].
    - assert (E : emit st r = emit st r) by reflexivity. unfold emit in E at 2. destruct (existsb (rg_eqb r) (seen st)) eqn:X.
      + rewrite E. specialize (IH st). cbv zeta in IH. destruct IH as (I1 & I2 & (new & I3 & I4 & I5 & I6) & I7). repeat (split; auto).
        * exists new. repeat (split; auto). intros q Q. right. auto.
        * intros q [<-|Q]; [|auto]. apply existsb_exists in X. destruct X as (z & Z & X). apply rg_eqb_spec in X. subst z. rewrite I4. apply in_or_app. auto.
      + rewrite E. specialize (IH (CState (queue st ++ [r]) (seen st ++ [r]) (cdirty st) (cout st ++ [r]) (cfall st))). cbv zeta in IH.
        destruct IH as (I1 & I2 & (new & I3 & I4 & I5 & I6) & I7). cbn [cdirty cfall queue seen cout] in *. repeat (split; auto).
        * exists (r :: new). rewrite I3, I4, I5, <- !app_assoc. repeat (split; auto). intros q [<-|Q]; [now left|right; auto].
        * intros q [<-|Q]; [|auto]. rewrite I4. apply in_or_app. left. apply in_or_app. right. now left.
  Qed.

  Lemma marked_put : forall st c d q s o f k result p,
    marked (CState q s (mput N.eqb (cdirty st) c d) o f) k result p <-> (k = c /\ dirty_cell d result p) \/ (k <> c /\ marked st k result p).
  Proof.
    intros st c d q s o f k result p. unfold marked. cbn [cdirty]. destruct (N.eq_dec k c) as [->|E].
    - rewrite mget_put_same by apply N_eqb_spec. split; [intros (x & X & H); injection X as <-; auto|intros [[_ H]|[H _]]; [eauto|contradiction]].
    - rewrite mget_put_other by (auto using N_eqb_spec). tauto.
  Qed.

  Lemma apply_good : forall e ch d st, In e es -> good st -> dirty_ok d -> (forall p, ucell p -> dirty_cell d (eresult e) p -> within (eresult e) p) ->
    let st' := apply_dirty result_of (consumer e) ch d st in
    good st' /\ extends st st' /\ (forall p, ucell p -> dirty_cell d (eresult e) p -> marked st' (consumer e) (eresult e) p).
  Proof.
    intros e ch d st I [G1 G2 G3] D W. cbv zeta. destruct (eok e I) as (O1 & O2 & O3). set (c := consumer e) in *. set (res := eresult e) in *.
    unfold apply_dirty. destruct (mget N.eqb (cdirty st) c) as [old|] eqn:M.
    - destruct (G2 c old M) as (res' & R' & Dold & Wold). assert (res' = res) by congruence. subst res'.
      assert (MC : forall p, ucell p -> (dirty_cell (merge old d) res p <-> dirty_cell old res p \/ dirty_cell d res p)).
      { intros p U. apply merge_cells. intros [H|H]; auto. }
      assert (MG : forall k d', mget N.eqb (mput N.eqb (cdirty st) c (merge old d)) k = Some d' -> exists result, result_of k = Some result /\ dirty_ok d' /\ forall p, dirty_cell d' result p -> ucell p -> within result p).
      { intros k d' K. destruct (N.eq_dec k c) as [->|E].
        - rewrite mget_put_same in K by apply N_eqb_spec. injection K as <-. exists res. split; auto. split; [now apply merge_ok|]. intros p H U. apply MC in H; auto. destruct H; auto.
        - rewrite mget_put_other in K by (auto using N_eqb_spec). now apply G2 in K. }
      destruct (negb (dirty_eqb (merge old d) old)) eqn:E; cbn [negb].
      + rewrite O3. set (st1 := CState (queue st) (seen st) (mput N.eqb (cdirty st) c (merge old d)) (cout st) (cfall st)).
        destruct (emit_all (result_regions d res) st1) as (E1 & E2 & (new & E3 & E4 & E5 & E6) & E7). cbn [queue seen cdirty cout cfall st1] in *.
        assert (RR := result_regions_ok d res D O2). rewrite Forall_forall in RR.
        assert (MK : forall k r p, marked (fold_left emit (result_regions d res) st1) k r p <-> marked st1 k r p) by (intros k r p; unfold marked; rewrite E1; tauto).
        split; [split|split].
        * rewrite E4. apply Forall_app. split; auto. rewrite Forall_forall. auto.
        * rewrite E1. exact MG.
        * intros k r p K U H. apply MK in H. apply marked_put in H. destruct H as [[-> H]|[NE H]].
          -- assert (r = res) by congruence. subst r. apply MC in H; auto. destruct H as [H|H].
             ++ destruct (G3 c res p O3 U) as (q & Q & Q'); [exists old; auto|]. exists q. split; auto. rewrite E4. apply in_or_app. auto.
             ++ apply result_regions_within in H. destruct H as (q & Q & Q'). exists q. split; auto.
          -- destruct (G3 k r p K U H) as (q & Q & Q'). exists q. split; auto. rewrite E4. apply in_or_app. auto.
        * split; [|split].
          -- exists new. auto.
          -- exists []. now rewrite E2, app_nil_r.
          -- intros k r p K U H. apply MK. apply marked_put. destruct (N.eq_dec k c) as [->|NE]; [left|right; auto]. split; auto.
             assert (r = res) by congruence. subst r. apply MC; auto. left. destruct H as (x & X & H). rewrite M in X. injection X as <-. auto.
        * intros p U H. apply MK. apply marked_put. left. split; auto. apply MC; auto.
      + assert (EQ : merge old d = old) by (apply dirty_eqb_spec; destruct (dirty_eqb _ _); [auto|discriminate]).
        split; [split|split]; cbn [queue seen cdirty cout cfall].
        * auto.
        * exact MG.
        * intros k r p K U H. apply marked_put in H. destruct H as [[-> H]|[NE H]]; [|now apply (G3 k r p)].
          rewrite EQ in H. apply (G3 c r p K U). exists old. auto.
        * split; [exists []; cbn; now rewrite !app_nil_r|]. split; [exists []; cbn; now rewrite app_nil_r|]. intros k r p K U H. apply marked_put.
          destruct (N.eq_dec k c) as [->|NE]; [left|right; auto]. split; auto. rewrite EQ. destruct H as (x & X & H). rewrite M in X. injection X as <-. auto.
        * intros p U H. apply marked_put. left. split; auto. apply MC; auto.
    - cbn [negb]. rewrite O3. set (st1 := CState (queue st) (seen st) (mput N.eqb (cdirty st) c d) (cout st) (cfall st)).
      destruct (emit_all (result_regions d res) st1) as (E1 & E2 & (new & E3 & E4 & E5 & E6) & E7). cbn [queue seen cdirty cout cfall st1] in *.
      assert (RR := result_regions_ok d res D O2). rewrite Forall_forall in RR.
      assert (MK : forall k r p, marked (fold_left emit (result_regions d res) st1) k r p <-> marked st1 k r p) by (intros k r p; unfold marked; rewrite E1; tauto).
      split; [split|split].
      + rewrite E4. apply Forall_app. split; auto. rewrite Forall_forall. auto.
      + rewrite E1. intros k d' K. destruct (N.eq_dec k c) as [->|E].
        * rewrite mget_put_same in K by apply N_eqb_spec. injection K as <-. exists res. split; auto.
        * rewrite mget_put_other in K by (auto using N_eqb_spec). now apply G2 in K.
      + intros k r p K U H. apply MK in H. apply marked_put in H. destruct H as [[-> H]|[NE H]].
        * assert (r = res) by congruence. subst r. apply result_regions_within in H. destruct H as (q & Q & Q'). exists q. split; auto.
        * destruct (G3 k r p K U H) as (q & Q & Q'). exists q. split; auto. rewrite E4. apply in_or_app. auto.
      + split; [|split].
        * exists new. auto.
        * exists []. now rewrite E2, app_nil_r.
        * intros k r p K U H. apply MK. apply marked_put. destruct (N.eq_dec k c) as [->|NE]; [|right; auto]. destruct H as (x & X & H). congruence.
      + intros p U H. apply MK. apply marked_put. left. auto.
  Qed.

  (** What one candidate leaves behind. *)
  Definition handled (st : cstate) (ch : region) (e : rentry) : Prop :=
    match project (erule e) ch (eread e) (eresult e) with
    | Exact d => forall p, ucell p -> dirty_cell d (eresult e) p -> marked st (consumer e) (eresult e) p
    | Unsupported _ => cfall st <> []
    | _ => True
    end.
  Lemma handled_extends : forall a b ch e, In e es -> grows a b -> handled a ch e -> handled b ch e.
  Proof.
    intros a b ch e I (_ & (f & F) & X) H. unfold handled in *. destruct (eok e I) as (_ & _ & O3). destruct (project _ _ _ _); auto.
    rewrite F. intros E. apply app_eq_nil in E. tauto.
  Qed.
  Lemma candidate_good : forall ch e st, In e es -> rg_ok ch -> good st ->
    good (candidate result_of ch st e) /\ extends st (candidate result_of ch st e) /\ handled (candidate result_of ch st e) ch e.
  Proof.
    intros ch e st I C G. unfold handled, candidate. destruct (eok e I) as (O1 & O2 & O3). destruct (project (erule e) ch (eread e) (eresult e)) as [d|d r| |r] eqn:P.
    - destruct (project_ok _ _ _ _ _ (e64 e I) C O2 P) as [D W]. apply apply_good; auto.
    - exfalso. eapply no_conservative; eauto.
    - split; auto. split; auto using extends_refl.
    - split; [|split].
      + destruct G as [G1 G2 G3]. split; auto.
      + split; [exists []; cbn; now rewrite !app_nil_r|]. split; [cbn; eauto|auto].
      + cbn. intros E. apply app_eq_nil in E. destruct E. discriminate.
  Qed.
  Lemma candidates_good : forall ch ms st, (forall e, In e ms -> In e es) -> rg_ok ch -> good st ->
    let st' := fold_left (candidate result_of ch) ms st in
    good st' /\ extends st st' /\ forall e, In e ms -> handled st' ch e.
  Proof.
    intros ch. induction ms as [|e ms IH]; intros st S C G; cbn [fold_left]; cbv zeta.
    - split; auto. split; [apply extends_refl|]. intros e [].
    - destruct (candidate_good ch e st (S e (or_introl eq_refl)) C G) as (G1 & X1 & H1).
      destruct (IH (candidate result_of ch st e)) as (G2 & X2 & H2); auto. { intros x X. apply S. now right. }
      split; auto. split; [eapply extends_trans; eauto|]. intros x [<-|X]; auto. eapply handled_extends; [|apply extends_grows; exact X2|exact H1]. apply S. now left.
  Qed.

  (** * The loop *)
  Lemma loop_good : forall limit st, good st -> (forall r, In r (seen st) -> In r (queue st) \/ forall e, In e es -> handled st r e) ->
    (forall r, In r (queue st) -> In r (seen st)) ->
    exists out, closure_loop ord result_of limit (built es) st = Ok out /\
      ((incomplete out = true /\ work out = [] /\ changed_out out = [] /\ exists c r, fallbacks out = [(c, r, IterationLimit)]) \/
       (incomplete out = false /\ exists st', good st' /\ grows st st' /\ work out = cdirty st' /\ fallbacks out = cfall st' /\ changed_out out = cout st' /\
          forall r e, In r (seen st') -> In e es -> handled st' r e)).
  Proof.
    assert (End : forall se di co fa, good (CState [] se di co fa) -> (forall r, In r se -> In r [] \/ forall e, In e es -> handled (CState [] se di co fa) r e) ->
      exists out, @Ok unit _ (Closure di co fa false) = Ok out /\
      ((incomplete out = true /\ work out = [] /\ changed_out out = [] /\ exists c r, fallbacks out = [(c, r, IterationLimit)]) \/
       (incomplete out = false /\ exists st', good st' /\ grows (CState [] se di co fa) st' /\ work out = cdirty st' /\ fallbacks out = cfall st' /\ changed_out out = cout st' /\
          forall r e, In r (seen st') -> In e es -> handled st' r e))).
    { intros se di co fa G P. eexists. split; [reflexivity|]. right. cbn [incomplete work fallbacks changed_out]. split; [reflexivity|]. exists (CState [] se di co fa). split; [auto|]. split; [apply extends_grows, extends_refl|].
      cbn [cdirty cfall cout seen]. repeat (split; [reflexivity|]). intros r e R I. destruct (P r R) as [[]|H]; auto. }
    induction limit as [|n IH]; intros st G P Q; destruct st as [qu se di co fa]; cbn [queue seen cdirty cout cfall] in *; cbn [closure_loop queue]; destruct qu as [|ch q]; try (apply End; assumption).
    - eexists. split; [reflexivity|]. left. cbn. eauto 8.
    - assert (C : rg_ok ch). { destruct G as [G1 _ _]. rewrite Forall_forall in G1. apply G1. apply Q. now left. }
      destruct (matches_spec ord es ch ordp) as (ms & M1 & M2); auto. { rewrite Forall_forall. intros e I. apply (eok e I). }
      rewrite M1. cbn [rbind]. cbn [seen cdirty cout cfall]. set (st0 := CState q se di co fa). set (stA := CState (ch :: q) se di co fa) in *.
      assert (G0 : good st0) by (destruct G as [G1 G2 G3]; split; auto).
      assert (GA : grows stA st0) by (split; [exists []; cbn; now rewrite !app_nil_r|split; [exists []; cbn; now rewrite app_nil_r|auto]]).
      destruct (candidates_good ch ms st0) as (G1 & X1 & H1); auto.
      { intros e I. apply (Permutation_in _ M2) in I. apply filter_In in I. apply I. }
      set (st1 := fold_left (candidate result_of ch) ms st0) in *.
      assert (G01 : grows stA st1) by (eapply grows_trans; [exact GA|now apply extends_grows]).
      destruct (IH st1 G1) as (out & O1 & O2).
      + intros r R. destruct X1 as ((new & N1 & N2 & N3) & X2 & X3). rewrite N2 in R. rewrite N1. apply in_app_iff in R. cbn [queue seen st0] in *. destruct R as [R|R].
        * destruct (P r R) as [[->|K]|K].
          -- right. intros e I. destruct (meets r (eread e)) eqn:MM.
             ++ apply H1. apply (Permutation_in _ (Permutation_sym M2)). apply filter_In. split; auto. rewrite <- MM.
                apply eq_true_iff_eq. destruct (eok e I) as (O1 & _). rewrite !meets_within by auto. split; intros (x & X & Xa & Xb); eauto.
             ++ unfold handled, project. rewrite MM. exact Logic.I.
          -- left. apply in_or_app. auto.
          -- right. intros e I. exact (handled_extends stA st1 r e I G01 (K e I)).
        * left. apply in_or_app. auto.
      + intros r R. destruct X1 as ((new & N1 & N2 & N3) & X2 & X3). rewrite N1 in R. rewrite N2. cbn [queue seen st0] in *. apply in_app_iff in R. apply in_or_app.
        destruct R; [left; apply Q; now right|now right].
      + exists out. split; auto. destruct O2 as [O2|(O2 & st' & O3 & O4 & O5)]; [left; auto|right]. split; auto. exists st'. split; auto. split; auto.
        eapply grows_trans; eauto.
  Qed.

  Lemma start_good : forall changed, Forall rg_ok changed -> let inputs := append_unique rg_eqb [] changed in good (CState inputs inputs [] [] []).
  Proof.
    intros changed F. cbv zeta. split; cbn [seen cdirty].
    - rewrite Forall_forall in *. intros r I. apply (append_unique_in _ _ rg_eqb_spec) in I. destruct I as [[]|I]. auto.
    - intros c d H. discriminate.
    - intros c r p _ _ (d & D & _). discriminate.
  Qed.

  (** Everything that is stale is recomputed. *)
  Theorem closure_sound : forall limit changed, Forall rg_ok changed ->
    exists out, dirty_closure ord result_of limit (built es) changed = Ok out /\
      ((incomplete out = true /\ work out = [] /\ changed_out out = [] /\ exists c r, fallbacks out = [(c, r, IterationLimit)]) \/
       (incomplete out = false /\
        (forall c p, ucell p -> worked (work out) result_of c p -> exists r, (In r changed \/ In r (changed_out out)) /\ within r p) /\
        (fallbacks out = [] -> forall e p y, In e es -> ucell p -> ucell y -> within (eresult e) p -> within (eread e) y -> reads (erule e) p y ->
           ((exists r, In r changed /\ within r y) \/ stale es changed y) -> worked (work out) result_of (consumer e) p))).
  Proof.
    intros limit changed F. unfold dirty_closure. cbv zeta. set (inputs := append_unique rg_eqb [] changed).
    assert (IN : forall r, In r inputs <-> In r changed) by (intros r; unfold inputs; rewrite (append_unique_in _ _ rg_eqb_spec); cbn [In]; tauto).
    destruct (loop_good limit (CState inputs inputs [] [] []) (start_good changed F)) as (out & O1 & O2).
    { cbn. auto. } { cbn. auto. }
    exists out. split; auto. destruct O2 as [O2|(O2 & st & G & ((new & N1 & N2) & _ & _) & E1 & E2 & E3 & H)]; [left; auto|right]. cbn [seen cout] in N1, N2. cbn [app] in N2. split; auto.
    assert (WM : forall c p, worked (work out) result_of c p <-> exists result, result_of c = Some result /\ marked st c result p).
    { intros c p. unfold worked, marked. rewrite E1. split; [intros (d & r & A & B & C); eauto|intros (r & B & d & A & C); eauto]. }
    assert (CV : forall c p, ucell p -> worked (work out) result_of c p -> exists r, In r (seen st) /\ within r p).
    { intros c p U W. apply WM in W. destruct W as (r & R & M). exact (g_cover _ G c r p R U M). }
    split.
    - intros c p U W. destruct (CV c p U W) as (r & R & K). exists r. split; auto. rewrite N1 in R. apply in_app_iff in R. rewrite IN in R. rewrite E3, N2. auto.
    - intros NF.
      assert (Step : forall e p y, In e es -> ucell p -> ucell y -> within (eresult e) p -> within (eread e) y -> reads (erule e) p y ->
        (exists r, In r (seen st) /\ within r y) -> worked (work out) result_of (consumer e) p).
      { intros e p y I Up Uy Wp Wy R (r & Rs & Wr). destruct (eok e I) as (Ok1 & Ok2 & Ok3). apply WM. exists (eresult e). split; auto.
        assert (Or : rg_ok r). { assert (K := g_seen _ G). rewrite Forall_forall in K. auto. }
        assert (S1 := project_sound (erule e) r (eread e) (eresult e) p y (e64 e I) Or Ok1 Ok2 Up Uy Wr Wy Wp R).
        assert (Hd := H r e Rs I). unfold handled in Hd. destruct (project (erule e) r (eread e) (eresult e)) eqn:P.
        - auto.
        - exfalso. eapply no_conservative; eauto.
        - contradiction.
        - exfalso. apply Hd. congruence. }
      assert (Cst : forall y, stale es changed y -> ucell y -> exists r, In r (seen st) /\ within r y).
      { intros y S. induction S as [p y Up Uy (e & I & A & B & C) (r & R & W)|p y Up (e & I & A & B & C) S IH]; intros _.
        - apply (CV (consumer e) p Up). apply (Step e p y); auto. exists r. split; auto. rewrite N1. apply in_or_app. left. now apply IN.
        - assert (Uy : ucell y) by (inversion S; auto). apply (CV (consumer e) p Up). apply (Step e p y); auto. }
      intros e p y I Up Uy Wp Wy R K. apply (Step e p y); auto. destruct K as [(r & Rc & W)|K]; [|auto]. exists r. split; auto. rewrite N1. apply in_or_app. left. now apply IN.
  Qed.
End Run.
