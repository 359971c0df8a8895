(** Whole-state facts about row visibility. *)
From Coq Require Import ZifyN ZifyNat ZifyBool.
From Verif Require Import Base BitLemmas VisModel VisSpec VisProofs.
Local Open Scope N_scope.
Ltac Zify.zify_post_hook ::= Z.div_mod_to_equations.

Definition part (s : vis) (src : source) : rowset := match src with Manual => manual s | Filter => filt s end.

Lemma hidden_by_bit : forall s src r, hidden_by s src r = bit (part s src) r.
Proof. intros s [] r; unfold hidden_by; cbn; apply rs_get_bit. Qed.

Definition inv (s : vis) : Prop := forall src, wf (part s src) /\ bounded (part s src).

(** One source under one operation. *)
Definition part_op (ws : rowset) (src : source) (o : vis_op) : rowset * bool :=
  match o with
  | OSet r h sc => if src_eqb sc src then rs_set ws r h else (ws, false)
  | ORange a b h sc => if src_eqb sc src then rs_set_range ws a b h else (ws, false)
  | OInsert b c => rs_insert ws b c
  | ODelete a c => rs_delete ws a c
  end.

Lemma part_run_op : forall s o src, part (fst (run_op s o)) src = fst (part_op (part s src) src o).
Proof.
  intros s [r h sc|a b h sc|b c|a c] src; cbn [run_op part_op]; unfold set_row_hidden, set_rows_hidden, vis_insert, vis_delete.
  - destruct sc, src; cbn [src_eqb part]; destruct (rs_set _ r h); reflexivity.
  - destruct sc, src; cbn [src_eqb part]; destruct (rs_set_range _ a b h); reflexivity.
  - destruct src; cbn [part]; destruct (rs_insert (manual s) b c), (rs_insert (filt s) b c); reflexivity.
  - destruct src; cbn [part]; destruct (rs_delete (manual s) a c), (rs_delete (filt s) a c); reflexivity.
Qed.

Lemma snd_run_op : forall s o,
  snd (run_op s o) = snd (part_op (manual s) Manual o) || snd (part_op (filt s) Filter o).
Proof.
  intros s [r h sc|a b h sc|b c|a c]; cbn [run_op part_op]; unfold set_row_hidden, set_rows_hidden, vis_insert, vis_delete.
  - destruct sc; cbn [src_eqb]; destruct (rs_set _ r h); cbn; now rewrite ?orb_false_r.
  - destruct sc; cbn [src_eqb]; destruct (rs_set_range _ a b h); cbn; now rewrite ?orb_false_r.
  - destruct (rs_insert (manual s) b c), (rs_insert (filt s) b c); reflexivity.
  - destruct (rs_delete (manual s) a c), (rs_delete (filt s) a c); reflexivity.
Qed.

Lemma version_run_op : forall s o, version (fst (run_op s o)) = bump (version s) (snd (run_op s o)).
Proof.
  intros s [r h sc|a b h sc|b c|a c]; cbn [run_op]; unfold set_row_hidden, set_rows_hidden, vis_insert, vis_delete.
  - destruct sc; destruct (rs_set _ r h); reflexivity.
  - destruct sc; destruct (rs_set_range _ a b h); reflexivity.
  - destruct (rs_insert (manual s) b c), (rs_insert (filt s) b c); reflexivity.
  - destruct (rs_delete (manual s) a c), (rs_delete (filt s) a c); reflexivity.
Qed.

Lemma part_op_wf : forall ws src o, wf ws -> wf (fst (part_op ws src o)).
Proof.
  intros ws src [r h sc|a b h sc|b c|a c] W; cbn [part_op].
  - destruct (src_eqb sc src); auto using wf_set.
  - destruct (src_eqb sc src); auto. unfold rs_set_range. destruct (b <? a); auto using wf_set_loop.
  - apply wf_insert; auto.
  - apply wf_delete; auto.
Qed.

Lemma part_op_exact : forall ws src o r, wf ws -> bounded ws -> spec_fits (bit ws) o ->
  bit (fst (part_op ws src o)) r = spec_op src (bit ws) o r.
Proof.
  intros ws src [x h sc|a b h sc|b c|a c] r W B F; cbn [part_op spec_op].
  - destruct (src_eqb sc src); [apply bit_set|reflexivity].
  - destruct (src_eqb sc src); [apply bit_set_range|reflexivity].
  - apply insert_exact; auto.
  - apply delete_exact; auto.
Qed.

Lemma part_op_bounded : forall ws src o, wf ws -> bounded ws -> op_u32 o -> bounded (fst (part_op ws src o)).
Proof.
  intros ws src [x h sc|a b h sc|b c|a c] W B U r; cbn [part_op op_u32] in *.
  - destruct (src_eqb sc src); [|apply B]. rewrite bit_set. destruct (r =? x) eqn:E; [lia|apply B].
  - destruct (src_eqb sc src); [|apply B]. rewrite bit_set_range. unfold spec_range.
    destruct ((a <=? r) && (r <=? b)) eqn:E; [lia|apply B].
  - rewrite (insert_bits ws b c r W). intros (q & H & ->). specialize (B q H). destruct (_ && _); [apply N.le_min_r|auto].
  - rewrite delete_exact by auto. unfold spec_delete. destruct (r <? a); intros H; apply B in H; lia.
Qed.

Lemma inv_new : inv vis_new.
Proof. intros []; split; try apply wf_nil; intros r H; cbn in H; rewrite bit_nil in H; discriminate. Qed.

Lemma inv_step : forall s o, inv s -> op_u32 o -> inv (fst (run_op s o)).
Proof.
  intros s o I U src. rewrite part_run_op. destruct (I src). split; [now apply part_op_wf|now apply part_op_bounded].
Qed.

Lemma reach_inv : forall s, vis_reach s -> inv s.
Proof. induction 1; auto using inv_new, inv_step. Qed.

Lemma spec_fits_ext : forall h h' o, (forall r, h r = h' r) -> spec_fits h o -> spec_fits h' o.
Proof. intros h h' [| |b c|] E; cbn; auto. intros F q H. apply F. now rewrite E. Qed.

Lemma spec_op_ext : forall src h h' o, (forall r, h r = h' r) -> forall r, spec_op src h o r = spec_op src h' o r.
Proof.
  intros src h h' [x hd sc|a b hd sc|b c|a c] E r; cbn.
  - destruct (src_eqb sc src); auto. unfold spec_set. now rewrite E.
  - destruct (src_eqb sc src); auto. unfold spec_range. now rewrite E.
  - unfold spec_insert. now rewrite !E.
  - unfold spec_delete. now rewrite !E.
Qed.

Lemma step_exact : forall s o src r, vis_reach s -> spec_fits (hidden_by s src) o ->
  hidden_by (fst (run_op s o)) src r = spec_op src (hidden_by s src) o r.
Proof.
  intros s o src r R F. rewrite hidden_by_bit, part_run_op.
  destruct (reach_inv s R src) as [W B]. rewrite part_op_exact; auto.
  - apply spec_op_ext. intros q. now rewrite hidden_by_bit.
  - eapply spec_fits_ext; [|exact F]. intros q. apply hidden_by_bit.
Qed.

Lemma spec_run_ext : forall src os h h', (forall r, h r = h' r) ->
  (forall r, spec_run src h os r = spec_run src h' os r) /\ (spec_run_fits src h os -> spec_run_fits src h' os).
Proof.
  intros src os. induction os as [|o os IH]; intros h h' E; cbn; auto.
  destruct (IH _ _ (spec_op_ext src h h' o E)) as [A B]. split; auto.
  intros [F G]. split; auto. eapply spec_fits_ext; eauto.
Qed.

Lemma run_exact : forall os s src, vis_reach s -> Forall op_u32 os -> spec_run_fits src (hidden_by s src) os ->
  forall r, hidden_by (run_ops s os) src r = spec_run src (hidden_by s src) os r.
Proof.
  induction os as [|o os IH]; intros s src R U F r; [reflexivity|].
  inversion U; subst. destruct F as [F G]. cbn [run_ops fold_left spec_run].
  assert (E : forall q, hidden_by (fst (run_op s o)) src q = spec_op src (hidden_by s src) o q)
    by (intros; now apply step_exact).
  destruct (spec_run_ext src os _ _ E) as [A _].
  destruct (spec_run_ext src os _ _ (fun q => eq_sym (E q))) as [_ B].
  rewrite <- A. apply (IH (fst (run_op s o))); auto. now apply vr_step.
Qed.

(** A reported change is a change. *)
Lemma part_op_changed : forall ws src o, wf ws -> bounded ws -> spec_fits (bit ws) o ->
  (snd (part_op ws src o) = true <-> exists r, bit (fst (part_op ws src o)) r <> bit ws r).
Proof.
  intros ws src [x h sc|a b h sc|b c|a c] W B F; cbn [part_op].
  - destruct (src_eqb sc src).
    + rewrite changed_set. split.
      * intros H. exists x. rewrite bit_set, N.eqb_refl. destruct (bit ws x), h; cbn in H; congruence.
      * intros (r & H). rewrite bit_set in H. destruct (r =? x) eqn:E; [|congruence]. apply N.eqb_eq in E. subst.
        destruct (bit ws x), h; cbn; congruence.
    + cbn. split; [discriminate|intros (r & H); congruence].
  - destruct (src_eqb sc src).
    + unfold rs_set_range. destruct (b <? a) eqn:E.
      * cbn. split; [discriminate|intros (r & H); congruence].
      * rewrite changed_set_loop. split.
        -- intros [?|(r & Hr & D)]; [discriminate|]. exists r. rewrite bit_set_loop.
           replace ((a <=? r) && (r <? a + N.of_nat (N.to_nat (b - a + 1)))) with true by lia. congruence.
        -- intros (r & H). right. exists r. rewrite bit_set_loop in H.
           destruct ((a <=? r) && (r <? a + N.of_nat (N.to_nat (b - a + 1)))) eqn:E1; [|congruence].
           split; [lia|congruence].
    + cbn. split; [discriminate|intros (r & H); congruence].
  - rewrite (changed_insert ws b c W). split.
    + intros [C (q & H & L)].
      (* take the largest hidden row *)
      assert (M : exists m, bit ws m = true /\ b <= m /\ forall x, bit ws x = true -> x <= m).
      { assert (G : forall n k, N.to_nat (U32MAX - k) = n -> bit ws k = true -> b <= k ->
                    exists m, bit ws m = true /\ b <= m /\ forall x, bit ws x = true -> x <= m).
        { induction n as [n IH] using lt_wf_ind. intros k En Hk Lk.
          pose proof (fun r => collect_In ws r W) as CI.
          destruct (existsb (fun x => k <? x) (collect_set_rows ws)) eqn:EX.
          - apply existsb_exists in EX. destruct EX as (x & Ix & Lx). apply CI in Ix. pose proof (B _ Ix).
            pose proof (B _ Hk). apply (IH (N.to_nat (U32MAX - x))) with (k := x); auto; lia.
          - exists k. split; auto. split; auto. intros x Hx. destruct (N.le_gt_cases x k); auto.
            assert (X : existsb (fun x => k <? x) (collect_set_rows ws) = true).
            { apply existsb_exists. exists x. split; [now apply CI|lia]. }
            congruence. }
        exact (G _ q eq_refl H L). }
      destruct M as (m & Hm & Lm & Mx). exists (m + c).
      rewrite insert_exact by auto. unfold spec_insert.
      replace (m + c <? b) with false by lia. replace (m + c <? b + c) with false by lia.
      replace (m + c - c) with m by lia. rewrite Hm. intros X. symmetry in X. apply Mx in X. lia.
    + intros (r & H). rewrite insert_exact in H by auto. unfold spec_insert in H. split.
      * intros ->. rewrite N.add_0_r, N.sub_0_r in H. destruct (r <? b); congruence.
      * destruct (r <? b) eqn:E; [congruence|].
        destruct (bit ws r) eqn:Br; [exists r; split; auto; lia|].
        destruct (r <? b + c) eqn:E2; [congruence|]. exists (r - c). split; [|lia].
        destruct (bit ws (r - c)); congruence.
  - rewrite (changed_delete ws a c W). split.
    + intros [C (q & H & L)].
      assert (M : exists m, bit ws m = true /\ a <= m /\ forall x, bit ws x = true -> x <= m).
      { assert (G : forall n k, N.to_nat (U32MAX - k) = n -> bit ws k = true -> a <= k ->
                    exists m, bit ws m = true /\ a <= m /\ forall x, bit ws x = true -> x <= m).
        { induction n as [n IH] using lt_wf_ind. intros k En Hk Lk.
          pose proof (fun r => collect_In ws r W) as CI.
          destruct (existsb (fun x => k <? x) (collect_set_rows ws)) eqn:EX.
          - apply existsb_exists in EX. destruct EX as (x & Ix & Lx). apply CI in Ix. pose proof (B _ Ix).
            pose proof (B _ Hk). apply (IH (N.to_nat (U32MAX - x))) with (k := x); auto; lia.
          - exists k. split; auto. split; auto. intros x Hx. destruct (N.le_gt_cases x k); auto.
            assert (X : existsb (fun x => k <? x) (collect_set_rows ws) = true).
            { apply existsb_exists. exists x. split; [now apply CI|lia]. }
            congruence. }
        exact (G _ q eq_refl H L). }
      destruct M as (m & Hm & Lm & Mx). exists m.
      rewrite delete_exact by auto. unfold spec_delete.
      replace (m <? a) with false by lia. rewrite Hm. intros X. apply Mx in X. lia.
    + intros (r & H). rewrite delete_exact in H by auto. unfold spec_delete in H. split.
      * intros ->. rewrite N.add_0_r in H. destruct (r <? a); congruence.
      * destruct (r <? a) eqn:E; [congruence|].
        destruct (bit ws r) eqn:Br; [exists r; split; auto; lia|].
        exists (r + c). split; [|lia]. destruct (bit ws (r + c)); congruence.
Qed.

Lemma changed_iff : forall s o, vis_reach s -> op_fits s o ->
  (snd (run_op s o) = true <-> exists src r, hidden_by (fst (run_op s o)) src r <> hidden_by s src r).
Proof.
  intros s o R [FM FF]. pose proof (reach_inv s R) as I.
  assert (FM' : spec_fits (bit (manual s)) o) by (eapply spec_fits_ext; [|exact FM]; intros q; apply hidden_by_bit).
  assert (FF' : spec_fits (bit (filt s)) o) by (eapply spec_fits_ext; [|exact FF]; intros q; apply hidden_by_bit).
  destruct (I Manual) as [WM BM], (I Filter) as [WF BF]. cbn [part] in *.
  rewrite snd_run_op, orb_true_iff, part_op_changed, part_op_changed by auto. split.
  - intros [(r & H)|(r & H)]; [exists Manual, r|exists Filter, r]; now rewrite !hidden_by_bit, part_run_op.
  - intros ([] & r & H); rewrite !hidden_by_bit, part_run_op in H; eauto.
Qed.

(** Row sets are canonical. *)
Lemma canon_ext : forall a b, wf a -> wf b -> (forall r, bit a r = bit b r) -> a = b.
Proof.
  assert (W : forall a b i, wf a -> wf b -> (forall r, bit a r = bit b r) -> nth i a 0 = nth i b 0).
  { intros a b i [Fa _] [Fb _] E. apply N.bits_inj. intros k.
    assert (S : forall l, Forall (fun w => w < 2 ^ 64) l -> nth i l 0 < 2 ^ 64).
    { intros l F. destruct (lt_dec i (length l)); [rewrite Forall_forall in F; apply F; now apply nth_In|].
      rewrite nth_overflow by lia. reflexivity. }
    destruct (N.lt_ge_cases k 64) as [L|G].
    - specialize (E (N.of_nat i * 64 + k)). unfold bit, word_idx in E.
      replace (N.to_nat ((N.of_nat i * 64 + k) / 64)) with i in E by lia.
      replace ((N.of_nat i * 64 + k) mod 64) with k in E by lia. exact E.
    - rewrite !(testbit_small _ 64 k) by auto. reflexivity. }
  assert (L : forall a b, wf a -> wf b -> (forall r, bit a r = bit b r) -> (length a <= length b)%nat).
  { intros a b Wa Wb E. destruct (le_gt_dec (length a) (length b)) as [|G]; auto. exfalso.
    destruct Wa as [Fa Ca]. destruct a as [|x a]; [cbn in G; lia|]. unfold canon in Ca. apply Ca.
    rewrite last_nth, (W _ b); [|split; auto|auto|auto]. apply nth_overflow. cbn [length] in *. lia. }
  intros a b Wa Wb E. apply nth_ext with (d := 0) (d' := 0).
  - apply Nat.le_antisymm; apply L; auto.
  - intros n _. auto.
Qed.

Lemma canonical : forall s t, vis_reach s -> vis_reach t ->
  (forall src r, hidden_by s src r = hidden_by t src r) -> manual s = manual t /\ filt s = filt t.
Proof.
  intros s t Rs Rt E. pose proof (reach_inv _ Rs) as Is. pose proof (reach_inv _ Rt) as It. split.
  - apply canon_ext; [apply (Is Manual)|apply (It Manual)|]. intros r. specialize (E Manual r). now rewrite !hidden_by_bit in E.
  - apply canon_ext; [apply (Is Filter)|apply (It Filter)|]. intros r. specialize (E Filter r). now rewrite !hidden_by_bit in E.
Qed.

Lemma empty_iff : forall s, vis_reach s ->
  (vis_is_empty s = true <-> forall r, is_row_hidden s r None = false).
Proof.
  intros s R. pose proof (reach_inv _ R) as I. unfold vis_is_empty. split.
  - intros H r. apply andb_true_iff in H. destruct H as [A B]. unfold rs_is_empty in *.
    assert (Z : forall ws, forallb (fun w => w =? 0) ws = true -> forall q, bit ws q = false).
    { intros ws F q. unfold bit. rewrite forallb_forall in F.
      destruct (lt_dec (word_idx q) (length ws)) as [L|L].
      - specialize (F _ (nth_In ws 0 L)). apply N.eqb_eq in F. rewrite F. apply N.bits_0.
      - rewrite nth_overflow by lia. apply N.bits_0. }
    cbn [is_row_hidden]. now rewrite !rs_get_bit, !Z.
  - intros H.
    assert (M : manual s = []).
    { apply canon_ext; [apply (I Manual)|apply wf_nil|]. intros r. rewrite bit_nil, <- rs_get_bit.
      specialize (H r). cbn in H. now apply orb_false_iff in H. }
    assert (F : filt s = []).
    { apply canon_ext; [apply (I Filter)|apply wf_nil|]. intros r. rewrite bit_nil, <- rs_get_bit.
      specialize (H r). cbn in H. now apply orb_false_iff in H. }
    now rewrite M, F.
Qed.

Lemma insert_delete : forall s b c, vis_reach s -> b <= U32MAX -> c <= U32MAX -> op_fits s (OInsert b c) ->
  let t := fst (vis_delete (fst (vis_insert s b c)) b c) in
  manual t = manual s /\ filt t = filt s.
Proof.
  intros s b c R Hb Hc [FM FF]. cbv zeta.
  assert (R1 : vis_reach (fst (run_op s (OInsert b c)))) by (apply vr_step; cbn; auto).
  assert (R2 : vis_reach (fst (run_op (fst (run_op s (OInsert b c))) (ODelete b c)))) by (apply vr_step; cbn; auto).
  apply canonical; auto. intros src r.
  change (fst (vis_delete (fst (vis_insert s b c)) b c)) with (fst (run_op (fst (run_op s (OInsert b c))) (ODelete b c))).
  rewrite step_exact by (auto; exact I).
  assert (FS : spec_fits (hidden_by s src) (OInsert b c)) by (destruct src; auto).
  rewrite (spec_op_ext src _ (spec_op src (hidden_by s src) (OInsert b c))) by (intros; now apply step_exact).
  cbn [spec_op]. unfold spec_delete, spec_insert. destruct (r <? b) eqn:E; auto.
  replace (r + c <? b) with false by lia. replace (r + c <? b + c) with false by lia.
  now replace (r + c - c) with r by lia.
Qed.

Lemma rows_hidden_spec : forall s a b src,
  length (rows_hidden s a b src) = N.to_nat (b + 1 - a) /\
  forall k, a + N.of_nat k <= b -> nth_error (rows_hidden s a b src) k = Some (is_row_hidden s (a + N.of_nat k) src).
Proof.
  intros s a b src. unfold rows_hidden. destruct (b <? a) eqn:E.
  - split; [cbn; lia|]. intros k H. lia.
  - split; [rewrite map_length, seq_length; lia|]. intros k H.
    rewrite nth_error_map. rewrite nth_error_nth' with (d := 0%nat) by (rewrite seq_length; lia).
    rewrite seq_nth by lia. reflexivity.
Qed.

Lemma delete_last : forall s b c, vis_reach s -> c <= U32MAX ->
  hidden_by (fst (vis_delete s 0 c)) Manual b = true -> b + c <= U32MAX.
Proof.
  intros s b c R U H. change (vis_delete s 0 c) with (run_op s (ODelete 0 c)) in H.
  rewrite step_exact in H by (auto; exact I). cbn [spec_op] in H. unfold spec_delete in H.
  replace (b <? 0) with false in H by lia. rewrite hidden_by_bit in H.
  destruct (reach_inv _ R Manual) as [_ B]. now apply B in H.
Qed.

Lemma saturates_gen : forall s c, vis_reach s -> c <= U32MAX -> U32MAX < 1 + c ->
  hidden_by s Manual 1 = true ->
  hidden_by (fst (vis_delete (fst (vis_insert s 0 c)) 0 c)) Manual 1 <> hidden_by s Manual 1.
Proof.
  intros s c R U L H. rewrite H. intros X.
  assert (R1 : vis_reach (fst (run_op s (OInsert 0 c)))) by (apply vr_step; [auto|split; [lia|auto]]).
  pose proof (delete_last _ _ _ R1 U X). lia.
Qed.

Lemma saturates_gen2 : forall s, vis_reach s -> is_row_hidden s 1 (Some Manual) = true ->
  exists s b c r, vis_reach s /\ b <= U32MAX /\ c <= U32MAX /\
    is_row_hidden (fst (vis_delete (fst (vis_insert s b c)) b c)) r (Some Manual)
    <> is_row_hidden s r (Some Manual).
Proof.
  intros s R H. exists s, 0, U32MAX, 1.
  split; [exact R|]. split; [apply N.le_0_l|]. split; [apply N.le_refl|].
  apply (saturates_gen s U32MAX R (N.le_refl _)); [reflexivity|exact H].
Qed.

Lemma insert_saturates : exists s b c r, vis_reach s /\ b <= U32MAX /\ c <= U32MAX /\
    is_row_hidden (fst (vis_delete (fst (vis_insert s b c)) b c)) r (Some Manual)
    <> is_row_hidden s r (Some Manual).
Proof.
  assert (R : vis_reach (mkVis [3] [] 1)).
  { change (mkVis [3] [] 1) with (fst (run_op vis_new (ORange 0 1 true Manual))).
    apply vr_step; [constructor|split; vm_compute; discriminate]. }
  exact (saturates_gen2 _ R eq_refl).
Qed.
