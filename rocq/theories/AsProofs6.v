(* Sheets: every call, and histories of calls. *)
From Coq Require Import List Bool NArith ZArith Lia.
From Coq Require Import ZifyN ZifyNat ZifyBool.
From Verif Require Import Base Maps OvModel OvSpec OvProofs OvProofs2 OvProofs3 OvProofs4 OvProofs5 AsModel AsSpec AsProofs AsProofs2 AsProofs3 AsProofs4 AsProofs5.
Import ListNotations.
Open Scope N_scope.

Section Plain.
Variable pl : bool.
Section Mem.
Variable mem : payload -> N.

(* ---- dropping computed values ---- *)
Lemma ok_clear : forall ch, ok_chunk pl ch -> ok_chunk pl (clear_comp ch) /\ c_len (clear_comp ch) = c_len ch /\
  forall o, cell_of (clear_comp ch) o = if o <? c_len ch then uncomputed (cell_of ch o) else cell_of ch o.
Proof.
  intros ch (A & B & C). destruct (cleared _ _ B) as (B1 & B2 & B3). split; [split; auto|]. split; auto. intros o.
  unfold cell_of, c_len, clear_comp. cbn [c_base c_user c_comp]. fold (c_len ch). now destruct (o <? c_len ch); rewrite ?B2, ?B3.
Qed.
Lemma ok_range : forall ch a, ok_chunk pl ch ->
  let ch' := Chunk (c_base ch) (c_fmt ch) (c_user ch) (fst (remove_range mem (c_comp ch) (N.min a (c_len ch)) (c_len ch))) in
  ok_chunk pl ch' /\ c_len ch' = c_len ch /\
  forall o, cell_of ch' o = if (a <=? o) && (o <? c_len ch) then uncomputed (cell_of ch o) else cell_of ch o.
Proof.
  intros ch a (A & B & C) ch'. destruct B as (B1 & B2 & B3).
  destruct (remove_range_spec mem (c_comp ch) _ (N.min a (c_len ch)) (c_len ch) B1) as (R & F).
  assert (G : forall i, ov_get (c_comp ch') i = if (N.min a (c_len ch) <=? i) && (i <? c_len ch) then None else ov_get (c_comp ch) i)
    by (intros i; unfold ch'; cbn [c_comp]; rewrite (repr_get _ _ i R); reflexivity).
  assert (GF : forall i, ov_get_format (c_comp ch') i = ov_get_format (c_comp ch) i) by (intros i; unfold ch', ov_get_format; cbn [c_comp]; now rewrite F).
  split; [|split; auto].
  - split; auto. split; auto. split; [now apply repr_self in R|]. split; [unfold no_general, ch'; cbn [c_comp]; now rewrite F|].
    intros i L. rewrite G, GF. change (c_len ch') with (c_len ch) in L. destruct (B3 i L). now replace ((N.min a (c_len ch) <=? i) && (i <? c_len ch)) with false by lia.
  - intros o. unfold cell_of. rewrite G, GF. change (c_len ch') with (c_len ch). change (c_user ch') with (c_user ch). change (c_base ch') with (c_base ch).
    destruct (o <? c_len ch) eqn:E.
    + rewrite !andb_true_r. destruct (a <=? o) eqn:E2.
      * now replace (N.min a (c_len ch) <=? o) with true by lia.
      * now replace (N.min a (c_len ch) <=? o) with false by lia.
    + now rewrite !andb_false_r.
Qed.
Lemma start_nth : forall s lens i n, layout s lens -> nthN lens i = Some n ->
  nthN (s_starts s) i = Some (total (firstn (N.to_nat i) lens)) /\
  match nthN (s_starts s) (i + 1) with Some e => e | None => s_rows s end = total (firstn (N.to_nat i) lens) + n.
Proof.
  intros s lens i n (A & B & P) G. pose proof (nthN_some _ _ _ _ G) as H. rewrite A, B. rewrite nthN_sums by auto. split; auto.
  destruct (N.lt_ge_cases (i + 1) (lenN lens)) as [L | L].
  - rewrite nthN_sums by auto. rewrite (total_firstn_S _ _ _ G). lia.
  - replace (nthN (sums 0 lens) (i + 1)) with (@None N) by (symmetry; apply nthN_none; now rewrite lenN_sums).
    rewrite <- (firstn_total_all lens (i + 1)) by lia. apply (total_firstn_S _ _ _ G).
Qed.
Lemma clear_from_spec : forall s lens start i n ch, layout s lens -> nthN lens i = Some n -> n <= c_len ch -> ok_chunk pl ch ->
  ok_chunk pl (clear_from mem s start i ch) /\ c_len (clear_from mem s start i ch) = c_len ch /\
  forall o, o < n -> cell_of (clear_from mem s start i ch) o =
    if start <=? total (firstn (N.to_nat i) lens) + o then uncomputed (cell_of ch o) else cell_of ch o.
Proof.
  intros s lens start i n ch LY EN LE OK. destruct (start_nth s lens i n LY EN) as [S1 S2]. unfold clear_from. rewrite S1, S2.
  set (st := total (firstn (N.to_nat i) lens)). replace (N.min (st + n) (st + c_len ch)) with (st + n) by lia.
  destruct (st + n <=? start) eqn:E1.
  - split; auto. split; auto. intros o H. now replace (start <=? st + o) with false by lia.
  - destruct (start <=? st) eqn:E2.
    + destruct (ok_clear ch OK) as (A & B & C). split; auto. split; auto. intros o H. change (cell_of (clear_comp ch) o = if start <=? st + o then uncomputed (cell_of ch o) else cell_of ch o).
      rewrite C. replace (o <? c_len ch) with true by lia. now replace (start <=? st + o) with true by lia.
    + destruct (ok_range ch (start - st) OK) as (A & B & C). cbv zeta in A, B, C. split; auto. split; auto. intros o H. rewrite C.
      replace (o <? c_len ch) with true by lia. rewrite andb_true_r. now replace (start - st <=? o) with (start <=? st + o) by lia.
Qed.
(* a change of every chunk of some columns that keeps the layout *)
Lemma map_cols : forall s lens cols' (f : N -> chunk -> chunk) (g : N -> cell -> cell) (sel : N -> bool),
  inv pl s lens -> (forall r, g r blank = blank) ->
  (forall i n ch, nthN lens i = Some n -> n <= c_len ch -> ok_chunk pl ch -> ok_chunk pl (f i ch) /\ c_len (f i ch) = c_len ch /\
     forall o, o < n -> cell_of (f i ch) o = g (total (firstn (N.to_nat i) lens) + o) (cell_of ch o)) ->
  lenN cols' = lenN (s_cols s) ->
  (forall c k, nthN (s_cols s) c = Some k -> exists k', nthN cols' c = Some k' /\ lenN (k_dense k') = lenN (k_dense k) /\
     forall i, chunk_at k' i = if sel c then option_map (f i) (chunk_at k i) else chunk_at k i) ->
  inv pl (set_cols s cols') lens /\
  forall r c, layer (set_cols s cols') lens r c = if sel c then g r (layer s lens r c) else layer s lens r c.
Proof.
  intros s lens cols' f g sel I GB HF HL HC. pose proof I as (LY & (RB & BD) & CO). split.
  - split; [exact LY|]. split; [auto|]. intros k' IN. cbn [set_cols s_cols] in IN. apply In_nth_error in IN. destruct IN as [j G].
    assert (G' : nthN cols' (N.of_nat j) = Some k') by (unfold nthN; now rewrite Nnat.Nat2N.id).
    pose proof (nthN_some _ _ _ _ G') as L. destruct (nthN_lt _ (s_cols s) (N.of_nat j)) as [k GK]; [lia|].
    destruct (HC _ _ GK) as (k2 & E2 & D & CA). rewrite G' in E2. injection E2 as <-. destruct (inv_col _ _ _ _ _ I GK) as [DK CK].
    split; [lia|]. intros i ch. rewrite CA, D. destruct (sel (N.of_nat j)); [|apply CK]. destruct (chunk_at k i) as [ch0|] eqn:CH; [|discriminate].
    cbn. intros X. injection X as <-. destruct (CK _ _ CH) as (n & EN & OK & LE & EX). destruct (HF i n ch0 EN LE OK) as (A & B & _).
    exists n. rewrite B. auto.
  - intros r c. unfold layer. cbn [set_cols s_cols]. destruct (nthN (s_cols s) c) as [k|] eqn:G.
    + destruct (HC _ _ G) as (k' & -> & D & CA). destruct (inv_col _ _ _ _ _ I G) as [DK CK]. unfold at_row.
      destruct (find_row 0 lens r) as [[i off]|] eqn:F; [|now destruct (sel c); rewrite ?GB].
      apply find_row_some in F. destruct F as (_ & n & EN & O & T). replace (i - 0) with i in * by lia. rewrite CA. destruct (sel c); auto.
      destruct (chunk_at k i) as [ch|] eqn:CH; cbn; [|now rewrite GB]. destruct (CK _ _ CH) as (m & EN' & OK & LE & _).
      rewrite EN in EN'. injection EN' as <-. destruct (HF i n ch EN LE OK) as (_ & _ & C). rewrite C by auto. now rewrite T.
    + replace (nthN cols' c) with (@None col); [now destruct (sel c); rewrite ?GB|]. symmetry. apply nthN_none. apply nthN_none in G. lia.
Qed.
Lemma clear_rows_spec : forall s lens start, inv pl s lens ->
  inv pl (clear_computed_after_row mem s start) lens /\
  forall r c, layer (clear_computed_after_row mem s start) lens r c = if start <=? r then uncomputed (layer s lens r c) else layer s lens r c.
Proof.
  intros s lens start I. pose proof I as (LY & _ & _). unfold clear_computed_after_row. destruct (s_rows s <=? start) eqn:E.
  { split; auto. intros r c. destruct (start <=? r) eqn:E2; auto. rewrite (layer_out s lens) by (auto; lia). reflexivity. }
  destruct (map_cols s lens (map (fun k => Col (map (fun '(i, ch) => clear_from mem s start i ch) (enumerate (k_dense k)))
        (map (fun '(i, ch) => (i, clear_from mem s start i ch)) (k_sparse k))) (s_cols s)) (clear_from mem s start)
        (fun r x => if start <=? r then uncomputed x else x) (fun _ => true) I) as [A B].
  - intros r. now destruct (start <=? r).
  - intros i n ch EN LE OK. apply clear_from_spec; auto.
  - apply lenN_map.
  - intros c k G. rewrite nthN_map, G. cbn [option_map]. eexists. split; [reflexivity|]. split.
    + cbn [k_dense]. unfold enumerate. now rewrite lenN_map, lenN_enum.
    + intros i. apply (chunk_at_map (clear_from mem s start)).
  - auto.
Qed.
Lemma chunk_at_map1 : forall f k j, chunk_at (Col (map f (k_dense k)) (map (fun '(i, ch) => (i, f ch)) (k_sparse k))) j = option_map f (chunk_at k j).
Proof.
  intros f k j. unfold chunk_at. cbn [k_dense k_sparse]. rewrite lenN_map, nthN_map. destruct (j <? lenN (k_dense k)); auto.
  induction (k_sparse k) as [|[i ch] l IH]; auto. cbn [map mget]. destruct (j =? i); auto.
Qed.
Lemma clear_cols_spec : forall s lens start, inv pl s lens ->
  inv pl (clear_computed_after_col s start) lens /\
  forall r c, layer (clear_computed_after_col s start) lens r c = if start <=? c then uncomputed (layer s lens r c) else layer s lens r c.
Proof.
  intros s lens start I. unfold clear_computed_after_col.
  apply (map_cols s lens _ (fun _ => clear_comp) (fun _ => uncomputed) (fun c => start <=? c) I).
  - reflexivity.
  - intros i n ch EN LE OK. destruct (ok_clear ch OK) as (A & B & C). split; auto. split; auto. intros o H. rewrite C.
    now replace (o <? c_len ch) with true by lia.
  - rewrite lenN_app, lenN_map, lenN_firstn, lenN_skipn. lia.
  - intros c k G. pose proof (nthN_some _ _ _ _ G) as L. rewrite nthN_app, nthN_firstn, nthN_map, nthN_skipn, lenN_firstn. destruct (start <=? c) eqn:E.
    + replace (c <? N.min start (lenN (s_cols s))) with false by lia. replace (start + (c - N.min start (lenN (s_cols s)))) with c by lia.
      rewrite G. cbn [option_map]. eexists. split; [reflexivity|]. split; [cbn [k_dense]; apply lenN_map|]. intros i. apply chunk_at_map1.
    + replace (c <? N.min start (lenN (s_cols s))) with true by lia. replace (c <? start) with true by lia. exists k. auto.
Qed.

(* ---- one call ---- *)
Lemma at_cell_ext : forall r c f g g', same g g' -> same (at_cell r c f g) (at_cell r c f g').
Proof. intros r c f g g' H i j. unfold at_cell. now rewrite H. Qed.
Lemma on_rows_ext : forall c a z f g g', same g g' -> same (on_rows c a z f g) (on_rows c a z f g').
Proof. intros c a z f g g' H i j. unfold on_rows. now rewrite H. Qed.
Lemma change_at_dims : forall s c i f, s_rows (change_at s c i f) = s_rows s /\ lenN (s_cols (change_at s c i f)) = lenN (s_cols s) /\ s_crows (change_at s c i f) = s_crows s.
Proof. intros. unfold change_at. cbn. now rewrite lenN_update. Qed.
Lemma ensure_dims : forall s c i f, s_rows (ensure_chunk s c i f) = s_rows s /\ lenN (s_cols (ensure_chunk s c i f)) = lenN (s_cols s) /\ s_crows (ensure_chunk s c i f) = s_crows s.
Proof. intros. unfold ensure_chunk. destruct (bound s i); auto. cbn. now rewrite lenN_update. Qed.
(* reaching a cell and changing it *)
Lemma write_at : forall s lens r c g, inv pl s lens -> r + 1 <= U32_MAX ->
  exists lens' i off, chunk_of_row (reach_cell s r c) r = Some (Some (i, off)) /\
    forall f, writes pl off f g ->
      inv pl (ensure_chunk (reach_cell s r c) c i f) lens' /\
      same (layer (ensure_chunk (reach_cell s r c) c i f) lens') (at_cell r c g (layer s lens)) /\
      s_rows (ensure_chunk (reach_cell s r c) c i f) = N.max (s_rows s) (r + 1) /\
      lenN (s_cols (ensure_chunk (reach_cell s r c) c i f)) = N.max (lenN (s_cols s)) (c + 1) /\
      s_crows (ensure_chunk (reach_cell s r c) c i f) = s_crows s.
Proof.
  intros s lens r c g I HR. destruct (reach_spec pl s lens r c I HR) as (lens' & I' & L & R1 & R2 & R3).
  destruct (reach_row pl _ lens' r I') as (i & off & F & C); [lia|]. exists lens', i, off. split; auto. intros f W.
  destruct (ensure_layer pl (reach_cell s r c) lens' c r i off f g I') as [A B]; auto; [lia|].
  destruct (ensure_dims (reach_cell s r c) c i f) as (D1 & D2 & D3). rewrite D1, D2, D3. split; auto. split; auto.
  eapply same_trans; [exact B|]. now apply at_cell_ext.
Qed.
Lemma format_reach : forall s lens r c, inv pl s lens ->
  (let n := lenN (s_cols s) in let s := if n <=? c then insert_cols s n (c + 1 - n) else s in if s_rows s <=? r then ensure_rows s (r + 1) else s) = reach_cell s r c.
Proof.
  intros s lens r c I. unfold reach_cell. cbv zeta.
  destruct (lenN (s_cols s) <=? c) eqn:E.
  - destruct (insert_cols_spec pl s lens (lenN (s_cols s)) (c + 1 - lenN (s_cols s)) I) as (_ & _ & _ & D & _).
    destruct (s_cols (insert_cols s (lenN (s_cols s)) (c + 1 - lenN (s_cols s)))); auto. change (lenN (@nil col)) with 0 in D. lia.
  - destruct (s_cols s) eqn:EC; auto. change (lenN (@nil col)) with 0 in E. lia.
Qed.
Theorem step_spec : forall s lens p, inv pl s lens -> calm (s_crows s) p (s_rows s, lenN (s_cols s)) ->
  exists s' lens', sstep mem s p = Some s' /\ inv pl s' lens' /\ gstep p (layer s lens) (layer s' lens') /\
    (s_rows s', lenN (s_cols s')) = dims_step p (s_rows s, lenN (s_cols s)) /\ s_crows s' = s_crows s.
Proof.
  intros s lens p I [H1 H2]. pose proof I as (LY & (RB & BD) & CO).
  assert (NE : s_rows s = 0 \/ 0 < lenN (s_cols s) -> s_rows s = 0 \/ s_cols s <> []).
  { intros [H | H]; auto. right. intros E. rewrite E in H. change (lenN (@nil col)) with 0 in H. lia. }
  destruct p as [r c v f|r c|r c v|r c f|c i t d|c i|b n|b n|b n|b n|r|c]; cbn [sstep gstep dims_step] in *; cbn [fst] in H2.
  - unfold write_value. destruct (write_at s lens r c (edited v f) I ltac:(lia)) as (lens' & i & off & C & K). rewrite C.
    destruct (K _ (writes_value pl mem off v f)) as (I' & L & D1 & D2 & D3).
    set (s1 := ensure_chunk _ _ _ _) in *. destruct (compact_layer pl s1 lens' c i (compact_user 1024 50) user_stored I') as [I2 (a & z & L2)].
    { intros ch OK. now apply compact_user_spec. }
    destruct (change_at_dims s1 c i (compact_user 1024 50)) as (E1 & E2 & E3).
    eexists. exists lens'. split; [reflexivity|]. split; [exact I2|]. rewrite E1, E2, E3, D1, D2, D3. split; auto. exists a, z.
    eapply same_trans; [exact L2|]. now apply on_rows_ext.
  - unfold clear_user. destruct ((s_rows s <=? r) || (lenN (s_cols s) <=? c)) eqn:E.
    + exists s, lens. split; auto. split; auto. split; auto. intros i j. unfold at_cell. destruct ((i =? r) && (j =? c)) eqn:E2; auto.
      replace (layer s lens i j) with blank; auto. symmetry. apply orb_true_iff in E. destruct E as [E | E].
      * apply layer_out; auto. lia.
      * unfold layer. replace (nthN (s_cols s) j) with (@None col); auto. symmetry. apply nthN_none. lia.
    + destruct (reach_row pl s lens r I) as (i & off & F & C); [lia|]. rewrite C.
      destruct (change_layer pl s lens c r i off _ unedited I F eq_refl (writes_clear pl mem off)) as [A B].
      match goal with |- context [change_at s c i ?f] => destruct (change_at_dims s c i f) as (E1 & E2 & E3) end.
      eexists. exists lens. split; [reflexivity|]. split; [exact A|]. rewrite E1, E2, E3. auto.
  - unfold write_computed. destruct (write_at s lens r c (computed v) I ltac:(lia)) as (lens' & i & off & C & K). rewrite C.
    destruct (K _ (writes_computed pl mem off v)) as (I' & L & D1 & D2 & D3).
    eexists. exists lens'. split; [reflexivity|]. split; [exact I'|]. split; [exact L|]. rewrite D1, D2, D3. auto.
  - unfold write_format. pose proof (format_reach s lens r c I) as FR. cbv zeta in FR. cbv zeta. rewrite FR.
    destruct (write_at s lens r c (reformatted f) I ltac:(lia)) as (lens' & i & off & C & K). rewrite C.
    destruct (K _ (writes_format pl off f)) as (I' & L & D1 & D2 & D3).
    eexists. exists lens'. split; [reflexivity|]. split; [exact I'|]. split; [exact L|]. rewrite D1, D2, D3. auto.
  - destruct (compact_layer pl s lens c i (compact_user t d) user_stored I) as [I2 X].
    { intros ch OK. now apply compact_user_spec. }
    destruct (change_at_dims s c i (compact_user t d)) as (E1 & E2 & E3).
    eexists. exists lens. split; [reflexivity|]. split; [exact I2|]. rewrite E1, E2, E3. auto.
  - destruct (compact_layer pl s lens c i compact_comp computed_stored I) as [I2 X].
    { intros ch OK. now apply compact_comp_spec. }
    destruct (change_at_dims s c i compact_comp) as (E1 & E2 & E3).
    eexists. exists lens. split; [reflexivity|]. split; [exact I2|]. rewrite E1, E2, E3. auto.
  - destruct H1 as [HN HC]. destruct (insert_rows_spec pl mem s lens b n I) as (s' & lens' & E & I' & L & R1 & R2 & R3); auto; [lia|].
    exists s', lens'. rewrite R1, R2. auto.
  - destruct (delete_rows_spec pl mem s lens b n I (NE H1)) as (s' & lens' & E & I' & L & R1 & R2 & R3).
    exists s', lens'. rewrite R1, R2. auto.
  - destruct (insert_cols_spec pl s lens b n I) as (I' & L & R1 & R2 & R3). exists (insert_cols s b n), lens. rewrite R1, R2. auto.
  - destruct (delete_cols_spec pl s lens b n I) as (I' & L & R1 & R2 & R3). exists (delete_cols s b n), lens. rewrite R1, R2. auto.
  - destruct (clear_rows_spec s lens r I) as [I' L]. exists (clear_computed_after_row mem s r), lens. split; auto. split; auto. split; auto.
    unfold clear_computed_after_row. destruct (s_rows s <=? r); auto. cbn [set_cols s_rows s_cols s_crows]. now rewrite lenN_map.
  - destruct (clear_cols_spec s lens c I) as [I' L]. exists (clear_computed_after_col s c), lens. split; auto. split; auto. split; auto.
    unfold clear_computed_after_col. cbn [set_cols s_rows s_cols s_crows]. rewrite lenN_app, lenN_map, lenN_firstn, lenN_skipn. split; [f_equal; lia|auto].
Qed.
Theorem run_spec : forall h s lens, inv pl s lens -> calm_all (s_crows s) h (s_rows s, lenN (s_cols s)) ->
  exists s' lens', srun mem s h = Some s' /\ inv pl s' lens' /\ gruns h (layer s lens) (layer s' lens') /\
    (s_rows s', lenN (s_cols s')) = fold_left (fun d p => dims_step p d) h (s_rows s, lenN (s_cols s)).
Proof.
  induction h as [|p h IH]; intros s lens I H; cbn [srun fold_left].
  - exists s, lens. split; auto. split; auto. split; auto. constructor. intros r c. reflexivity.
  - destruct H as [H1 H2]. destruct (step_spec s lens p I H1) as (s1 & lens1 & -> & I1 & G & D & C). cbn [bind].
    rewrite <- D, <- C in H2. destruct (IH s1 lens1 I1 H2) as (s' & lens' & E & I' & GR & D').
    exists s', lens'. split; auto. split; auto. split; [econstructor; eauto|]. now rewrite <- D.
Qed.
End Mem.

Lemma inv_new : forall crows, inv pl (new_sheet crows) [].
Proof.
  intros crows. split; [split; [reflexivity|split; [reflexivity|intros n []]]|]. split; [split; [cbn; unfold U32_MAX; lia|intros n []]|]. intros k [].
Qed.
Lemma layer_new : forall crows, same (layer (new_sheet crows) []) (fun _ _ => blank).
Proof. intros crows r c. unfold layer, nthN. cbn. now destruct (N.to_nat c). Qed.
Lemma gstep_ext : forall p g1 g2 g', same g1 g2 -> gstep p g1 g' -> gstep p g2 g'.
Proof.
  intros p g1 g2 g' S0 H. destruct p; cbn [gstep] in *.
  - destruct H as (a & z & H). exists a, z. eapply same_trans; [exact H|]. apply on_rows_ext. now apply at_cell_ext.
  - eapply same_trans; [exact H|]. now apply at_cell_ext.
  - eapply same_trans; [exact H|]. now apply at_cell_ext.
  - eapply same_trans; [exact H|]. now apply at_cell_ext.
  - destruct H as (a & z & H). exists a, z. eapply same_trans; [exact H|]. now apply on_rows_ext.
  - destruct H as (a & z & H). exists a, z. eapply same_trans; [exact H|]. now apply on_rows_ext.
  - intros i j. rewrite H. unfold rows_in. now rewrite !S0.
  - intros i j. rewrite H. unfold rows_out. now rewrite !S0.
  - intros i j. rewrite H. unfold cols_in. now rewrite !S0.
  - intros i j. rewrite H. unfold cols_out. now rewrite !S0.
  - intros i j. rewrite H. now rewrite !S0.
  - intros i j. rewrite H. now rewrite !S0.
Qed.
Lemma gruns_ext : forall h g1 g2 g', same g1 g2 -> gruns h g1 g' -> gruns h g2 g'.
Proof.
  intros h g1 g2 g' S0 H. destruct H as [g g' H|p h g ga gb H K].
  - constructor. intros r c. now rewrite <- S0.
  - econstructor; [|exact K]. eapply gstep_ext; eauto.
Qed.
End Plain.
Lemma inv_no_runs : forall s lens, inv true s lens -> no_runs s.
Proof.
  intros s lens (_ & _ & CO) k i ch IN CH. destruct (CO k IN) as [_ CK]. destruct (CK _ _ CH) as (n & _ & (_ & _ & _ & F) & _). auto.
Qed.
Theorem sheet_history : forall mem crows h, calm_all crows h (0, 0) ->
  exists s g, srun mem (new_sheet crows) h = Some s /\ gruns h (fun _ _ => blank) g /\
    (s_rows s, lenN (s_cols s)) = fold_left (fun d p => dims_step p d) h (0, 0) /\
    (forall r c, get_cell s r c = Some (shown (g r c))) /\ (forall r c, format_id s r c = Some (shown_format (g r c))).
Proof.
  intros mem crows h H. destruct (run_spec true mem h (new_sheet crows) [] (inv_new true crows) H) as (s & lens & E & I & G & D).
  exists s, (layer s lens). split; auto. split; [eapply gruns_ext; [|exact G]; apply layer_new|]. split; auto. split.
  - intros r c. now apply get_cell_layer with true.
  - intros r c. apply format_layer with true; auto. now apply inv_no_runs with lens.
Qed.
