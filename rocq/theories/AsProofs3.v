(* Sheets: growing rows and adding and removing columns. *)
From Coq Require Import List Bool NArith ZArith Lia.
From Coq Require Import ZifyN ZifyNat ZifyBool.
From Verif Require Import Base Maps OvModel OvSpec OvProofs OvProofs2 OvProofs3 OvProofs4 OvProofs5 AsModel AsSpec AsProofs AsProofs2.
Import ListNotations.
Open Scope N_scope.

(* ---- the layout after growing ---- *)
Fixpoint cut (fuel : nat) (step m : N) : list N :=
  match fuel with
  | O => [m]
  | S fuel => if m <=? step then [m] else step :: cut fuel step (m - step)
  end.
Lemma sums_app : forall a b cur, sums cur (a ++ b) = sums cur a ++ sums (cur + total a) b.
Proof.
  induction a as [|x a IH]; intros b cur; cbn [sums app].
  - f_equal. cbn. lia.
  - rewrite IH. f_equal. f_equal. cbn [total fold_right]. f_equal. unfold total. lia.
Qed.
Lemma sums_cut : forall fuel step cur m, sums cur (cut fuel step m) = cur :: more_starts fuel step (cur + step) (cur + m).
Proof.
  induction fuel as [|fuel IH]; intros step cur m; cbn [cut more_starts]; auto. destruct (m <=? step) eqn:E.
  - now replace (cur + step <? cur + m) with false by lia.
  - replace (cur + step <? cur + m) with true by lia. cbn [sums]. f_equal. rewrite IH. f_equal. f_equal; lia.
Qed.
Lemma total_cut : forall fuel step m, total (cut fuel step m) = m.
Proof.
  induction fuel as [|fuel IH]; intros step m; cbn [cut].
  - cbn. lia.
  - destruct (m <=? step) eqn:E; [cbn; lia|]. cbn [total fold_right]. fold (total (cut fuel step (m - step))). rewrite IH. lia.
Qed.
Lemma in_cut : forall fuel step m n, 0 < step -> 0 < m -> In n (cut fuel step m) -> 0 < n /\ (m <= step * (N.of_nat fuel + 1) -> n <= step).
Proof.
  induction fuel as [|fuel IH]; intros step m n S0 M0 I; cbn [cut] in I.
  - destruct I as [<- | []]. split; intros; lia.
  - destruct (m <=? step) eqn:E.
    + destruct I as [<- | []]. split; intros; lia.
    + destruct I as [<- | I]; [split; lia|]. apply IH in I; lia.
Qed.
Lemma cut_head : forall fuel step m, exists t, cut fuel step m = (if m <=? step then m else match fuel with O => m | _ => step end) :: t.
Proof.
  intros [|fuel] step m; cbn [cut].
  - destruct (m <=? step); eauto.
  - destruct (m <=? step); eauto.
Qed.

(* lens' has the lengths of lens, the last of them possibly larger, and then others *)
Definition grown (lens lens' : list N) : Prop :=
  lenN lens <= lenN lens' /\
  forall i n, nthN lens i = Some n -> exists n', nthN lens' i = Some n' /\ n <= n' /\ (i + 1 < lenN lens -> n' = n).
Lemma grown_refl : forall l, grown l l.
Proof. intros l. split; [lia|]. intros i n G. exists n. split; auto. split; [lia|auto]. Qed.
Lemma grown_firstn : forall lens lens' i, grown lens lens' -> i < lenN lens -> firstn (N.to_nat i) lens' = firstn (N.to_nat i) lens.
Proof.
  intros lens lens' i [L G] H. apply nthN_ext. intros j. unfold nthN. rewrite !nth_error_firstn'.
  destruct (Nat.ltb (N.to_nat j) (N.to_nat i)) eqn:E; auto. apply Nat.ltb_lt in E. change (nthN lens' j = nthN lens j).
  destruct (nthN_lt _ lens j) as [n EN]; [lia|]. destruct (G _ _ EN) as (n' & EN' & _ & Q). rewrite EN, EN'. f_equal. apply Q. lia.
Qed.
Lemma grown_find : forall lens lens' r i off, grown lens lens' -> positive lens' -> find_row 0 lens r = Some (i, off) -> find_row 0 lens' r = Some (i, off).
Proof.
  intros lens lens' r i off GR P F. apply find_row_some in F. destruct F as (_ & n & EN & O & T). replace (i - 0) with i in * by lia.
  pose proof (nthN_some _ _ _ _ EN) as H. rewrite <- (grown_firstn _ _ _ GR H) in T. destruct GR as [L G]. destruct (G _ _ EN) as (n' & EN' & LE & _).
  pose proof (find_row_at lens' 0 i n' off P EN' ltac:(lia)) as X. rewrite T in X. exact X.
Qed.
Lemma grown_find_none : forall lens lens' r i off, grown lens lens' -> positive lens -> find_row 0 lens r = None -> find_row 0 lens' r = Some (i, off) ->
  lenN lens <= i \/ exists n, nthN lens i = Some n /\ n <= off /\ i + 1 = lenN lens.
Proof.
  intros lens lens' r i off GR P F F'. destruct (N.lt_ge_cases i (lenN lens)) as [H | H]; auto. right.
  destruct (nthN_lt _ _ _ H) as [n EN]. exists n. split; auto. apply find_row_some in F'. destruct F' as (_ & n' & EN' & O & T).
  replace (i - 0) with i in * by lia. rewrite (grown_firstn _ _ _ GR H) in T.
  destruct (N.lt_ge_cases off n) as [Q | Q].
  - pose proof (find_row_at lens 0 i n off P EN Q) as X. rewrite T in X. congruence.
  - split; auto. destruct GR as [L G]. destruct (G _ _ EN) as (n2 & EN2 & LE & EX). rewrite EN' in EN2. injection EN2 as <-.
    destruct (N.lt_ge_cases (i + 1) (lenN lens)) as [Q2 | Q2]; [|lia]. specialize (EX Q2). lia.
Qed.
Lemma last_app1 : forall A (a : list A) x d, last (a ++ [x]) d = x.
Proof. intros. apply last_last. Qed.
Lemma ensure_layout : forall s lens target, layout s lens -> (forall n, In n lens -> n <= N.max (s_crows s) 1) -> s_rows s < target ->
  exists lens', (match s_starts s with [] => [0] | l => l end)
      ++ more_starts (N.to_nat (target / N.max (s_crows s) 1 + 1)) (N.max (s_crows s) 1)
           (last (match s_starts s with [] => [0] | l => l end) 0 + N.max (s_crows s) 1) target = sums 0 lens' /\
    total lens' = target /\ positive lens' /\ (forall n, In n lens' -> n <= N.max (s_crows s) 1) /\ grown lens lens'.
Proof.
  intros s lens target (A & B & P) BD H. set (step := N.max (s_crows s) 1) in *. set (fuel := N.to_nat (target / step + 1)).
  assert (S0 : 0 < step) by (unfold step; lia). clearbody step.
  assert (FB : target <= step * (N.of_nat fuel + 1)).
  { unfold fuel. rewrite N2Nat.id. pose proof (N.div_mod target step ltac:(lia)) as DM. pose proof (N.mod_lt target step ltac:(lia)). nia. }
  clearbody fuel. rewrite A. rewrite B in H.
  destruct lens as [|n0 t0].
  - exists (cut fuel step target). cbn [sums last]. rewrite sums_cut. cbn in H. split; auto. split; [apply total_cut|].
    split; [intros n I; now apply in_cut in I|]. split; [intros n I; apply in_cut in I; auto; now apply I|].
    split; [unfold lenN; cbn; lia|]. intros i n G. unfold nthN in G. destruct (N.to_nat i); discriminate.
  - destruct (@exists_last _ (n0 :: t0)) as (init & l & EQ); [discriminate|]. rewrite EQ in *. clear EQ n0 t0.
    rewrite total_app in H. cbn in H. replace (total init + (l + 0)) with (total init + l) in H by lia.
    assert (L0 : 0 < l) by (apply P; apply in_or_app; right; now left).
    assert (LS : l <= step) by (apply BD; apply in_or_app; right; now left).
    assert (NE : match sums 0 (init ++ [l]) with [] => [0] | x => x end = sums 0 init ++ [total init]).
    { rewrite sums_app. cbn [sums]. destruct (sums 0 init); auto. }
    rewrite NE, last_app1, <- app_assoc. cbn [app]. exists (init ++ cut fuel step (target - total init)).
    split; [rewrite sums_app, sums_cut; f_equal; f_equal; f_equal; lia|].
    split; [rewrite total_app, total_cut; lia|].
    assert (IC : forall n, In n (cut fuel step (target - total init)) -> 0 < n /\ n <= step).
    { intros n I. apply in_cut in I; lia. }
    split. { intros n I. apply in_app_or in I. destruct I as [I | I]; [apply P; apply in_or_app; auto|now apply IC]. }
    split. { intros n I. apply in_app_or in I. destruct I as [I | I]; [apply BD; apply in_or_app; auto|now apply IC]. }
    destruct (cut_head fuel step (target - total init)) as [t ET]. split.
    + rewrite !lenN_app, ET, !lenN_cons. change (lenN (@nil N)) with 0. lia.
    + intros i n G. rewrite nthN_app in *. rewrite lenN_app. change (lenN [l]) with 1. destruct (i <? lenN init) eqn:E.
      * exists n. split; auto. split; [lia|auto].
      * rewrite nthN_cons in G. destruct (i - lenN init =? 0) eqn:E2; [|unfold nthN in G; destruct (N.to_nat _); discriminate].
        injection G as <-. rewrite ET, nthN_cons, E2. eexists. split; [reflexivity|]. split; [|lia].
        destruct (target - total init <=? step); [lia|]. destruct fuel; lia.
Qed.

Lemma chunk_at_map : forall f k j,
  chunk_at (Col (map (fun '(i, ch) => f i ch) (enumerate (k_dense k))) (map (fun '(i, ch) => (i, f i ch)) (k_sparse k))) j
  = option_map (f j) (chunk_at k j).
Proof.
  intros f k j. unfold chunk_at. cbn [k_dense k_sparse]. unfold enumerate. rewrite lenN_map, lenN_enum, nthN_map, nthN_enum.
  destruct (j <? lenN (k_dense k)) eqn:E.
  - destruct (nthN (k_dense k) j); cbn; auto.
  - induction (k_sparse k) as [|[i ch] l IH]; auto. cbn [map mget]. destruct (j =? i) eqn:EJ; auto.
    replace i with j by lia. reflexivity.
Qed.

Section Plain.
Variable pl : bool.
Lemma ensure_rows_spec : forall s lens target, inv pl s lens -> target <= U32_MAX ->
  exists lens', inv pl (ensure_rows s target) lens' /\ same (layer (ensure_rows s target) lens') (layer s lens) /\
    s_rows (ensure_rows s target) = N.max (s_rows s) target /\ lenN (s_cols (ensure_rows s target)) = lenN (s_cols s) /\
    s_crows (ensure_rows s target) = s_crows s.
Proof.
  intros s lens target I HT. pose proof I as (LY & (RB & BD) & CO). unfold ensure_rows. destruct (target <=? s_rows s) eqn:E.
  { exists lens. split; auto. split; [intros r c; reflexivity|]. split; [lia|auto]. }
  destruct (ensure_layout s lens target LY BD) as (lens' & ES & ET & P' & BD' & GR); [lia|].
  cbv zeta. rewrite ES. set (s' := Sheet (s_cols s) target (sums 0 lens') (s_crows s)).
  exists lens'. pose proof LY as (A & B & P).
  assert (LY' : layout s' lens') by (split; [reflexivity|split; auto]).
  assert (CA : forall k j, chunk_at (grow_col s' k) j = option_map (grow_at s' j) (chunk_at k j)) by (intros k j; apply (chunk_at_map (grow_at s'))).
  assert (GA : forall j n' ch, nthN lens' j = Some n' -> grow_at s' j ch = grow_len_to n' ch).
  { intros j n' ch H. unfold grow_at. now rewrite (bound_nth s' lens' j LY'), H. }
  split; [|split; [|split; [cbn; lia|split; [cbn [set_cols s_cols]; apply lenN_map|reflexivity]]]].
  - split; [exact LY'|]. split; [split; [exact HT|exact BD']|]. intros k' IN. cbn [set_cols s_cols] in IN. apply in_map_iff in IN.
    destruct IN as (k & <- & IN). destruct (CO k IN) as [D CK]. pose proof GR as [GL GG].
    assert (DL : lenN (k_dense (grow_col s' k)) = lenN (k_dense k)) by (unfold grow_col; cbn [k_dense]; unfold enumerate; now rewrite lenN_map, lenN_enum).
    split; [rewrite DL; lia|]. intros i ch. rewrite CA, DL. destruct (chunk_at k i) as [ch0|] eqn:CH; [|discriminate].
    cbn [option_map]. intros X. injection X as <-. destruct (CK _ _ CH) as (n & EN & OK & LE & EX).
    destruct (GG _ _ EN) as (n' & EN' & LE' & EQ). exists n'. rewrite (GA _ _ _ EN'), c_len_grow.
    assert (NB : n' <= U32_MAX).
    { rewrite <- (firstn_skipn (N.to_nat (i + 1)) lens') in ET. rewrite total_app, (total_firstn_S _ _ _ EN') in ET. lia. }
    split; auto. split; [now apply ok_grow|]. split; [lia|]. intros Q. pose proof (nthN_some _ _ _ _ EN).
    assert (Q' : i + 1 = lenN lens \/ lenN (k_dense k) = lenN lens) by lia. specialize (EX Q'). lia.
  - intros r c. unfold layer. cbn [set_cols s_cols s']. rewrite nthN_map. destruct (nthN (s_cols s) c) as [k|] eqn:G; auto. cbn [option_map].
    destruct (inv_col _ _ _ _ _ I G) as [D CK]. unfold at_row. destruct (find_row 0 lens r) as [[i off]|] eqn:F.
    + rewrite (grown_find _ _ _ _ _ GR P' F), CA. destruct (chunk_at k i) as [ch|] eqn:CH; auto. cbn [option_map opt_cell].
      destruct (CK _ _ CH) as (n & EN & OK & _). destruct GR as [GL GG]. destruct (GG _ _ EN) as (n' & EN' & _).
      rewrite (GA _ _ _ EN'). now apply cell_grow with pl.
    + destruct (find_row 0 lens' r) as [[i off]|] eqn:F'; auto. rewrite CA. destruct (chunk_at k i) as [ch|] eqn:CH; auto.
      cbn [option_map opt_cell]. destruct (CK _ _ CH) as (n & EN & OK & LE & EX).
      destruct (grown_find_none _ _ _ _ _ GR P F F') as [Q | (m & EN2 & Q1 & Q2)].
      * apply nthN_some in EN. lia.
      * rewrite EN in EN2. injection EN2 as <-. destruct GR as [GL GG]. destruct (GG _ _ EN) as (n' & EN' & _).
        rewrite (GA _ _ _ EN'). rewrite cell_grow with (pl := pl) by auto. unfold cell_of. rewrite EX by auto.
        now replace (off <? n) with false by lia.
Qed.

(* ---- columns ---- *)
Lemma chunk_at_dense : forall l i, chunk_at (Col l []) i = nthN l i.
Proof.
  intros l i. unfold chunk_at. cbn [k_dense k_sparse mget]. destruct (i <? lenN l) eqn:E; auto. symmetry. apply nthN_none. lia.
Qed.
Lemma new_col_blank : forall lens l0 r, at_row lens (Col (map empty_chunk l0) []) r = blank.
Proof.
  intros lens l0 r. unfold at_row. destruct (find_row 0 lens r) as [[i off]|]; auto. rewrite chunk_at_dense, nthN_map.
  destruct (nthN l0 i); auto. cbn. apply cell_empty.
Qed.
Lemma nth_le_total : forall lens i n, nthN lens i = Some n -> n <= total lens.
Proof.
  intros lens i n G. rewrite <- (firstn_skipn (N.to_nat (i + 1)) lens). rewrite total_app, (total_firstn_S _ _ _ G). lia.
Qed.
Lemma new_col_ok : forall lens l0, total lens <= U32_MAX ->
  l0 = lens \/ l0 = [] \/ (l0 = [total lens] /\ lens <> []) -> col_ok pl lens (Col (map empty_chunk l0) []).
Proof.
  intros lens l0 U H. split.
  - cbn [k_dense]. rewrite lenN_map. destruct H as [-> | [-> | [-> NE]]]; [lia|unfold lenN; cbn; lia|].
    destruct lens as [|x t]; [congruence|]. rewrite !lenN_cons. change (lenN (@nil N)) with 0. lia.
  - intros i ch. rewrite chunk_at_dense, nthN_map. destruct (nthN l0 i) as [n|] eqn:G; [|discriminate]. cbn [option_map]. intros X. injection X as <-.
    rewrite c_len_empty. destruct H as [-> | [-> | [-> NE]]].
    + exists n. pose proof (nth_le_total _ _ _ G). split; auto. split; [apply ok_empty; lia|]. split; [lia|auto].
    + unfold nthN in G. destruct (N.to_nat i); discriminate.
    + assert (i = 0) by (apply nthN_some in G; rewrite lenN_cons in G; change (lenN (@nil N)) with 0 in G; lia). subst i.
      cbn in G. injection G as <-. destruct lens as [|x t]; [congruence|]. exists x. split; auto. split; [now apply ok_empty|].
      split; [cbn; lia|]. cbn [k_dense map]. rewrite !lenN_cons. change (lenN (@nil chunk)) with 0. intros Q.
      assert (lenN t = 0) by lia. apply lenN_nil in H. subst t. cbn. lia.
Qed.
Lemma aligned_dense : forall s lens k, inv pl s lens -> dense_aligned s = true -> In k (s_cols s) ->
  k_sparse k = [] /\ lenN (k_dense k) = lenN lens /\ map c_len (k_dense k) = lens.
Proof.
  intros s lens k I DA IN. unfold dense_aligned in DA. rewrite forallb_forall in DA. specialize (DA k IN). apply andb_true_iff in DA.
  destruct DA as [D1 D2]. pose proof I as ((A & _ & _) & _ & CO). rewrite A, lenN_sums in D2. apply N.eqb_eq in D2.
  assert (SP : k_sparse k = []) by (destruct (k_sparse k); auto; discriminate). split; auto. split; auto.
  apply nthN_ext. intros i. rewrite nthN_map. destruct (CO k IN) as [_ CK].
  destruct (nthN (k_dense k) i) as [ch|] eqn:G.
  - assert (CH : chunk_at k i = Some ch) by (unfold chunk_at; pose proof (nthN_some _ _ _ _ G); now replace (i <? lenN (k_dense k)) with true by lia).
    destruct (CK _ _ CH) as (n & EN & _ & _ & EX). cbn. rewrite EN. f_equal. auto.
  - cbn. apply nthN_none in G. symmetry. apply nthN_none. lia.
Qed.
Lemma nthN_firstn : forall A (l : list A) b i, nthN (firstn (N.to_nat b) l) i = if i <? b then nthN l i else None.
Proof.
  intros A l b i. unfold nthN. rewrite nth_error_firstn'. destruct (i <? b) eqn:E.
  - now replace (Nat.ltb (N.to_nat i) (N.to_nat b)) with true by (symmetry; apply Nat.ltb_lt; lia).
  - now replace (Nat.ltb (N.to_nat i) (N.to_nat b)) with false by (symmetry; apply Nat.ltb_ge; lia).
Qed.
Lemma nthN_skipn : forall A (l : list A) b i, nthN (skipn (N.to_nat b) l) i = nthN l (b + i).
Proof. intros A l b i. unfold nthN. rewrite nth_error_skipn'. f_equal. lia. Qed.
Lemma lenN_firstn : forall A (l : list A) b, lenN (firstn (N.to_nat b) l) = N.min b (lenN l).
Proof. intros. unfold lenN. rewrite firstn_length. lia. Qed.
Lemma lenN_skipn : forall A (l : list A) b, lenN (skipn (N.to_nat b) l) = lenN l - b.
Proof. intros. unfold lenN. rewrite skipn_length. lia. Qed.
Lemma in_firstn : forall A (l : list A) n x, In x (firstn n l) -> In x l.
Proof. intros A l n x H. rewrite <- (firstn_skipn n l). apply in_or_app. auto. Qed.
Lemma in_skipn : forall A (l : list A) n x, In x (skipn n l) -> In x l.
Proof. intros A l n x H. rewrite <- (firstn_skipn n l). apply in_or_app. auto. Qed.
Lemma insert_cols_spec : forall s lens b n, inv pl s lens ->
  inv pl (insert_cols s b n) lens /\ same (layer (insert_cols s b n) lens) (cols_in b n (layer s lens)) /\
  s_rows (insert_cols s b n) = s_rows s /\ lenN (s_cols (insert_cols s b n)) = lenN (s_cols s) + n /\
  s_crows (insert_cols s b n) = s_crows s.
Proof.
  intros s lens b n I. pose proof I as (LY & (RB & BD) & CO). unfold insert_cols. destruct (n =? 0) eqn:E.
  { split; auto. split; [|split; [auto|split; [lia|auto]]]. intros r c. unfold cols_in. destruct (c <? b) eqn:EB; auto.
    replace (c <? b + n) with false by lia. f_equal. lia. }
  cbv zeta. match goal with |- context [map empty_chunk ?x] => set (l0 := x) end.
  assert (HL : l0 = lens \/ l0 = [] \/ (l0 = [total lens] /\ lens <> [])).
  { unfold l0. destruct (s_cols s) as [|k0 ks] eqn:EC.
    - destruct (0 <? s_rows s) eqn:E2; auto. right. right. destruct LY as (_ & B & _). rewrite B in *. split; auto. intros ->. cbn in E2. discriminate.
    - destruct (dense_aligned s) eqn:DA; auto. left. apply (aligned_dense s lens k0 I DA). rewrite EC. now left. }
  clearbody l0. set (K := Col (map empty_chunk l0) []).
  assert (OKK : col_ok pl lens K) by (apply new_col_ok; auto; destruct LY as (_ & B & _); lia).
  set (bb := N.min b (lenN (s_cols s))).
  split.
  - split; [exact LY|]. split; [auto|]. intros k IN. cbn [set_cols s_cols] in IN. apply in_app_or in IN.
    destruct IN as [IN | IN]; [apply CO; eapply in_firstn; eauto|]. apply in_app_or in IN.
    destruct IN as [IN | IN]; [apply repeat_spec in IN; now subst|apply CO; eapply in_skipn; eauto].
  - split; [|split; [reflexivity|split; [|reflexivity]]].
    + intros r c. unfold layer, cols_in. cbn [set_cols s_cols]. rewrite !nthN_app, nthN_firstn, nthN_repeat, nthN_skipn, lenN_firstn, lenN_repeat.
      replace (N.min bb (lenN (s_cols s))) with bb by lia. destruct (c <? bb) eqn:E1.
      * now replace (c <? b) with true by lia.
      * destruct (c - bb <? N.of_nat (N.to_nat n)) eqn:E2.
        -- unfold K. rewrite new_col_blank. destruct (c <? b) eqn:E3.
           ++ replace (nthN (s_cols s) c) with (@None col); auto. symmetry. apply nthN_none. lia.
           ++ destruct (c <? b + n) eqn:E4; auto. lia.
        -- destruct (c <? b) eqn:E3.
           ++ replace (nthN (s_cols s) c) with (@None col) by (symmetry; apply nthN_none; lia).
              replace (nthN (s_cols s) (bb + (c - bb - N.of_nat (N.to_nat n)))) with (@None col); auto. symmetry. apply nthN_none. lia.
           ++ destruct (c <? b + n) eqn:E4.
              ** replace (nthN (s_cols s) (bb + (c - bb - N.of_nat (N.to_nat n)))) with (@None col); auto. symmetry. apply nthN_none. lia.
              ** replace (bb + (c - bb - N.of_nat (N.to_nat n))) with (c - n) by lia. reflexivity.
    + cbn [set_cols s_cols]. rewrite !lenN_app, lenN_repeat, lenN_firstn, lenN_skipn. lia.
Qed.
Lemma delete_cols_spec : forall s lens b n, inv pl s lens ->
  inv pl (delete_cols s b n) lens /\ same (layer (delete_cols s b n) lens) (cols_out b n (layer s lens)) /\
  s_rows (delete_cols s b n) = s_rows s /\
  lenN (s_cols (delete_cols s b n)) = (if b <? lenN (s_cols s) then lenN (s_cols s) - (N.min (b + n) (lenN (s_cols s)) - b) else lenN (s_cols s)) /\
  s_crows (delete_cols s b n) = s_crows s.
Proof.
  intros s lens b n I. pose proof I as (LY & (RB & BD) & CO). unfold delete_cols.
  assert (NO : forall P : Prop, (lenN (s_cols s) <= b \/ n = 0) -> (same (layer s lens) (cols_out b n (layer s lens)) ->
     lenN (s_cols s) = (if b <? lenN (s_cols s) then lenN (s_cols s) - (N.min (b + n) (lenN (s_cols s)) - b) else lenN (s_cols s)) -> P) -> P).
  { intros P H K. apply K.
    - intros r c. unfold cols_out. destruct (c <? b) eqn:E; auto. destruct H as [H | H]; [|f_equal; lia].
      unfold layer. replace (nthN (s_cols s) c) with (@None col) by (symmetry; apply nthN_none; lia).
      replace (nthN (s_cols s) (c + n)) with (@None col); auto. symmetry; apply nthN_none; lia.
    - destruct (b <? lenN (s_cols s)) eqn:E; auto. lia. }
  destruct ((n =? 0) || is_nil (s_cols s)) eqn:E.
  { apply NO; auto. apply orb_true_iff in E. destruct E as [E | E]; [right; lia|]. left. destruct (s_cols s); [unfold lenN; cbn; lia|discriminate]. }
  cbv zeta. destruct (N.min (b + n) (lenN (s_cols s)) <=? b) eqn:E1; [apply NO; auto; lia|]. clear NO.
  set (e := N.min (b + n) (lenN (s_cols s))) in *.
  split.
  - split; [exact LY|]. split; [auto|]. intros k IN. cbn [set_cols s_cols] in IN. apply in_app_or in IN.
    destruct IN as [IN | IN]; [apply CO; eapply in_firstn; eauto|apply CO; eapply in_skipn; eauto].
  - split; [|split; [reflexivity|split; [|reflexivity]]].
    + intros r c. unfold layer, cols_out. cbn [set_cols s_cols]. rewrite !nthN_app, nthN_firstn, nthN_skipn, lenN_firstn.
      replace (N.min b (lenN (s_cols s))) with b by lia. destruct (c <? b) eqn:E2; auto.
      destruct (N.lt_ge_cases (b + n) (lenN (s_cols s))) as [Q | Q].
      * now replace (e + (c - b)) with (c + n) by lia.
      * replace (nthN (s_cols s) (c + n)) with (@None col) by (symmetry; apply nthN_none; lia).
        replace (nthN (s_cols s) (e + (c - b))) with (@None col); auto. symmetry. apply nthN_none. lia.
    + cbn [set_cols s_cols]. rewrite lenN_app, lenN_firstn, lenN_skipn. destruct (b <? lenN (s_cols s)) eqn:E3; lia.
Qed.

(* ---- reaching a cell ---- *)
Lemma cols_in_blank : forall s lens b n, lenN (s_cols s) <= b -> same (cols_in b n (layer s lens)) (layer s lens).
Proof.
  intros s lens b n H r c. unfold cols_in, layer. destruct (c <? b) eqn:E; auto.
  replace (nthN (s_cols s) c) with (@None col) by (symmetry; apply nthN_none; lia). destruct (c <? b + n) eqn:E2; auto.
  replace (nthN (s_cols s) (c - n)) with (@None col); auto. symmetry; apply nthN_none; lia.
Qed.
Lemma same_trans : forall a b c, same a b -> same b c -> same a c.
Proof. intros a b c H1 H2 r k. now rewrite H1. Qed.
Lemma reach_spec : forall s lens r c, inv pl s lens -> r + 1 <= U32_MAX ->
  exists lens', inv pl (reach_cell s r c) lens' /\ same (layer (reach_cell s r c) lens') (layer s lens) /\
    s_rows (reach_cell s r c) = N.max (s_rows s) (r + 1) /\ lenN (s_cols (reach_cell s r c)) = N.max (lenN (s_cols s)) (c + 1) /\
    s_crows (reach_cell s r c) = s_crows s.
Proof.
  intros s lens r c I HR. unfold reach_cell.
  set (s1 := if lenN (s_cols s) <=? c then insert_cols s (lenN (s_cols s)) (c + 1 - lenN (s_cols s)) else s).
  assert (S1 : inv pl s1 lens /\ same (layer s1 lens) (layer s lens) /\ s_rows s1 = s_rows s /\
     lenN (s_cols s1) = N.max (lenN (s_cols s)) (c + 1) /\ s_crows s1 = s_crows s).
  { unfold s1. destruct (lenN (s_cols s) <=? c) eqn:E.
    - destruct (insert_cols_spec s lens (lenN (s_cols s)) (c + 1 - lenN (s_cols s)) I) as (A & B & C & D & F).
      split; auto. split; [eapply same_trans; [exact B|]; apply cols_in_blank; lia|]. split; auto. split; [lia|auto].
    - split; auto. split; [intros x y; auto|]. split; auto. split; [lia|auto]. }
  clearbody s1. destruct S1 as (I1 & B1 & C1 & D1 & F1). cbv zeta. destruct (s_rows s1 <=? r) eqn:E.
  - replace (match s_cols s1 with [] => insert_cols s1 0 1 | _ => s1 end) with s1.
    2: { destruct (s_cols s1); auto. change (lenN (@nil col)) with 0 in D1. lia. }
    destruct (ensure_rows_spec s1 lens (r + 1) I1 HR) as (lens' & A & B & C & D & F). exists lens'. split; auto.
    split; [eapply same_trans; eauto|]. rewrite C, C1, D, D1, F, F1. auto.
  - exists lens. split; auto. split; auto. rewrite C1, D1, F1. split; [lia|auto].
Qed.
Lemma reach_row : forall s lens r, inv pl s lens -> r < s_rows s -> exists i off, find_row 0 lens r = Some (i, off) /\ chunk_of_row s r = Some (Some (i, off)).
Proof.
  intros s lens r I H. pose proof I as (LY & _). rewrite (chunk_of_row_find s lens r LY). destruct (find_row 0 lens r) as [[i off]|] eqn:F; eauto.
  apply find_row_none in F. destruct LY as (_ & B & _). lia.
Qed.
End Plain.
