(* Sheets: the row layout, reading, and the calls that keep it. *)
From Coq Require Import List Bool NArith ZArith Lia.
From Coq Require Import ZifyN ZifyNat ZifyBool.
From Verif Require Import Base Maps OvModel OvSpec OvProofs OvProofs2 OvProofs3 OvProofs4 OvProofs5 AsModel AsSpec AsProofs.
Import ListNotations.
Open Scope N_scope.

Definition total (lens : list N) : N := fold_right N.add 0 lens.
Definition positive (lens : list N) : Prop := forall n, In n lens -> 0 < n.
Fixpoint find_row (i : N) (lens : list N) (r : N) : option (N * N) :=
  match lens with
  | [] => None
  | n :: t => if r <? n then Some (i, r) else find_row (i + 1) t (r - n)
  end.
Lemma total_app : forall a b, total (a ++ b) = total a + total b.
Proof. induction a as [|x a IH]; intros b; cbn; auto. rewrite IH. fold (total a). lia. Qed.
Lemma find_row_none : forall lens i r, find_row i lens r = None <-> total lens <= r.
Proof.
  induction lens as [|n t IH]; intros i r; cbn.
  - split; auto. lia.
  - fold (total t). destruct (r <? n) eqn:E; [split; [discriminate|lia]|]. rewrite IH. lia.
Qed.
Lemma find_row_some : forall lens i r j off, find_row i lens r = Some (j, off) ->
  i <= j /\ exists n, nthN lens (j - i) = Some n /\ off < n /\
  total (firstn (N.to_nat (j - i)) lens) + off = r.
Proof.
  induction lens as [|n t IH]; intros i r j off H; cbn [find_row] in H; [discriminate|]. destruct (r <? n) eqn:E.
  - injection H as <- <-. split; [lia|]. exists n. replace (i - i) with 0 by lia. cbn. split; auto. lia.
  - apply IH in H. destruct H as (L & m & G & O & T). split; [lia|]. exists m. rewrite nthN_cons.
    replace (j - i =? 0) with false by lia. replace (j - i - 1) with (j - (i + 1)) by lia. split; auto. split; auto.
    replace (N.to_nat (j - i)) with (S (N.to_nat (j - (i + 1)))) by lia. cbn [firstn total fold_right]. unfold total in T. lia.
Qed.
Lemma find_row_at : forall lens i k n off, positive lens -> nthN lens k = Some n -> off < n ->
  find_row i lens (total (firstn (N.to_nat k) lens) + off) = Some (i + k, off).
Proof.
  induction lens as [|m t IH]; intros i k n off P G O.
  - unfold nthN in G. destruct (N.to_nat k); discriminate.
  - rewrite nthN_cons in G. cbn [find_row]. destruct (k =? 0) eqn:E.
    + injection G as ->. replace k with 0 by lia. cbn. replace (off <? n) with true by lia. do 2 f_equal. lia.
    + replace (N.to_nat k) with (S (N.to_nat (k - 1))) by lia. cbn [firstn total fold_right].
      change (fold_right N.add 0 (firstn (N.to_nat (k - 1)) t)) with (total (firstn (N.to_nat (k - 1)) t)).
      replace (m + total (firstn (N.to_nat (k - 1)) t) + off <? m) with false by lia.
      replace (m + total (firstn (N.to_nat (k - 1)) t) + off - m) with (total (firstn (N.to_nat (k - 1)) t) + off) by lia.
      assert (P' : positive t) by (intros x I; apply P; now right).
      rewrite (IH (i + 1) (k - 1) n off P' G O). do 2 f_equal. lia.
Qed.
Lemma find_row_shift : forall lens i k r, find_row (i + k) lens r = option_map (fun '(j, o) => (j + k, o)) (find_row i lens r).
Proof.
  induction lens as [|n t IH]; intros i k r; cbn; auto. destruct (r <? n); auto. rewrite <- IH. f_equal. lia.
Qed.

(* chunk_starts are the sums of the lengths *)
Lemma lenN_sums : forall lens cur, lenN (sums cur lens) = lenN lens.
Proof. induction lens as [|n t IH]; intros cur; auto. cbn [sums]. rewrite !lenN_cons. now rewrite IH. Qed.
Lemma nthN_sums : forall lens cur i, i < lenN lens -> nthN (sums cur lens) i = Some (cur + total (firstn (N.to_nat i) lens)).
Proof.
  induction lens as [|n t IH]; intros cur i H; [unfold lenN in H; cbn in H; lia|]. rewrite lenN_cons in H. cbn [sums].
  rewrite nthN_cons. destruct (i =? 0) eqn:E.
  - replace i with 0 by lia. cbn. f_equal. lia.
  - rewrite IH by lia. replace (N.to_nat i) with (S (N.to_nat (i - 1))) by lia. cbn [firstn total fold_right]. f_equal. unfold total. lia.
Qed.
Lemma pp_sums : forall lens cur r i, positive lens -> cur <= r -> r < cur + total lens ->
  exists k off, find_row i lens (r - cur) = Some (i + k, off) /\ partition_point (fun x => x <=? r) (sums cur lens) = k + 1.
Proof.
  induction lens as [|n t IH]; intros cur r i P L H; [cbn in H; lia|]. cbn [sums partition_point find_row].
  cbn [total fold_right] in H. fold (total t) in H. replace (cur <=? r) with true by lia.
  assert (P' : positive t) by (intros x I; apply P; now right). destruct (r - cur <? n) eqn:E.
  - exists 0, (r - cur). split; [do 2 f_equal; lia|]. destruct t as [|m t']; auto. cbn. now replace (cur + n <=? r) with false by lia.
  - destruct (IH (cur + n) r (i + 1) P') as (k & off & F & PP); try lia. exists (k + 1), off.
    replace (r - cur - n) with (r - (cur + n)) by lia. rewrite F, PP. split; [do 2 f_equal; lia|lia].
Qed.

Definition layout (s : sheet) (lens : list N) : Prop :=
  s_starts s = sums 0 lens /\ s_rows s = total lens /\ positive lens.
Lemma chunk_of_row_find : forall s lens r, layout s lens -> chunk_of_row s r = Some (find_row 0 lens r).
Proof.
  intros s lens r (A & B & P). unfold chunk_of_row. rewrite A, B. destruct (total lens <=? r) eqn:E.
  { f_equal. symmetry. apply find_row_none. lia. }
  destruct (pp_sums lens 0 r 0 P) as (k & off & F & PP); try lia. rewrite PP. replace (k + 1 - 1) with k by lia.
  replace (r - 0) with r in F by lia. rewrite F. apply find_row_some in F. destruct F as (_ & n & G & O & T).
  replace (0 + k - 0) with k in * by lia. cbv zeta. rewrite nthN_sums by (now apply nthN_some in G).
  replace (r <? 0 + total (firstn (N.to_nat k) lens)) with false by lia. do 3 f_equal. lia.
Qed.
Lemma total_firstn_S : forall lens i n, nthN lens i = Some n -> total (firstn (N.to_nat (i + 1)) lens) = total (firstn (N.to_nat i) lens) + n.
Proof.
  induction lens as [|m t IH]; intros i n G; [unfold nthN in G; destruct (N.to_nat i); discriminate|].
  rewrite nthN_cons in G. destruct (i =? 0) eqn:E.
  - injection G as ->. replace i with 0 by lia. change (N.to_nat (0 + 1)) with 1%nat. cbn. lia.
  - replace (N.to_nat (i + 1)) with (S (N.to_nat (i - 1 + 1))) by lia. replace (N.to_nat i) with (S (N.to_nat (i - 1))) by lia.
    cbn [firstn total fold_right]. specialize (IH _ _ G). unfold total in IH. lia.
Qed.
Lemma firstn_total_all : forall lens i, lenN lens <= i -> total (firstn (N.to_nat i) lens) = total lens.
Proof. intros lens i H. f_equal. apply firstn_all2. unfold lenN in H. lia. Qed.
Lemma bound_nth : forall s lens i, layout s lens -> bound s i = nthN lens i.
Proof.
  intros s lens i (A & B & P). unfold bound. rewrite A, B. destruct (nthN lens i) as [n|] eqn:G.
  - pose proof (nthN_some _ _ _ _ G) as H. rewrite nthN_sums by auto. destruct (N.lt_ge_cases (i + 1) (lenN lens)) as [L | L].
    + rewrite nthN_sums by auto. rewrite (total_firstn_S _ _ _ G). f_equal. lia.
    + replace (nthN (sums 0 lens) (i + 1)) with (@None N) by (symmetry; apply nthN_none; now rewrite lenN_sums).
      rewrite <- (firstn_total_all lens (i + 1)) by lia. rewrite (total_firstn_S _ _ _ G). f_equal. lia.
  - apply nthN_none in G. replace (nthN (sums 0 lens) i) with (@None N); auto. symmetry. apply nthN_none. now rewrite lenN_sums.
Qed.

(* ---- columns ---- *)
Section Plain.
Variable pl : bool.
Notation ok_chunk := (ok_chunk pl).
Definition opt_cell (o : option chunk) (off : N) : cell := match o with Some ch => cell_of ch off | None => blank end.
Definition col_ok (lens : list N) (k : col) : Prop :=
  lenN (k_dense k) <= lenN lens /\
  forall i ch, chunk_at k i = Some ch -> exists n, nthN lens i = Some n /\ ok_chunk ch /\ n <= c_len ch /\
    (i + 1 = lenN lens \/ lenN (k_dense k) = lenN lens -> c_len ch = n).
Definition inv (s : sheet) (lens : list N) : Prop :=
  layout s lens /\ (s_rows s <= U32_MAX /\ forall n, In n lens -> n <= N.max (s_crows s) 1) /\ (forall k, In k (s_cols s) -> col_ok lens k).
Definition at_row (lens : list N) (k : col) (r : N) : cell :=
  match find_row 0 lens r with Some (i, off) => opt_cell (chunk_at k i) off | None => blank end.
Definition layer (s : sheet) (lens : list N) : grid :=
  fun r c => match nthN (s_cols s) c with Some k => at_row lens k r | None => blank end.

Lemma inv_col : forall s lens c k, inv s lens -> nthN (s_cols s) c = Some k -> col_ok lens k.
Proof. intros s lens c k (_ & _ & C) G. apply C. now apply nth_error_In with (N.to_nat c). Qed.
Lemma get_cell_layer : forall s lens r c, inv s lens -> get_cell s r c = Some (shown (layer s lens r c)).
Proof.
  intros s lens r c I. pose proof I as (L & _ & _). pose proof L as (_ & T & _). unfold get_cell, layer.
  destruct (s_rows s <=? r) eqn:E.
  - assert (F : find_row 0 lens r = None) by (apply find_row_none; lia). destruct (nthN (s_cols s) c); auto. unfold at_row. now rewrite F.
  - destruct (nthN (s_cols s) c) as [k|] eqn:G; auto. rewrite (chunk_of_row_find s lens r L). unfold at_row.
    destruct (find_row 0 lens r) as [[i off]|] eqn:F; auto. apply find_row_some in F. destruct F as (_ & n & N1 & O & _).
    replace (i - 0) with i in N1 by lia. unfold opt_cell. destruct (chunk_at k i) as [ch|] eqn:CH; auto.
    destruct (inv_col _ _ _ _ I G) as [_ CO]. destruct (CO _ _ CH) as (m & N2 & _ & LE & _).
    apply chunk_lit_cell. rewrite N1 in N2. injection N2 as <-. lia.
Qed.
Definition no_runs (s : sheet) : Prop := forall k i ch, In k (s_cols s) -> chunk_at k i = Some ch -> c_fmt ch = None.
Lemma format_layer : forall s lens r c, inv s lens -> no_runs s -> format_id s r c = Some (shown_format (layer s lens r c)).
Proof.
  intros s lens r c I NR. pose proof I as (L & _ & _). unfold format_id, layer. rewrite (chunk_of_row_find s lens r L). unfold at_row.
  destruct (nthN (s_cols s) c) as [k|] eqn:G.
  2: now destruct (find_row 0 lens r) as [[i off]|].
  destruct (find_row 0 lens r) as [[i off]|] eqn:F; auto. apply find_row_some in F. destruct F as (_ & n & N1 & O & _).
  replace (i - 0) with i in N1 by lia. unfold opt_cell. destruct (chunk_at k i) as [ch|] eqn:CH; auto.
  destruct (inv_col _ _ _ _ I G) as [_ CO]. destruct (CO _ _ CH) as (m & N2 & OK & LE & _). rewrite N1 in N2. injection N2 as <-.
  f_equal. unfold chunk_format, cell_of, shown_format. replace (off <? c_len ch) with true by lia. cbn [x_ufmt x_cfmt].
  rewrite (NR k i ch); auto. 2: now apply nth_error_In with (N.to_nat c).
  destruct OK as ((_ & (_ & U) & _) & (_ & (_ & C) & _) & _). unfold ov_get_format in *. specialize (U off). specialize (C off).
  destruct (pget (o_formats (c_user ch)) off) as [f|].
  - destruct (f =? GENERAL) eqn:E; auto. apply N.eqb_eq in E. congruence.
  - destruct (pget (o_formats (c_comp ch)) off) as [f|]; auto. destruct (f =? GENERAL) eqn:E; auto. apply N.eqb_eq in E. congruence.
Qed.

(* ---- changing one chunk ---- *)
Lemma chunk_at_change : forall k i f j, chunk_at (change_chunk i f k) j = if j =? i then option_map f (chunk_at k j) else chunk_at k j.
Proof.
  intros k i f j. unfold change_chunk, chunk_at. destruct (i <? lenN (k_dense k)) eqn:E.
  - cbn [k_dense k_sparse]. rewrite lenN_update, nthN_update. destruct (j =? i) eqn:EJ; [|reflexivity].
    replace (j <? lenN (k_dense k)) with true by lia. reflexivity.
  - destruct (pget (k_sparse k) i) as [ch|] eqn:G; cbn [k_dense k_sparse].
    + rewrite pget_put. destruct (j =? i) eqn:EJ; auto. replace j with i by lia. rewrite E, G. reflexivity.
    + destruct (j =? i) eqn:EJ; auto. replace j with i by lia. rewrite E, G. reflexivity.
Qed.
Lemma dense_change : forall k i f, lenN (k_dense (change_chunk i f k)) = lenN (k_dense k).
Proof.
  intros k i f. unfold change_chunk. destruct (i <? lenN (k_dense k)); [apply lenN_update|]. now destruct (pget (k_sparse k) i).
Qed.
Lemma col_ok_change : forall lens k i f, col_ok lens k ->
  (forall ch, chunk_at k i = Some ch -> ok_chunk ch -> ok_chunk (f ch) /\ c_len (f ch) = c_len ch) -> col_ok lens (change_chunk i f k).
Proof.
  intros lens k i f [A B] K. split; [now rewrite dense_change|]. intros j ch. rewrite chunk_at_change, dense_change.
  destruct (j =? i) eqn:E; [|apply B]. replace j with i by lia. destruct (chunk_at k i) as [ch0|] eqn:G; [|discriminate].
  cbn. intros X. injection X as <-. destruct (B _ _ G) as (n & N1 & OK & LE & EX). destruct (K ch0 eq_refl OK) as [OK' LEN].
  exists n. rewrite LEN. auto.
Qed.
Lemma in_update : forall A (f : A -> A) l i x, In x (updateN i f l) -> In x l \/ exists y, nthN l i = Some y /\ x = f y.
Proof.
  intros A f l i x H. apply In_nth_error in H. destruct H as [j H]. pose proof (nthN_update _ f l i (N.of_nat j)) as G.
  unfold nthN in G at 1. rewrite Nnat.Nat2N.id, H in G. destruct (N.of_nat j =? i) eqn:E.
  - right. replace i with (N.of_nat j) by lia. destruct (nthN l (N.of_nat j)) as [y|]; [|discriminate]. injection G as ->. eauto.
  - left. symmetry in G. now apply nth_error_In with (N.to_nat (N.of_nat j)).
Qed.
Lemma inv_update : forall s lens c g, inv s lens ->
  (forall k, nthN (s_cols s) c = Some k -> col_ok lens (g k)) -> inv (set_cols s (updateN c g (s_cols s))) lens.
Proof.
  intros s lens c g (A & B & C) K. split; [exact A|]. split; [exact B|]. intros k I. cbn [set_cols s_cols] in I.
  apply in_update in I. destruct I as [I | (y & G & ->)]; auto.
Qed.
Lemma layer_update : forall s lens c g r j, layer (set_cols s (updateN c g (s_cols s))) lens r j =
  if j =? c then match nthN (s_cols s) j with Some k => at_row lens (g k) r | None => blank end else layer s lens r j.
Proof.
  intros s lens c g r j. unfold layer. cbn [set_cols s_cols]. rewrite nthN_update. destruct (j =? c); auto. now destruct (nthN (s_cols s) j).
Qed.
Lemma change_at_spec : forall s lens c i f, inv s lens ->
  (forall ch, ok_chunk ch -> ok_chunk (f ch) /\ c_len (f ch) = c_len ch) -> inv (change_at s c i f) lens.
Proof.
  intros s lens c i f I K. apply inv_update; auto. intros k G. apply col_ok_change; auto. eapply inv_col; eauto.
Qed.
(* the rows of chunk i *)
Lemma find_row_range : forall lens i n r, positive lens -> nthN lens i = Some n ->
  match find_row 0 lens r with
  | Some (j, off) => if j =? i then total (firstn (N.to_nat i) lens) + off = r /\ off < n
                     else r < total (firstn (N.to_nat i) lens) \/ total (firstn (N.to_nat i) lens) + n <= r
  | None => total (firstn (N.to_nat i) lens) + n <= r
  end.
Proof.
  intros lens i n r P G. destruct (find_row 0 lens r) as [[j off]|] eqn:F.
  - pose proof F as F'. apply find_row_some in F. destruct F as (_ & m & N1 & O & T). replace (j - 0) with j in * by lia.
    destruct (j =? i) eqn:E.
    + replace j with i in * by lia. rewrite G in N1. injection N1 as <-. auto.
    + destruct (N.lt_ge_cases r (total (firstn (N.to_nat i) lens))) as [L | L]; auto. right.
      destruct (N.lt_ge_cases r (total (firstn (N.to_nat i) lens) + n)) as [L2 | L2]; auto. exfalso.
      pose proof (find_row_at lens 0 i n (r - total (firstn (N.to_nat i) lens)) P G ltac:(lia)) as X.
      replace (total (firstn (N.to_nat i) lens) + (r - total (firstn (N.to_nat i) lens))) with r in X by lia.
      rewrite X in F'. injection F' as E1 E2. lia.
  - apply find_row_none in F. rewrite <- (total_firstn_S _ _ _ G). rewrite <- (firstn_skipn (N.to_nat (i + 1)) lens) in F.
    rewrite total_app in F. lia.
Qed.
Lemma compact_layer : forall s lens c i f g, inv s lens ->
  (forall ch, ok_chunk ch -> ok_chunk (f ch) /\ c_len (f ch) = c_len ch /\
     ((forall o, cell_of (f ch) o = cell_of ch o) \/ (forall o, o < c_len ch -> cell_of (f ch) o = g (cell_of ch o)))) ->
  inv (change_at s c i f) lens /\ exists a z, same (layer (change_at s c i f) lens) (on_rows c a z g (layer s lens)).
Proof.
  intros s lens c i f g I K. split; [apply change_at_spec; auto; intros ch OK; destruct (K ch OK) as (X & Y & _); auto|].
  unfold change_at.
  assert (NO : (forall k, nthN (s_cols s) c = Some k -> forall r, at_row lens (change_chunk i f k) r = at_row lens k r) ->
    exists a z, same (layer (set_cols s (updateN c (change_chunk i f) (s_cols s))) lens) (on_rows c a z g (layer s lens))).
  { intros H. exists 0, 0. intros r j. rewrite layer_update. unfold on_rows. replace ((j =? c) && (0 <=? r) && (r <? 0)) with false by lia.
    destruct (j =? c) eqn:E; auto. unfold layer. replace j with c by lia. destruct (nthN (s_cols s) c) as [k|] eqn:G; auto. }
  destruct (nthN (s_cols s) c) as [k|] eqn:G.
  2: { apply NO. intros k. discriminate. }
  destruct (chunk_at k i) as [ch|] eqn:CH.
  2: { apply NO. intros k' X. injection X as <-. intros r. unfold at_row. destruct (find_row 0 lens r) as [[j off]|]; auto.
       rewrite chunk_at_change. destruct (j =? i) eqn:E; auto. replace j with i by lia. now rewrite CH. }
  pose proof I as ((_ & _ & P) & _ & _). pose proof (inv_col _ _ _ _ I G) as [_ CO]. destruct (CO _ _ CH) as (n & N1 & OK & LE & _).
  destruct (K ch OK) as (_ & LEN & [Q | Q]).
  - apply NO. intros k' X. injection X as <-. intros r. unfold at_row. destruct (find_row 0 lens r) as [[j off]|]; auto.
    rewrite chunk_at_change. destruct (j =? i) eqn:E; auto. replace j with i by lia. rewrite CH. cbn. apply Q.
  - exists (total (firstn (N.to_nat i) lens)), (total (firstn (N.to_nat i) lens) + n). intros r j. rewrite layer_update. unfold on_rows.
    destruct (j =? c) eqn:E; cbn [andb]; auto. unfold layer. replace j with c by lia. rewrite G. unfold at_row.
    pose proof (find_row_range lens i n r P N1) as FR. destruct (find_row 0 lens r) as [[j' off]|] eqn:F.
    + rewrite chunk_at_change. destruct (j' =? i) eqn:E2.
      * destruct FR as [FR1 FR2]. replace ((total (firstn (N.to_nat i) lens) <=? r) && (r <? total (firstn (N.to_nat i) lens) + n)) with true by lia.
        replace j' with i by lia. rewrite CH. cbn. apply Q. lia.
      * now replace ((total (firstn (N.to_nat i) lens) <=? r) && (r <? total (firstn (N.to_nat i) lens) + n)) with false by lia.
    + now replace ((total (firstn (N.to_nat i) lens) <=? r) && (r <? total (firstn (N.to_nat i) lens) + n)) with false by lia.
Qed.

(* ---- writing one cell ---- *)
(* f changes the cell at [off] by g *)
Definition writes (off : N) (f : chunk -> chunk) (g : cell -> cell) : Prop :=
  forall ch, ok_chunk ch -> off < c_len ch -> ok_chunk (f ch) /\ c_len (f ch) = c_len ch /\
    forall o, cell_of (f ch) o = if o =? off then g (cell_of ch o) else cell_of ch o.
Lemma change_layer : forall s lens c r i off f g, inv s lens -> find_row 0 lens r = Some (i, off) ->
  g blank = blank -> writes off f g ->
  inv (change_at s c i f) lens /\ same (layer (change_at s c i f) lens) (at_cell r c g (layer s lens)).
Proof.
  intros s lens c r i off f g I F GB W. pose proof F as F'. apply find_row_some in F. destruct F as (_ & n & N1 & O & T).
  replace (i - 0) with i in * by lia. pose proof I as ((_ & _ & P) & _ & _). split.
  - apply inv_update; auto. intros k G. destruct (inv_col _ _ _ _ I G) as [D CO]. apply col_ok_change; [split; auto|].
    intros ch CH OK. destruct (CO _ _ CH) as (m & N2 & _ & LE & _). rewrite N1 in N2. injection N2 as <-.
    destruct (W ch OK) as (X & Y & _); auto. lia.
  - intros r' j. unfold change_at. rewrite layer_update. unfold at_cell. destruct (j =? c) eqn:E.
    2: now rewrite andb_false_r.
    rewrite andb_true_r. unfold layer. destruct (nthN (s_cols s) j) as [k|] eqn:G.
    2: now destruct (r' =? r).
    unfold at_row. pose proof (find_row_range lens i n r' P N1) as FR. destruct (find_row 0 lens r') as [[j' off']|] eqn:F2.
    + rewrite chunk_at_change. destruct (j' =? i) eqn:E2.
      * replace j' with i by lia. destruct (chunk_at k i) as [ch|] eqn:CH; cbn.
        -- destruct (inv_col _ _ _ _ I G) as [_ CO]. destruct (CO _ _ CH) as (m & N2 & OK & LE & _). rewrite N1 in N2. injection N2 as <-.
           destruct (W ch OK ltac:(lia)) as (_ & _ & CE). rewrite CE. destruct (off' =? off) eqn:E3.
           ++ now replace (r' =? r) with true by lia.
           ++ now replace (r' =? r) with false by lia.
        -- destruct (r' =? r); auto.
      * now replace (r' =? r) with false by lia.
    + now replace (r' =? r) with false by lia.
Qed.
Lemma chunk_at_ensure : forall k i f j len,
  chunk_at (if i <? lenN (k_dense k) then Col (updateN i f (k_dense k)) (k_sparse k)
            else Col (k_dense k) (pput (k_sparse k) i (f (match pget (k_sparse k) i with Some ch => ch | None => empty_chunk len end)))) j
  = if j =? i then Some (f (match chunk_at k i with Some ch => ch | None => empty_chunk len end)) else chunk_at k j.
Proof.
  intros k i f j len. unfold chunk_at. destruct (i <? lenN (k_dense k)) eqn:E; cbn [k_dense k_sparse].
  - rewrite lenN_update, nthN_update. destruct (j =? i) eqn:EJ; [|reflexivity]. replace j with i by lia. rewrite E.
    destruct (nthN_lt _ (k_dense k) i) as [x ->]; [lia|]. reflexivity.
  - rewrite pget_put. destruct (j =? i) eqn:EJ; auto. replace j with i by lia. now rewrite E.
Qed.
Lemma ensure_layer : forall s lens c r i off f g, inv s lens -> c < lenN (s_cols s) -> find_row 0 lens r = Some (i, off) ->
  writes off f g ->
  inv (ensure_chunk s c i f) lens /\ same (layer (ensure_chunk s c i f) lens) (at_cell r c g (layer s lens)).
Proof.
  intros s lens c r i off f g I HC F W. pose proof F as F'. apply find_row_some in F. destruct F as (_ & n & N1 & O & T).
  replace (i - 0) with i in * by lia. pose proof I as (LY & RB & _). pose proof LY as (_ & TT & P). unfold ensure_chunk.
  rewrite (bound_nth s lens i LY), N1.
  assert (NB : n <= U32_MAX).
  { rewrite <- (firstn_skipn (N.to_nat (i + 1)) lens) in TT. rewrite total_app, (total_firstn_S _ _ _ N1) in TT. lia. }
  assert (OKE : forall k, nthN (s_cols s) c = Some k ->
     let ch := match chunk_at k i with Some ch => ch | None => empty_chunk n end in ok_chunk ch /\ n <= c_len ch /\
       (forall o, cell_of ch o = opt_cell (chunk_at k i) o) /\
       (i + 1 = lenN lens \/ lenN (k_dense k) = lenN lens -> c_len ch = n)).
  { intros k G. cbv zeta. destruct (inv_col _ _ _ _ I G) as [D CO]. destruct (chunk_at k i) as [ch|] eqn:CH.
    - destruct (CO _ _ CH) as (m & N2 & OK & LE & EX). rewrite N1 in N2. injection N2 as <-. split; auto.
    - split; [now apply ok_empty|]. rewrite c_len_empty. split; [lia|]. split; auto. intros o. cbn. apply cell_empty. }
  split.
  - apply inv_update; auto. intros k G. destruct (OKE k G) as (OK & LE & CE & EX). cbv zeta in OK, LE, CE, EX.
    destruct (W _ OK) as (OK' & LEN & CE'); [lia|]. destruct (inv_col _ _ _ _ I G) as [D CO].
    assert (DL : lenN (k_dense (if i <? lenN (k_dense k) then Col (updateN i f (k_dense k)) (k_sparse k)
            else Col (k_dense k) (pput (k_sparse k) i (f (match pget (k_sparse k) i with Some ch => ch | None => empty_chunk n end)))))
            = lenN (k_dense k)) by (destruct (i <? lenN (k_dense k)); [apply lenN_update|reflexivity]).
    split; [now rewrite DL|]. intros j ch. rewrite chunk_at_ensure, DL. destruct (j =? i) eqn:E; [|apply CO].
    intros X. injection X as <-. replace j with i by lia. exists n. rewrite LEN. auto.
  - intros r' j. rewrite layer_update. unfold at_cell. destruct (j =? c) eqn:E.
    2: now rewrite andb_false_r.
    rewrite andb_true_r. unfold layer. replace j with c by lia. destruct (nthN (s_cols s) c) as [k|] eqn:G.
    2: { apply nthN_none in G. lia. }
    destruct (OKE k eq_refl) as (OK & LE & CE & _). cbv zeta in OK, LE, CE. destruct (W _ OK) as (_ & _ & CE'); [lia|].
    unfold at_row. pose proof (find_row_range lens i n r' P N1) as FR. destruct (find_row 0 lens r') as [[j' off']|] eqn:F2.
    + rewrite chunk_at_ensure. destruct (j' =? i) eqn:E2.
      * replace j' with i by lia. cbn [opt_cell]. rewrite CE', CE. destruct (off' =? off) eqn:E3.
        -- now replace (r' =? r) with true by lia.
        -- now replace (r' =? r) with false by lia.
      * now replace (r' =? r) with false by lia.
    + now replace (r' =? r) with false by lia.
Qed.

Section Mem.
  Variable mem : payload -> N.
  Lemma ok_set : forall len o off v, ok_ov len o -> off < len -> ok_ov len (fst (set_scalar mem o off v)) /\
    (forall i, ov_get (fst (set_scalar mem o off v)) i = if i =? off then Some v else ov_get o i) /\
    (forall i, ov_get_format (fst (set_scalar mem o off v)) i = ov_get_format o i).
  Proof.
    intros len o off v (A & B & C) H. destruct (set_scalar_spec mem o _ off v A) as [R F].
    assert (G : forall i, ov_get (fst (set_scalar mem o off v)) i = if i =? off then Some v else ov_get o i)
      by (intros i; now rewrite (repr_get _ _ i R)).
    assert (GF : forall i, ov_get_format (fst (set_scalar mem o off v)) i = ov_get_format o i) by (intros i; unfold ov_get_format; now rewrite F).
    split; [|auto]. split; [now apply repr_self in R|]. split; [unfold no_general; now rewrite F|].
    intros i L. rewrite G, GF. replace (i =? off) with false by lia. now apply C.
  Qed.
  Lemma ok_remove : forall len o off, ok_ov len o -> ok_ov len (fst (remove_scalar mem o off)) /\
    (forall i, ov_get (fst (remove_scalar mem o off)) i = if i =? off then None else ov_get o i) /\
    (forall i, ov_get_format (fst (remove_scalar mem o off)) i = ov_get_format o i).
  Proof.
    intros len o off (A & B & C). destruct (remove_scalar_spec mem o _ off A) as (R & F & _).
    assert (G : forall i, ov_get (fst (remove_scalar mem o off)) i = if i =? off then None else ov_get o i)
      by (intros i; now rewrite (repr_get _ _ i R)).
    assert (GF : forall i, ov_get_format (fst (remove_scalar mem o off)) i = ov_get_format o i) by (intros i; unfold ov_get_format; now rewrite F).
    split; [|auto]. split; [now apply repr_self in R|]. split; [unfold no_general; now rewrite F|].
    intros i L. rewrite G, GF. destruct (C i L). now destruct (i =? off).
  Qed.
  Lemma ok_format : forall len o off f, ok_ov len o -> off < len -> ok_ov len (ov_set_format o off f) /\
    (forall i, ov_get (ov_set_format o off f) i = ov_get o i) /\
    (forall i, ov_get_format (ov_set_format o off f) i = if i =? off then plain_format f else ov_get_format o i).
  Proof.
    intros len o off f (A & B & C) H. assert (G : forall i, ov_get (ov_set_format o off f) i = ov_get o i) by reflexivity.
    assert (GF : forall i, ov_get_format (ov_set_format o off f) i = if i =? off then plain_format f else ov_get_format o i)
      by (intros i; unfold ov_get_format; rewrite set_format_get; reflexivity).
    split; [|auto]. split.
    - destruct A as (R1 & mf & R2). split; auto. exists mf. exact R2.
    - split; [now apply set_format_general|]. intros i L. rewrite G, GF. replace (i =? off) with false by lia. now apply C.
  Qed.
  Lemma writes_value : forall off v f, writes off (fun ch =>
      Chunk (c_base ch) (c_fmt ch) (ov_set_format (fst (set_scalar mem (c_user ch) off v)) off f) (fst (remove_scalar mem (c_comp ch) off)))
    (edited v f).
  Proof.
    intros off v f ch (A & B & C) H. destruct (ok_set _ _ off v A H) as (A1 & A2 & A3).
    destruct (ok_format _ _ off f A1 H) as (A4 & A5 & A6). destruct (ok_remove _ _ off B) as (B1 & B2 & B3).
    split; [split; auto|]. split; auto. intros o. unfold cell_of, c_len. cbn [c_base c_user c_comp]. fold (c_len ch).
    destruct (o <? c_len ch) eqn:E.
    - rewrite A5, A2, A6, B2, B3, A3. destruct (o =? off); reflexivity.
    - now replace (o =? off) with false by lia.
  Qed.
  Lemma writes_clear : forall off, writes off (fun ch =>
      Chunk (c_base ch) (c_fmt ch) (fst (remove_scalar mem (c_user ch) off)) (c_comp ch)) unedited.
  Proof.
    intros off ch (A & B & C) H. destruct (ok_remove _ _ off A) as (B1 & B2 & B3).
    split; [split; auto|]. split; auto. intros o. unfold cell_of, c_len. cbn [c_base c_user c_comp]. fold (c_len ch).
    destruct (o <? c_len ch) eqn:E.
    - rewrite B2, B3. destruct (o =? off); reflexivity.
    - now replace (o =? off) with false by lia.
  Qed.
  Lemma writes_computed : forall off v, writes off (fun ch =>
      Chunk (c_base ch) (c_fmt ch) (c_user ch) (fst (set_scalar mem (c_comp ch) off v))) (computed v).
  Proof.
    intros off v ch (A & B & C) H. destruct (ok_set _ _ off v B H) as (B1 & B2 & B3).
    split; [split; auto|]. split; auto. intros o. unfold cell_of, c_len. cbn [c_base c_user c_comp]. fold (c_len ch).
    destruct (o <? c_len ch) eqn:E.
    - rewrite B2, B3. destruct (o =? off); reflexivity.
    - now replace (o =? off) with false by lia.
  Qed.
  Lemma writes_format : forall off f, writes off (fun ch =>
      Chunk (c_base ch) (c_fmt ch) (c_user ch) (ov_set_format (c_comp ch) off f)) (reformatted f).
  Proof.
    intros off v ch (A & B & C) H. destruct (ok_format _ _ off v B H) as (B1 & B2 & B3).
    split; [split; auto|]. split; auto. intros o. unfold cell_of, c_len. cbn [c_base c_user c_comp]. fold (c_len ch).
    destruct (o <? c_len ch) eqn:E.
    - rewrite B2, B3. destruct (o =? off); reflexivity.
    - now replace (o =? off) with false by lia.
  Qed.
End Mem.
End Plain.
