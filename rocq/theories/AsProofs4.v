(* Sheets: inserting and deleting rows. *)
From Coq Require Import List Bool NArith ZArith Lia.
From Coq Require Import ZifyN ZifyNat ZifyBool.
From Verif Require Import Base Maps OvModel OvSpec OvProofs OvProofs2 OvProofs3 OvProofs4 OvProofs5 AsModel AsSpec AsProofs AsProofs2 AsProofs3.
Import ListNotations.
Open Scope N_scope.

(* ---- reading a column by segments ---- *)
Fixpoint seg_at (k : col) (i : N) (lens : list N) (r : N) : cell :=
  match lens with
  | [] => blank
  | n :: t => if r <? n then opt_cell (chunk_at k i) r else seg_at k (i + 1) t (r - n)
  end.
Definition item_cell (k : col) (x : item) (j : N) : cell :=
  match x with PEmpty _ => blank | PSlice i off _ => opt_cell (chunk_at k i) (off + j) end.
Fixpoint plan_at (k : col) (plan : list item) (r : N) : cell :=
  match plan with
  | [] => blank
  | x :: t => if r <? item_len x then item_cell k x r else plan_at k t (r - item_len x)
  end.
Lemma at_row_seg : forall k lens i r,
  match find_row i lens r with Some (j, off) => opt_cell (chunk_at k j) off | None => blank end = seg_at k i lens r.
Proof. intros k. induction lens as [|n t IH]; intros i r; cbn [find_row seg_at]; auto. destruct (r <? n); auto. Qed.
Lemma seg_out : forall k lens i r, total lens <= r -> seg_at k i lens r = blank.
Proof. intros k lens i r H. rewrite <- at_row_seg. now apply (find_row_none lens i) in H; rewrite H. Qed.
Definition plan_lens (plan : list item) : list N := map item_len plan.
Lemma plan_at_find : forall k plan i r, plan_at k plan r =
  match find_row i (plan_lens plan) r with
  | Some (j, off) => match nthN plan (j - i) with Some x => item_cell k x off | None => blank end
  | None => blank
  end.
Proof.
  intros k. induction plan as [|x t IH]; intros i r; cbn [plan_at plan_lens map find_row]; auto. destruct (r <? item_len x).
  - now replace (i - i) with 0 by lia.
  - rewrite (IH (i + 1)). destruct (find_row (i + 1) (plan_lens t) (r - item_len x)) as [[j off]|] eqn:F; unfold plan_lens in F; rewrite F; auto.
    apply find_row_some in F. destruct F as [L _]. rewrite nthN_cons. replace (j - i =? 0) with false by lia. now replace (j - i - 1) with (j - (i + 1)) by lia.
Qed.

Lemma Forall2_len : forall A B (R : A -> B -> Prop) l ys, Forall2 R l ys -> lenN l = lenN ys.
Proof. intros A B R l ys F. induction F; auto. rewrite !lenN_cons. lia. Qed.
Lemma Forall2_imp : forall A B (R Q : A -> B -> Prop) l ys, (forall x y, R x y -> Q x y) -> Forall2 R l ys -> Forall2 Q l ys.
Proof. intros A B R Q l ys H F. induction F; auto. Qed.
(* ---- a column that realises a plan ---- *)
Section Plain.
Variable pl : bool.
Definition realises (k : col) (x : item) (o : option chunk) : Prop :=
  (forall j, j < item_len x -> opt_cell o j = item_cell k x j) /\
  (forall ch, o = Some ch -> ok_chunk pl ch /\ c_len ch = item_len x).
Definition holds (k' : col) (os : list (option chunk)) : Prop :=
  lenN (k_dense k') <= lenN os /\ forall i, chunk_at k' i = match nthN os i with Some o => o | None => None end.
Lemma realised_col : forall k k' plan os, Forall2 (realises k) plan os -> holds k' os ->
  col_ok pl (plan_lens plan) k' /\ forall r, at_row (plan_lens plan) k' r = plan_at k plan r.
Proof.
  intros k k' plan os F [D H].
  assert (L : lenN plan = lenN os) by (eapply Forall2_len; eauto).
  assert (NX : forall i x, nthN plan i = Some x -> exists o, nthN os i = Some o /\ realises k x o).
  { clear D H. induction F as [|x o p os R F IH]; intros i y G; [unfold nthN in G; destruct (N.to_nat i); discriminate|].
    rewrite nthN_cons in *. destruct (i =? 0); [injection G as <-; eauto|]. apply IH; auto. rewrite !lenN_cons in L. lia. }
  split.
  - split; [unfold plan_lens; rewrite lenN_map; lia|]. intros i ch E. rewrite H in E.
    destruct (nthN os i) as [o|] eqn:EO; [|discriminate]. subst o. pose proof (nthN_some _ _ _ _ EO). destruct (nthN_lt _ plan i) as [x EX]; [lia|].
    destruct (NX _ _ EX) as (o & EO' & R1 & R2). rewrite EO in EO'. injection EO' as <-. destruct (R2 _ eq_refl) as [OK CL].
    exists (item_len x). unfold plan_lens. rewrite nthN_map, EX. split; auto. split; auto. split; [lia|auto].
  - intros r. rewrite (plan_at_find k plan 0). unfold at_row. destruct (find_row 0 (plan_lens plan) r) as [[i off]|] eqn:FR; auto.
    apply find_row_some in FR. destruct FR as (_ & n & EN & O & _). replace (i - 0) with i in * by lia. unfold plan_lens in EN. rewrite nthN_map in EN.
    destruct (nthN plan i) as [x|] eqn:EX; [|discriminate]. cbn in EN. injection EN as <-. destruct (NX _ _ EX) as (o & EO & R1 & R2).
    rewrite H, EO. now apply R1.
Qed.
Lemma holds_dense : forall l, holds (Col l []) (map Some l).
Proof. intros l. split; [cbn [k_dense]; rewrite lenN_map; lia|]. intros i. rewrite chunk_at_dense, nthN_map. now destruct (nthN l i). Qed.

Lemma place_spec : forall os i0 dense sparse prefix,
  lenN dense <= i0 -> (prefix = true -> lenN dense = i0 /\ sparse = []) -> (forall j, i0 <= j -> pget sparse j = None) ->
  (forall j, j < lenN dense -> pget sparse j = None) ->
  let k' := place i0 dense sparse prefix os in
  lenN (k_dense k') <= i0 + lenN os /\
  forall i, chunk_at k' i = if i <? i0 then chunk_at (Col dense sparse) i else match nthN os (i - i0) with Some o => o | None => None end.
Proof.
  induction os as [|[ch|] os IH]; intros i0 dense sparse prefix L PF SP SD; cbn [place].
  - cbv zeta. split; [cbn [k_dense]; lia|]. intros i. destruct (i <? i0) eqn:E; auto. unfold chunk_at. cbn [k_dense k_sparse].
    replace (i <? lenN dense) with false by lia. rewrite SP by lia. unfold nthN. now destruct (N.to_nat (i - i0)).
  - destruct prefix.
    + destruct (PF eq_refl) as [D ->]. replace (i0 =? lenN dense) with true by lia. cbn [andb].
      assert (D1 : lenN (dense ++ [ch]) = i0 + 1) by (rewrite lenN_app, lenN_cons; change (lenN (@nil chunk)) with 0; lia).
      destruct (IH (i0 + 1) (dense ++ [ch]) [] true) as [A B]; try lia; auto. cbv zeta in A, B. cbv zeta. rewrite lenN_cons. split; [lia|].
      intros i. rewrite B. destruct (i <? i0 + 1) eqn:E1.
      * rewrite !chunk_at_dense, nthN_app. destruct (i <? i0) eqn:E2.
        -- now replace (i <? lenN dense) with true by lia.
        -- replace (i <? lenN dense) with false by lia. replace (i - lenN dense) with 0 by lia. now replace (i - i0) with 0 by lia.
      * replace (i <? i0) with false by lia. rewrite nthN_cons. replace (i - i0 =? 0) with false by lia. now replace (i - i0 - 1) with (i - (i0 + 1)) by lia.
    + cbn [andb].
      destruct (IH (i0 + 1) dense (pput sparse i0 ch) false) as [A B]; try lia; try discriminate.
      { intros j H. rewrite pget_put. replace (j =? i0) with false by lia. apply SP. lia. }
      { intros j H. rewrite pget_put. replace (j =? i0) with false by lia. now apply SD. }
      cbv zeta in A, B. cbv zeta. rewrite lenN_cons. split; [lia|]. intros i. rewrite B. destruct (i <? i0 + 1) eqn:E1.
      * unfold chunk_at. cbn [k_dense k_sparse]. rewrite pget_put. destruct (i =? i0) eqn:E3.
        -- replace (i <? i0) with false by lia. replace (i <? lenN dense) with false by lia. now replace (i - i0) with 0 by lia.
        -- now replace (i <? i0) with true by lia.
      * replace (i <? i0) with false by lia. rewrite nthN_cons. replace (i - i0 =? 0) with false by lia. now replace (i - i0 - 1) with (i - (i0 + 1)) by lia.
  - destruct (IH (i0 + 1) dense sparse (if prefix && (i0 =? lenN dense) then false else prefix)) as [A B]; try lia; auto.
    { destruct prefix; cbn [andb]; [|discriminate]. destruct (PF eq_refl) as [D ->]. replace (i0 =? lenN dense) with true by lia. discriminate. }
    { intros j H. apply SP. lia. }
    cbv zeta in A, B. cbv zeta. rewrite lenN_cons. split; [lia|]. intros i. rewrite B. destruct (i <? i0 + 1) eqn:E1.
    + destruct (i <? i0) eqn:E2; auto. replace (i - i0) with 0 by lia. unfold chunk_at. cbn [k_dense k_sparse].
      replace (i <? lenN dense) with false by lia. rewrite SP by lia. reflexivity.
    + replace (i <? i0) with false by lia. rewrite nthN_cons. replace (i - i0 =? 0) with false by lia. now replace (i - i0 - 1) with (i - (i0 + 1)) by lia.
Qed.
Lemma holds_place : forall os, holds (place 0 [] [] true os) os.
Proof.
  intros os. destruct (place_spec os 0 [] [] true) as [A B]; auto; try lia.
  { change (lenN (@nil chunk)) with 0. lia. }
  cbv zeta in A, B. split; auto. intros i. rewrite B. replace (i <? 0) with false by lia. now replace (i - 0) with i by lia.
Qed.

Section Mem.
Variable mem : payload -> N.

(* a part of a plan lies within the old chunk *)
Definition item_ok (lens : list N) (x : item) : Prop :=
  0 < item_len x /\
  match x with PEmpty n => n <= U32_MAX | PSlice i off len => exists n, nthN lens i = Some n /\ off + len <= n end.
Lemma produce_spec : forall lens k x, col_ok pl lens k -> item_ok lens x -> exists o, produce mem k x = Some o /\ realises k x o.
Proof.
  intros lens k x [_ CK] [P IO]. destruct x as [i off len|n]; cbn [produce item_len] in *.
  - destruct IO as (n & EN & LE). destruct (chunk_at k i) as [ch|] eqn:CH.
    + destruct (CK _ _ CH) as (m & EN' & OK & LE' & _). rewrite EN in EN'. injection EN' as <-.
      destruct ((off =? 0) && (len =? c_len ch)) eqn:E.
      * exists (Some ch). split; auto. split; [|intros c X; injection X as <-; cbn; split; auto; lia].
        intros j H. cbn [item_cell]. rewrite CH. cbn. f_equal. lia.
      * destruct (slice_chunk_spec pl mem ch off len OK ltac:(lia)) as (ch' & E1 & OK' & CL & CE). exists (Some ch'). rewrite E1. split; auto.
        split; [|intros c X; injection X as <-; auto]. intros j H. cbn [item_cell opt_cell]. rewrite CH. cbn. now apply CE.
    + exists None. split; auto. split; [|discriminate]. intros j H. cbn [item_cell]. now rewrite CH.
  - exists None. split; auto. split; [|discriminate]. reflexivity.
Qed.
Lemma mapM_spec : forall A B (f : A -> option B) (R : A -> B -> Prop) l,
  (forall x, In x l -> exists y, f x = Some y /\ R x y) -> exists ys, mapM f l = Some ys /\ Forall2 R l ys.
Proof.
  intros A B f R. induction l as [|x l IH]; intros H; cbn [mapM].
  - exists []. auto.
  - destruct (H x (or_introl eq_refl)) as (y & -> & Ry). destruct IH as (ys & -> & F); [intros z I; apply H; now right|]. exists (y :: ys). auto.
Qed.
Lemma rebuild_col_spec : forall lens plan k, col_ok pl lens k -> Forall (item_ok lens) plan ->
  exists k', rebuild_col mem plan k = Some k' /\ col_ok pl (plan_lens plan) k' /\ forall r, at_row (plan_lens plan) k' r = plan_at k plan r.
Proof.
  intros lens plan k OK F. unfold rebuild_col.
  destruct (mapM_spec _ _ (produce mem k) (realises k) plan) as (os & -> & F2).
  { intros x IN. rewrite Forall_forall in F. apply produce_spec with lens; auto. }
  cbn [option_map]. eexists. split; [reflexivity|]. eapply realised_col; eauto. apply holds_place.
Qed.
Lemma Forall2_nth : forall A B (R : A -> B -> Prop) l ys, Forall2 R l ys ->
  forall c, match nthN l c with Some x => exists y, nthN ys c = Some y /\ R x y | None => nthN ys c = None end.
Proof.
  intros A B R l ys F. induction F as [|x y l ys r F IH]; intros c.
  - unfold nthN. now destruct (N.to_nat c).
  - rewrite !nthN_cons. destruct (c =? 0); [eauto|apply IH].
Qed.

Lemma plan_starts_all : forall lens plan, Forall (item_ok lens) plan -> plan_starts plan = sums 0 (plan_lens plan) /\ positive (plan_lens plan).
Proof.
  intros lens plan F. assert (P : forall x, In x plan -> 0 < item_len x) by (intros x IN; rewrite Forall_forall in F; apply F; auto).
  split.
  - unfold plan_starts, plan_lens. f_equal. clear F. induction plan as [|x p IH]; auto. cbn [map filter].
    pose proof (P x (or_introl eq_refl)). replace (item_len x =? 0) with false by lia. cbn [negb]. f_equal. apply IH. intros y IN. apply P. now right.
  - intros n IN. apply in_map_iff in IN. destruct IN as (x & <- & IN). auto.
Qed.

(* both ways of rebuilding a sheet *)
Definition follows (s : sheet) (plan : list item) (s' : sheet) : Prop :=
  s_starts s' = sums 0 (plan_lens plan) /\ s_rows s' = total (plan_lens plan) /\ s_crows s' = s_crows s /\
  Forall2 (fun k k' => col_ok pl (plan_lens plan) k' /\ forall r, at_row (plan_lens plan) k' r = plan_at k plan r) (s_cols s) (s_cols s').
Lemma follows_spec : forall s lens plan s', inv pl s lens -> Forall (item_ok lens) plan -> follows s plan s' ->
  (forall n, In (PEmpty n) plan -> n <= N.max (s_crows s) 1) -> total (plan_lens plan) <= U32_MAX ->
  inv pl s' (plan_lens plan) /\ forall r c, layer s' (plan_lens plan) r c =
     match nthN (s_cols s) c with Some k => plan_at k plan r | None => blank end.
Proof.
  intros s lens plan s' I F (A & B & C & D) E U. destruct (plan_starts_all lens plan F) as [_ P].
  pose proof I as (_ & (_ & BD) & _). split.
  - split; [split; auto|]. split.
    + split; [lia|]. intros n IN. rewrite C. apply in_map_iff in IN. destruct IN as (x & <- & IN). destruct x as [i off len|n0]; [|cbn; auto].
      rewrite Forall_forall in F. destruct (F _ IN) as [_ (m & EN & LE)]. cbn. assert (m <= N.max (s_crows s) 1); [|lia].
      apply BD. now apply nth_error_In with (N.to_nat i).
    + intros k IN. apply In_nth_error in IN. destruct IN as [j G]. pose proof (Forall2_nth _ _ _ _ _ D (N.of_nat j)) as X.
      assert (G' : nthN (s_cols s') (N.of_nat j) = Some k) by (unfold nthN; now rewrite Nnat.Nat2N.id). rewrite G' in X.
      destruct (nthN (s_cols s) (N.of_nat j)); [|discriminate]. destruct X as (y & E1 & R & _). injection E1 as <-. exact R.
  - intros r c. unfold layer. pose proof (Forall2_nth _ _ _ _ _ D c) as X. destruct (nthN (s_cols s) c) as [k|].
    + destruct X as (k' & -> & _ & R). apply R.
    + now rewrite X.
Qed.
Lemma rebuild_follows : forall s lens plan rows, inv pl s lens -> Forall (item_ok lens) plan -> rows = total (plan_lens plan) ->
  exists s', rebuild mem s rows plan = Some s' /\ follows s plan s'.
Proof.
  intros s lens plan rows (_ & _ & CO) F R. unfold rebuild. destruct (plan_starts_all lens plan F) as [PS _].
  destruct (mapM_spec _ _ (rebuild_col mem plan) (fun k k' => col_ok pl (plan_lens plan) k' /\ forall r, at_row (plan_lens plan) k' r = plan_at k plan r) (s_cols s))
    as (ks & -> & F2).
  { intros k IN. apply rebuild_col_spec with lens; auto. }
  cbn [option_map]. eexists. split; [reflexivity|]. split; [exact PS|]. split; [exact R|]. split; [reflexivity|exact F2].
Qed.
Lemma dense_follows : forall s lens plan rows (f : list chunk -> option (list chunk)) starts, inv pl s lens ->
  s_cols s <> [] -> rows = total (plan_lens plan) ->
  (forall k, In k (s_cols s) -> exists l, f (k_dense k) = Some l /\ Forall2 (realises k) plan (map Some l)) ->
  exists s', bind (mapM (fun k => option_map (fun l => Col l []) (f (k_dense k))) (s_cols s))
                  (fun ks => Some (recompute (Sheet ks rows starts (s_crows s)))) = Some s' /\ follows s plan s'.
Proof.
  intros s lens plan rows f starts I NE R H.
  destruct (mapM_spec _ _ (fun k => option_map (fun l => Col l []) (f (k_dense k)))
     (fun k k' => exists l, k' = Col l [] /\ Forall2 (realises k) plan (map Some l)) (s_cols s)) as (ks & -> & F2).
  { intros k IN. destruct (H k IN) as (l & E & F). exists (Col l []). rewrite E. split; auto. exists l. auto. }
  cbn [bind]. eexists. split; [reflexivity|]. unfold follows, recompute. cbn [s_cols s_rows s_starts s_crows].
  split; [|split; [exact R|split; [reflexivity|]]].
  - destruct F2 as [|k k' t t' (l & -> & F) F2]; [congruence|]. cbn [k_dense]. f_equal.
    clear - F. remember (map Some l) as os eqn:EO. revert l EO. induction F as [|x o p os [_ R2] F IH]; intros l EO; destruct l as [|ch l]; try discriminate; auto.
    injection EO as -> EO. cbn [map plan_lens]. f_equal; [now apply R2|now apply IH].
  - eapply Forall2_imp; [|exact F2]. intros k k' (l & -> & F). eapply realised_col; eauto. apply holds_dense.
Qed.

(* ---- the plans ---- *)
Lemma plan_lens_app : forall a b, plan_lens (a ++ b) = plan_lens a ++ plan_lens b.
Proof. intros. apply map_app. Qed.
Lemma head_sums : forall n t cur, (match sums (cur + n) t with e :: _ => e | [] => cur + n + total t end) - cur = n.
Proof. intros n [|m t] cur; cbn; lia. Qed.
Lemma plan_at_app : forall k a b r, plan_at k (a ++ b) r = if r <? total (plan_lens a) then plan_at k a r else plan_at k b (r - total (plan_lens a)).
Proof.
  intros k. induction a as [|x a IH]; intros b r; cbn [plan_at app plan_lens map total fold_right].
  - replace (r <? 0) with false by lia. f_equal. lia.
  - rewrite IH. change (fold_right N.add 0 (map item_len a)) with (total (plan_lens a)). destruct (r <? item_len x) eqn:E.
    + now replace (r <? item_len x + total (plan_lens a)) with true by lia.
    + destruct (r - item_len x <? total (plan_lens a)) eqn:E2.
      * now replace (r <? item_len x + total (plan_lens a)) with true by lia.
      * replace (r <? item_len x + total (plan_lens a)) with false by lia. f_equal. lia.
Qed.
(* after the split chunk, or before it *)
Lemma ins_plan_past : forall k count si soff lens i cur, si < i -> positive lens ->
  let plan := ins_plan (cur + total lens) si soff count i (sums cur lens) in
  (forall r, plan_at k plan r = seg_at k i lens r) /\ plan_lens plan = lens /\
  forall x, In x plan -> exists j n, nthN lens j = Some n /\ x = PSlice (i + j) 0 n.
Proof.
  intros k count si soff. induction lens as [|n t IH]; intros i cur H P; cbn [sums ins_plan].
  - cbv zeta. split; auto. split; auto. intros x [].
  - assert (N0 : 0 < n) by (apply P; now left). assert (P' : positive t) by (intros y IN; apply P; now right).
    destruct (IH (i + 1) (cur + n) ltac:(lia) P') as (A & B & C). cbv zeta in A, B, C. cbv zeta.
    cbn [total fold_right]. change (fold_right N.add 0 t) with (total t). rewrite N.add_assoc, head_sums.
    replace (n =? 0) with false by lia. replace (i =? si) with false by lia. cbn [negb plan_at item_len item_cell plan_lens map seg_at].
    split; [|split].
    + intros r. destruct (r <? n); [f_equal; lia|apply A].
    + f_equal. exact B.
    + intros x [<- | IN].
      * exists 0, n. split; auto. f_equal. lia.
      * destruct (C x IN) as (j & m & EN & ->). exists (j + 1), m. rewrite nthN_cons. replace (j + 1 =? 0) with false by lia.
        replace (j + 1 - 1) with j by lia. split; auto. f_equal. lia.
Qed.
Lemma ins_plan_spec : forall k count soff lens i cur j n, positive lens -> nthN lens j = Some n -> soff <= n -> 0 < count ->
  let plan := ins_plan (cur + total lens) (i + j) soff count i (sums cur lens) in
  let b := total (firstn (N.to_nat j) lens) + soff in
  (forall r, plan_at k plan r = if r <? b then seg_at k i lens r else if r <? b + count then blank else seg_at k i lens (r - count)) /\
  total (plan_lens plan) = total lens + count /\
  (forall x, In x plan -> x = PEmpty count \/ exists j' n' off len, nthN lens j' = Some n' /\ x = PSlice (i + j') off len /\ off + len <= n' /\ 0 < len).
Proof.
  intros k count soff. induction lens as [|m t IH]; intros i cur j n P G SO C0; [unfold nthN in G; destruct (N.to_nat j); discriminate|].
  assert (N0 : 0 < m) by (apply P; now left). assert (P' : positive t) by (intros y IN; apply P; now right).
  cbn [sums ins_plan total fold_right]. change (fold_right N.add 0 t) with (total t). rewrite N.add_assoc, head_sums.
  replace (m =? 0) with false by lia. rewrite nthN_cons in G. destruct (j =? 0) eqn:EJ.
  - injection G as ->. replace (i + j) with i by lia. rewrite N.eqb_refl. cbn [negb]. cbv zeta.
    destruct (ins_plan_past k count i soff t (i + 1) (cur + n) ltac:(lia) P') as (A & B & C). cbv zeta in A, B, C.
    replace j with 0 by lia. change (N.to_nat 0) with 0%nat. cbn [firstn total fold_right]. replace (N.min soff n) with soff by lia.
    set (rest := ins_plan (cur + n + total t) i soff count (i + 1) (sums (cur + n) t)) in *. clearbody rest.
    split; [|split].
    + intros r. cbn [seg_at]. rewrite !plan_at_app. destruct (0 <? soff) eqn:E1; destruct (0 <? n - soff) eqn:E2;
        cbn [plan_lens map total fold_right item_len plan_at item_cell].
      * destruct (r <? soff + 0) eqn:E3.
        -- replace (r <? soff) with true by lia. replace (r <? 0 + soff) with true by lia. replace (r <? n) with true by lia. f_equal.
        -- destruct (r - (soff + 0) <? count + 0) eqn:E4.
           ++ replace (r <? 0 + soff) with false by lia. replace (r <? 0 + soff + count) with true by lia.
              now replace (r - (soff + 0) <? count) with true by lia.
           ++ replace (r <? 0 + soff) with false by lia. replace (r <? 0 + soff + count) with false by lia.
              destruct (r - (soff + 0) - (count + 0) <? n - soff + 0) eqn:E5.
              ** replace (r - (soff + 0) - (count + 0) <? n - soff) with true by lia. replace (r - count <? n) with true by lia. f_equal. lia.
              ** replace (r - count <? n) with false by lia. rewrite A. f_equal. lia.
      * replace soff with n in * by lia. destruct (r <? n + 0) eqn:E3.
        -- replace (r <? n) with true by lia. replace (r <? 0 + n) with true by lia. f_equal.
        -- destruct (r - (n + 0) <? count + 0) eqn:E4.
           ++ replace (r <? 0 + n) with false by lia. replace (r <? 0 + n + count) with true by lia.
              now replace (r - (n + 0) <? count) with true by lia.
           ++ replace (r <? 0 + n) with false by lia. replace (r <? 0 + n + count) with false by lia.
              replace (r - (n + 0) - (count + 0) <? 0) with false by lia. replace (r - count <? n) with false by lia. rewrite A. f_equal. lia.
      * replace soff with 0 in * by lia. replace (r <? 0) with false by lia. replace (r <? 0 + 0) with false by lia.
        destruct (r - 0 <? count + 0) eqn:E4.
        -- replace (r <? 0 + 0 + count) with true by lia. now replace (r - 0 <? count) with true by lia.
        -- replace (r <? 0 + 0 + count) with false by lia. destruct (r - 0 - (count + 0) <? n - 0 + 0) eqn:E5.
           ++ replace (r - 0 - (count + 0) <? n - 0) with true by lia. replace (r - count <? n) with true by lia. f_equal. lia.
           ++ replace (r - count <? n) with false by lia. rewrite A. f_equal. lia.
      * lia.
    + rewrite !plan_lens_app, !total_app, B. destruct (0 <? soff) eqn:E1; destruct (0 <? n - soff) eqn:E2; cbn; lia.
    + intros x IN. apply in_app_or in IN. destruct IN as [IN | IN].
      { right. destruct (0 <? soff) eqn:E1; [|destruct IN]. destruct IN as [<- | []]. exists 0, n, 0, soff. split; auto. split; [f_equal; lia|]. split; lia. }
      apply in_app_or in IN. destruct IN as [[<- | []] | IN]; [now left|]. right.
      apply in_app_or in IN. destruct IN as [IN | IN].
      { destruct (0 <? n - soff) eqn:E1; [|destruct IN]. destruct IN as [<- | []]. exists 0, n, soff, (n - soff). split; auto. split; [f_equal; lia|]. split; lia. }
      destruct (C x IN) as (j' & n' & EN & ->). exists (j' + 1), n', 0, n'. rewrite nthN_cons. replace (j' + 1 =? 0) with false by lia.
      replace (j' + 1 - 1) with j' by lia. split; auto. split; [f_equal; lia|]. split; [lia|]. apply P'. now apply nth_error_In with (N.to_nat j').
  - replace (i =? i + j) with false by lia. cbn [negb]. destruct (IH (i + 1) (cur + m) (j - 1) n P' G SO C0) as (A & B & C). cbv zeta in A, B, C.
    replace (i + 1 + (j - 1)) with (i + j) in * by lia. cbv zeta.
    replace (N.to_nat j) with (S (N.to_nat (j - 1))) by lia. cbn [firstn total fold_right]. 
    change (fold_right N.add 0 (firstn (N.to_nat (j - 1)) t)) with (total (firstn (N.to_nat (j - 1)) t)).
    set (rest := ins_plan (cur + m + total t) (i + j) soff count (i + 1) (sums (cur + m) t)) in *. clearbody rest.
    set (q := total (firstn (N.to_nat (j - 1)) t)) in *. clearbody q.
    split; [|split].
    + intros r. cbn [seg_at plan_at item_len item_cell]. destruct (r <? m) eqn:E1.
      * replace (r <? m + q + soff) with true by lia. f_equal.
      * rewrite A. destruct (r - m <? q + soff) eqn:E2.
        -- now replace (r <? m + q + soff) with true by lia.
        -- replace (r <? m + q + soff) with false by lia. destruct (r - m <? q + soff + count) eqn:E3.
           ++ now replace (r <? m + q + soff + count) with true by lia.
           ++ replace (r <? m + q + soff + count) with false by lia. replace (r - count <? m) with false by lia. f_equal. lia.
    + cbn [plan_lens map total fold_right item_len]. change (fold_right N.add 0 (map item_len rest)) with (total (plan_lens rest)). rewrite B. lia.
    + intros x [<- | IN].
      * right. exists 0, m, 0, m. split; auto. split; [f_equal; lia|]. split; lia.
      * destruct (C x IN) as [-> | (j' & n' & off & len & EN & -> & L1 & L2)]; [now left|]. right. exists (j' + 1), n', off, len. rewrite nthN_cons.
        replace (j' + 1 =? 0) with false by lia. replace (j' + 1 - 1) with j' by lia. split; auto. split; [f_equal; lia|]. auto.
Qed.
End Mem.
End Plain.
