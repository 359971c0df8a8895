(* Overlays: well-formed fragments, their values, the constructors and the
   segments of a fragment. *)
From Coq Require Import List Bool NArith ZArith Lia.
From Coq Require Import ZifyN ZifyNat ZifyBool.
From Verif Require Import Base Maps OvModel OvSpec OvProofs.
Import ListNotations.
Open Scope N_scope.

(* run ends strictly increase from [prev] to [len]; neighbouring values differ *)
Fixpoint runs_ok (prev len : N) (cur : option ov) (ends : list N) (vs : list ov) : Prop :=
  match ends, vs with
  | [], [] => prev = len /\ cur <> None
  | e :: es, v :: r =>
      prev < e /\ match cur with Some c => ov_eqb c v = false | None => True end
      /\ runs_ok e len (Some v) es r
  | _, _ => False
  end.
Inductive wf : frag -> Prop :=
| wf_sparse : forall offs vs, offs <> [] -> incr 0 offs -> (forall o, In o offs -> o < MAX_OFF) ->
    length vs = length offs -> wf (Sparse offs (from_values vs))
| wf_dense : forall s vs, vs <> [] -> s + lenN vs <= MAX_OFF -> wf (Dense s (lenN vs) (from_values vs))
| wf_run : forall s len ends vs, runs_ok 0 len None ends vs -> s + len <= MAX_OFF ->
    wf (Run s len ends (from_values vs)).

Lemma runs_ok_le : forall ends vs prev len cur, runs_ok prev len cur ends vs -> prev <= len.
Proof.
  induction ends as [|e es IH]; intros [|v vs] prev len cur; cbn; try tauto.
  - intros [-> _]. lia.
  - intros (A & _ & B). apply IH in B. lia.
Qed.
Lemma runs_ok_pos : forall ends vs len, runs_ok 0 len None ends vs -> 0 < len.
Proof.
  intros [|e es] [|v vs] len; cbn; try tauto. intros (A & _ & B). apply runs_ok_le in B. lia.
Qed.
Lemma runs_ok_length : forall ends vs prev len cur, runs_ok prev len cur ends vs -> length ends = length vs.
Proof.
  induction ends as [|e es IH]; intros [|v vs] prev len cur; cbn; try tauto. intros (_ & _ & B). f_equal. eauto.
Qed.

(* the value at position [x] *)
Fixpoint run_at (ends : list N) (vs : list ov) (x : N) : option ov :=
  match ends, vs with
  | e :: es, v :: r => if x <? e then Some v else run_at es r x
  | _, _ => None
  end.
Lemma run_at_pp : forall ends vs x, length ends = length vs ->
  nthN vs (partition_point (fun e => e <=? x) ends) = run_at ends vs x.
Proof.
  unfold nthN. induction ends as [|e es IH]; intros [|v vs] x; cbn [length partition_point run_at]; try discriminate; auto.
  intros H. injection H as H. destruct (e <=? x) eqn:E.
  - replace (x <? e) with false by lia. rewrite <- IH by auto.
    replace (N.to_nat (1 + partition_point (fun e0 => e0 <=? x) es))
      with (S (N.to_nat (partition_point (fun e0 => e0 <=? x) es))) by lia. reflexivity.
  - replace (x <? e) with true by lia. reflexivity.
Qed.
Lemma run_at_some : forall ends vs prev len cur x, runs_ok prev len cur ends vs -> x < len ->
  prev < len -> exists v, run_at ends vs x = Some v.
Proof.
  induction ends as [|e es IH]; intros [|v vs] prev len cur x; cbn; try tauto.
  - intros [-> _]. lia.
  - intros (A & _ & B) X P. destruct (x <? e) eqn:E; eauto.
    pose proof (runs_ok_le _ _ _ _ _ B). apply (IH vs e len (Some v)); auto. lia.
Qed.
Lemma run_at_none : forall ends vs prev len cur x, runs_ok prev len cur ends vs -> len <= x ->
  run_at ends vs x = None.
Proof.
  induction ends as [|e es IH]; intros [|v vs] prev len cur x; cbn; try tauto; auto.
  intros (A & _ & B) X. pose proof (runs_ok_le _ _ _ _ _ B).
  replace (x <? e) with false by lia. eauto.
Qed.

(* ---- reading a fragment ---- *)
Lemma mget_combine_nth : forall (offs : list N) (vs : list ov) o, length vs = length offs ->
  mget N.eqb (combine offs vs) o =
  match search_from 0 offs o with Some i => nthN vs i | None => None end.
Proof.
  intros offs vs o H. assert (G : forall n,
    mget N.eqb (combine offs vs) o =
    match search_from n offs o with Some i => nthN vs (i - n) | None => None end).
  { revert vs H. induction offs as [|x offs IH]; intros [|v vs] H n; cbn in *; try discriminate; auto.
    destruct (o =? x) eqn:E.
    - unfold nthN. now replace (N.to_nat (n - n)) with 0%nat by lia.
    - rewrite (IH vs) with (n := n + 1) by congruence.
      destruct (search_from (n + 1) offs o) as [i|] eqn:SS; auto.
      apply search_from_some in SS. destruct SS as [SS _]. unfold nthN.
      replace (N.to_nat (i - n)) with (S (N.to_nat (i - (n + 1)))) by lia. reflexivity. }
  rewrite (G 0). destruct (search_from 0 offs o); auto. now rewrite N.sub_0_r.
Qed.
Lemma get_sparse : forall offs vs off, length vs = length offs -> (forall o, In o offs -> o < MAX_OFF) ->
  frag_get (Sparse offs (from_values vs)) off = mget N.eqb (combine offs vs) off.
Proof.
  intros offs vs off H HB. rewrite mget_combine_nth by auto. cbn. unfold binary_search.
  destruct (off <=? U32_MAX) eqn:E.
  - destruct (search_from 0 offs off); auto. apply from_values_get.
  - destruct (search_from 0 offs off) eqn:SS; auto. apply search_from_some in SS. destruct SS as [_ SS].
    apply nth_error_In in SS. apply HB in SS. unfold MAX_OFF in SS. lia.
Qed.
Lemma get_dense : forall s vs off, frag_get (Dense s (lenN vs) (from_values vs)) off = om_block s vs off.
Proof.
  intros s vs off. cbn. unfold om_block. destruct (off <? s); auto.
  destruct (lenN vs <=? off - s) eqn:E; [|apply from_values_get].
  symmetry. apply nth_error_None. unfold lenN in E. lia.
Qed.
Lemma get_run : forall s len ends vs off, runs_ok 0 len None ends vs -> s + len <= MAX_OFF ->
  frag_get (Run s len ends (from_values vs)) off = if off <? s then None else run_at ends vs (off - s).
Proof.
  intros s len ends vs off H HB. cbn. destruct (off <? s) eqn:E; auto.
  destruct (len <=? off - s) eqn:E2.
  - symmetry. eapply run_at_none; eauto. lia.
  - replace (off - s <=? U32_MAX) with true by (unfold MAX_OFF in HB; lia).
    rewrite from_values_get. apply run_at_pp. eapply runs_ok_length; eauto.
Qed.

(* interval fragments *)
Definition interval (f : frag) (s e : N) : Prop := interval_coverage f = Some (s, e).
Lemma coverage_bounds : forall f s e, wf f -> interval f s e ->
  s < e /\ e <= MAX_OFF /\ e = s + coverage_len f.
Proof.
  intros f s e W I. unfold interval in I. destruct W as [offs vs|s' vs A B|s' len ends vs R B]; cbn in I; try discriminate.
  - injection I as <- <-. cbn. assert (0 < lenN vs) by (unfold lenN; destruct vs; [congruence|cbn; lia]).
    unfold sat_add, MAX_OFF, U32_MAX, USIZE_MAX in *. lia.
  - injection I as <- <-. cbn. apply runs_ok_pos in R. unfold sat_add, MAX_OFF, U32_MAX, USIZE_MAX in *. lia.
Qed.
Lemma interval_get : forall f s e, wf f -> interval f s e ->
  forall off, (s <= off /\ off < e -> exists v, frag_get f off = Some v)
              /\ (off < s \/ e <= off -> frag_get f off = None).
Proof.
  intros f s e W I off. pose proof (coverage_bounds f s e W I) as (A & B & C).
  unfold interval in I. destruct W as [offs vs|s' vs V W|s' len ends vs R W]; cbn in I; try discriminate;
    injection I as <- EE; cbn [coverage_len] in C.
  - rewrite get_dense. unfold om_block. split; intros H.
    + replace (off <? s') with false by lia.
      destruct (nth_error vs (N.to_nat (off - s'))) eqn:E; eauto. apply nth_error_None in E. unfold lenN in *. lia.
    + destruct (off <? s') eqn:E; auto. apply nth_error_None. unfold lenN in *. lia.
  - rewrite get_run by auto. split; intros H.
    + replace (off <? s') with false by lia. eapply run_at_some; eauto; lia.
    + destruct (off <? s') eqn:E; auto. eapply run_at_none; eauto. lia.
Qed.
Lemma wf_cases : forall f, wf f ->
  (exists offs p, f = Sparse offs p) \/ (exists s e, interval f s e /\ s < e /\ e <= MAX_OFF).
Proof.
  intros f W0. destruct W0 as [offs vs|s vs V W|s len ends vs R W]; [left; eauto| |]; right.
  - exists s, (sat_add s (lenN vs)). pose proof (wf_dense s vs V W) as X.
    split; [reflexivity|]. destruct (coverage_bounds _ s (sat_add s (lenN vs)) X eq_refl) as (A & B & _). auto.
  - exists s, (sat_add s len). pose proof (wf_run s len ends vs R W) as X.
    split; [reflexivity|]. destruct (coverage_bounds _ s (sat_add s len) X eq_refl) as (A & B & _). auto.
Qed.

(* ---- equality of values ---- *)
Lemma f64_eqb_sym : forall a b, f64_eqb a b = f64_eqb b a.
Proof.
  intros a b. unfold f64_eqb. rewrite (N.eqb_sym a b).
  destruct (f64_is_nan a), (f64_is_nan b), (b =? a), (f64_is_zero a), (f64_is_zero b); reflexivity.
Qed.
Lemma text_eqb_sym : forall a b, text_eqb a b = text_eqb b a.
Proof. induction a as [|x a IH]; intros [|y b]; cbn; auto. now rewrite IH, N.eqb_sym. Qed.
Lemma ov_eqb_sym : forall a b, ov_eqb a b = ov_eqb b a.
Proof.
  intros a b. destruct a, b; cbn; auto using f64_eqb_sym, text_eqb_sym, N.eqb_sym.
  destruct b0, b; reflexivity.
Qed.

(* ---- constructors ---- *)
Lemma bt_insert_get : forall V (m : list (N * V)) k v j,
  mget N.eqb (bt_insert m k v) j = if j =? k then Some v else mget N.eqb m j.
Proof.
  intros V. induction m as [|[k' v'] m IH]; intros k v j; cbn; auto.
  destruct (k <? k') eqn:E1; cbn; auto. destruct (k =? k') eqn:E2; cbn.
  - apply N.eqb_eq in E2. subst. destruct (j =? k'); auto.
  - rewrite IH. apply N.eqb_neq in E2. destruct (j =? k') eqn:E3; auto.
    apply N.eqb_eq in E3. subst. replace (k' =? k) with false by lia. reflexivity.
Qed.
Lemma bt_insert_incr : forall V (m : list (N * V)) k v lo,
  lo <= k -> incr lo (map fst m) -> incr lo (map fst (bt_insert m k v)).
Proof.
  intros V. induction m as [|[k' v'] m IH]; intros k v lo H; cbn; [auto|].
  intros [A B]. destruct (k <? k') eqn:E1; cbn.
  - split; [lia|]. split; [lia|auto].
  - destruct (k =? k') eqn:E2; cbn.
    + apply N.eqb_eq in E2. subst. auto.
    + split; auto. apply IH; auto. lia.
Qed.
Lemma bt_insert_in : forall V (m : list (N * V)) k v x,
  In x (map fst (bt_insert m k v)) <-> x = k \/ In x (map fst m).
Proof.
  intros V. induction m as [|[k' v'] m IH]; intros k v x; cbn; [intuition|].
  destruct (k <? k') eqn:E1; cbn; [intuition|]. destruct (k =? k') eqn:E2; cbn.
  - apply N.eqb_eq in E2. subst. intuition.
  - rewrite IH. intuition.
Qed.
Lemma bt_of_get : forall items m j,
  mget N.eqb (bt_of items m) j = match last_of j items with Some v => Some v | None => mget N.eqb m j end.
Proof.
  unfold bt_of. induction items as [|[k v] r IH]; intros m j; cbn; auto.
  rewrite IH, bt_insert_get. destruct (last_of j r); auto. destruct (j =? k); auto.
Qed.
Lemma bt_of_incr : forall V (items m : list (N * V)), incr 0 (map fst m) -> incr 0 (map fst (bt_of items m)).
Proof.
  intros V. unfold bt_of. induction items as [|[k v] r IH]; intros m H; cbn; auto.
  apply IH. apply bt_insert_incr; auto. lia.
Qed.
Lemma bt_of_in : forall V (items m : list (N * V)) x,
  In x (map fst (bt_of items m)) <-> In x (map fst items) \/ In x (map fst m).
Proof.
  intros V. unfold bt_of. induction items as [|[k v] r IH]; intros m x; cbn; [tauto|].
  rewrite IH, bt_insert_in. intuition.
Qed.
Lemma combine_fst_snd : forall A B (m : list (A * B)), combine (map fst m) (map snd m) = m.
Proof. intros A B. induction m as [|[a b] m IH]; cbn; auto. now rewrite IH. Qed.
Lemma last_of_in : forall k items v, last_of k items = Some v -> In (k, v) items.
Proof.
  intros k. induction items as [|[j w] r IH]; cbn; intros v H; [discriminate|].
  destruct (last_of k r) eqn:E; [right; apply IH; congruence|].
  destruct (k =? j) eqn:EQ; [|discriminate]. apply N.eqb_eq in EQ. left. congruence.
Qed.
Lemma last_of_none : forall k items, last_of k items = None <-> ~ In k (map fst items).
Proof.
  intros k. induction items as [|[j w] r IH]; cbn; [tauto|]. destruct (last_of k r) eqn:E.
  - split; [discriminate|]. intros H. apply last_of_in in E. exfalso. apply H. right.
    change k with (fst (k, o)). now apply in_map.
  - destruct (k =? j) eqn:EQ.
    + apply N.eqb_eq in EQ. subst. split; [discriminate|tauto].
    + apply N.eqb_neq in EQ. split; auto. intros _ [H | H]; [congruence|]. now apply IH in H.
Qed.

Lemma sparse_offsets_none : forall items, sparse_offsets items = None <-> items = [].
Proof.
  intros items. unfold sparse_offsets. split.
  - destruct (bt_of items []) eqn:E; [|discriminate]. intros _. destruct items as [|[k v] r]; auto.
    exfalso. assert (I : In k (map fst (bt_of ((k, v) :: r) []))) by (apply bt_of_in; cbn; auto).
    rewrite E in I. destruct I.
  - intros ->. reflexivity.
Qed.
Lemma sparse_offsets_some : forall items f, sparse_offsets items = Some f ->
  (forall k v, In (k, v) items -> k < MAX_OFF) ->
  wf f /\ forall off, frag_get f off = last_of off items.
Proof.
  intros items f H HB. unfold sparse_offsets in H. 
  assert (HE : bt_of items [] <> [] /\ f = Sparse (map fst (bt_of items [])) (from_values (map snd (bt_of items [])))).
  { destruct (bt_of items []) as [|kv m]; [discriminate|]. split; congruence. }
  destruct HE as [NE ->].
  assert (B : forall o, In o (map fst (bt_of items [])) -> o < MAX_OFF).
  { intros o I. apply bt_of_in in I. destruct I as [I | []]. apply in_map_iff in I. destruct I as ([k v] & <- & I). eauto. }
  split.
  - constructor; auto.
    + destruct (bt_of items []); [congruence|discriminate].
    + apply bt_of_incr. cbn. auto.
    + now rewrite !map_length.
  - intros off. rewrite get_sparse by (auto; now rewrite !map_length).
    rewrite combine_fst_snd, bt_of_get. destruct (last_of off items); auto.
Qed.

Lemma dense_range_some : forall s vs f, dense_range s vs = Some f -> s + lenN vs <= MAX_OFF ->
  wf f /\ forall off, frag_get f off = om_block s vs off.
Proof.
  intros s vs f H B. unfold dense_range in H. destruct vs as [|v vs]; [discriminate|]. injection H as <-.
  split; [constructor; [discriminate|auto]|]. intros off. apply get_dense.
Qed.

(* run_range_from_parts keeps runs whose neighbours differ *)
Lemma merge_runs_id : forall ends vs prev len cur racc vacc,
  runs_ok prev len cur ends vs ->
  length racc = length vacc ->
  (match cur with Some c => exists r, vacc = c :: r | None => vacc = [] end) ->
  merge_runs len prev (combine ends vs) racc vacc = Some (len, rev racc ++ ends, rev vacc ++ vs).
Proof.
  induction ends as [|e es IH]; intros [|v vs] prev len cur racc vacc H HL HC; cbn [runs_ok] in H; try tauto.
  - destruct H as [-> _]. cbn. now rewrite !app_nil_r.
  - destruct H as (A & D & R). cbn [combine merge_runs]. pose proof (runs_ok_le _ _ _ _ _ R).
    replace ((e <=? prev) || (len <? e)) with false by lia.
    destruct cur as [c|].
    + destruct HC as (r & ->). destruct racc as [|x racc]; [discriminate|]. rewrite D.
      rewrite (IH vs e len (Some v) (e :: x :: racc) (v :: c :: r)); auto; [|cbn in *; congruence|eauto].
      cbn [rev]. rewrite <- !app_assoc. reflexivity.
    + subst vacc. destruct racc; [|discriminate].
      rewrite (IH vs e len (Some v) [e] [v]); auto. eauto.
Qed.
Lemma runs_ok_last : forall ends vs prev len cur, runs_ok prev len cur ends vs -> ends <> [] -> last ends 0 = len.
Proof.
  induction ends as [|e es IH]; intros [|v vs] prev len cur H NE; cbn in H; try tauto.
  destruct H as (_ & _ & H). destruct es as [|e' es].
  - destruct vs; cbn in H; [|tauto]. cbn. tauto.
  - rewrite <- (IH vs e len (Some v) H) by discriminate. reflexivity.
Qed.
Lemma from_parts_id : forall s len ends vs, runs_ok 0 len None ends vs ->
  run_range_from_parts s len ends vs = Some (Run s len ends (from_values vs)).
Proof.
  intros s len ends vs H. unfold run_range_from_parts.
  pose proof (runs_ok_pos _ _ _ H). pose proof (runs_ok_length _ _ _ _ _ H) as L.
  assert (NE : ends <> []) by (destruct ends, vs; cbn in H; try tauto; try discriminate; destruct H; congruence).
  replace ((len =? 0) || (lenN ends =? 0) || negb (lenN ends =? lenN vs)) with false.
  2:{ unfold lenN. destruct ends; [congruence|]. cbn [length] in *. lia. }
  rewrite (merge_runs_id ends vs 0 len None [] []) by auto. cbn [rev app].
  rewrite (runs_ok_last _ _ _ _ _ H NE), N.eqb_refl. reflexivity.
Qed.

(* run_range *)
Lemma split_runs_ok : forall vs i cur ends vals prev c,
  split_runs i cur vs = (ends, vals) -> prev < i ->
  match c with Some c => ov_eqb c cur = false | None => True end ->
  runs_ok prev (i + lenN vs) c ends vals.
Proof.
  induction vs as [|v vs IH]; cbn [split_runs]; intros i cur ends vals prev c H HP HC.
  - injection H as <- <-. cbn. unfold lenN. cbn. split; auto. split; auto. split; [lia|discriminate].
  - replace (i + lenN (v :: vs)) with (i + 1 + lenN vs) by (unfold lenN; cbn [length]; lia).
    destruct (ov_eqb v cur) eqn:E.
    + eapply IH; eauto. lia.
    + destruct (split_runs (i + 1) v vs) as [es ws] eqn:SS. injection H as <- <-. cbn.
      split; auto. split; auto. eapply IH; eauto; [lia|]. now rewrite ov_eqb_sym.
Qed.
Lemma split_runs_at : forall vs i cur ends vals x,
  split_runs i cur vs = (ends, vals) ->
  (x < i -> run_at ends vals x = Some cur) /\
  (i <= x -> run_at ends vals x = nth_error (settle_from cur vs) (N.to_nat (x - i))).
Proof.
  induction vs as [|v vs IH]; cbn [split_runs settle_from]; intros i cur ends vals x H.
  - injection H as <- <-. cbn. split; intros HX.
    + now replace (x <? i) with true by lia.
    + replace (x <? i) with false by lia. destruct (N.to_nat (x - i)); reflexivity.
  - destruct (ov_eqb v cur) eqn:E.
    + specialize (IH (i + 1) cur ends vals x H). destruct IH as [A B]. split; intros HX.
      * apply A. lia.
      * destruct (N.eq_dec x i) as [-> | NE].
        -- rewrite A by lia. now replace (N.to_nat (i - i)) with 0%nat by lia.
        -- rewrite B by lia. replace (N.to_nat (x - i)) with (S (N.to_nat (x - (i + 1)))) by lia. reflexivity.
    + destruct (split_runs (i + 1) v vs) as [es ws] eqn:SS. injection H as <- <-. cbn [run_at].
      specialize (IH (i + 1) v es ws x SS). destruct IH as [A B]. split; intros HX.
      * now replace (x <? i) with true by lia.
      * replace (x <? i) with false by lia. destruct (N.eq_dec x i) as [-> | NE].
        -- rewrite A by lia. now replace (N.to_nat (i - i)) with 0%nat by lia.
        -- rewrite B by lia. replace (N.to_nat (x - i)) with (S (N.to_nat (x - (i + 1)))) by lia. reflexivity.
Qed.
Lemma settle_from_length : forall vs cur, length (settle_from cur vs) = length vs.
Proof. induction vs as [|v vs IH]; intros cur; cbn; auto. destruct (ov_eqb v cur); cbn; now rewrite IH. Qed.
Lemma settle_length : forall vs, length (settle vs) = length vs.
Proof. intros [|v vs]; cbn; auto. now rewrite settle_from_length. Qed.
Lemma run_range_some : forall s vs, vs <> [] -> s + lenN vs <= MAX_OFF ->
  exists f, run_range s vs = Some f /\ wf f /\ forall off, frag_get f off = om_block s (settle vs) off.
Proof.
  intros s [|v vs] NE B; [congruence|]. unfold run_range.
  destruct (split_runs 1 v vs) as [ends vals] eqn:SS.
  assert (R : runs_ok 0 (lenN (v :: vs)) None ends vals).
  { replace (lenN (v :: vs)) with (1 + lenN vs) by (unfold lenN; cbn [length]; lia).
    eapply split_runs_ok; eauto. lia. }
  exists (Run s (lenN (v :: vs)) ends (from_values vals)). split; [now apply from_parts_id|].
  split; [now constructor|]. intros off. rewrite get_run by auto. unfold om_block. destruct (off <? s) eqn:E; auto.
  destruct (split_runs_at _ _ _ _ _ (off - s) SS) as [A C]. cbn [settle].
  destruct (N.to_nat (off - s)) as [|n] eqn:En.
  - rewrite A by lia. reflexivity.
  - rewrite C by lia. cbn [nth_error]. f_equal. lia.
Qed.
Lemma run_range_none : forall s vs, vs = [] -> run_range s vs = None.
Proof. intros s vs ->. reflexivity. Qed.

(* ---- segments ---- *)
Lemma seg_runs_spec : forall ends vs prev len cur p i rs re es ws,
  runs_ok prev len cur ends vs ->
  (forall j v, nth_error vs j = Some v -> overlay_value p (i + N.of_nat j) = Some v) ->
  rs < re -> re <= len -> prev < re ->
  seg_runs p rs re i prev ends = (es, ws) ->
  runs_ok (N.max prev rs - rs) (re - rs) (if prev <=? rs then None else cur) es ws
  /\ (forall x, rs <= x -> prev <= x -> x < re -> run_at es ws (x - rs) = run_at ends vs x).
Proof.
  induction ends as [|e ends IH]; intros [|v vs] prev len cur p i rs re es ws R P HR HL HP SS; cbn [runs_ok] in R; try tauto.
  - destruct R as [-> _]. lia.
  - destruct R as (A & D & R). cbn [seg_runs] in SS.
    assert (PV : overlay_value p i = Some v) by (rewrite <- (P 0%nat v eq_refl); f_equal; lia).
    rewrite PV in SS. cbn [opt_list app] in SS.
    destruct (re <=? e) eqn:E1.
    + destruct (N.max prev rs <? N.min e re) eqn:E2; [|lia].
      injection SS as <- <-. replace (N.min e re) with re by lia. cbn [runs_ok run_at]. split.
      * split; [lia|]. split; [destruct (prev <=? rs); auto|]. split; [lia|discriminate].
      * intros x X1 X2 X3. replace (x - rs <? re - rs) with true by lia. now replace (x <? e) with true by lia.
    + destruct (seg_runs p rs re (i + 1) e ends) as [es' ws'] eqn:S'.
      specialize (IH vs e len (Some v) p (i + 1) rs re es' ws' R).
      destruct IH as [I1 I2]; auto; try lia.
      { intros j w J. rewrite <- (P (S j) w J). f_equal. lia. }
      destruct (N.max prev rs <? N.min e re) eqn:E2.
      * injection SS as <- <-. replace (N.min e re) with e by lia. cbn [runs_ok run_at].
        replace (e <=? rs) with false in I1 by lia. replace (N.max e rs - rs) with (e - rs) in I1 by lia.
        split.
        -- split; [lia|]. split; [destruct (prev <=? rs); auto|exact I1].
        -- intros x X1 X2 X3. destruct (x <? e) eqn:E3.
           ++ now replace (x - rs <? e - rs) with true by lia.
           ++ replace (x - rs <? e - rs) with false by lia. apply I2; lia.
      * injection SS as <- <-. replace (e <=? rs) with true in I1 by lia.
        replace (prev <=? rs) with true by lia. replace (N.max prev rs - rs) with 0 by lia.
        replace (N.max e rs - rs) with 0 in I1 by lia. split; auto.
        intros x X1 X2 X3. cbn [run_at]. replace (x <? e) with false by lia. apply I2; lia.
Qed.

Lemma nth_error_firstn : forall A (l : list A) n i, nth_error (firstn n l) i = if Nat.ltb i n then nth_error l i else None.
Proof.
  intros A. induction l as [|x l IH]; intros [|n] [|i]; cbn; auto.
  - match goal with |- _ = (if ?c then _ else _) => now destruct c end.
  - rewrite IH. reflexivity.
Qed.
Lemma nth_error_skipn : forall A (l : list A) n i, nth_error (skipn n l) i = nth_error l (n + i).
Proof.
  intros A. induction l as [|x l IH]; intros [|n] i; cbn; auto. now destruct i.
Qed.

Lemma segment_spec : forall f s e ns a b, wf f -> interval f s e -> s <= a -> a < b -> b <= e ->
  ns + (b - a) <= MAX_OFF ->
  exists g, segment f ns a b = Some g /\ wf g /\ interval g ns (ns + (b - a)) /\
    forall off, frag_get g off = if (ns <=? off) && (off <? ns + (b - a)) then frag_get f (a + (off - ns)) else None.
Proof.
  intros f s e ns a b W I HA HAB HB HN. pose proof (coverage_bounds f s e W I) as (C1 & C2 & C3).
  unfold interval in I. destruct W as [offs vs|s' vs V W|s' len ends vs R W]; cbn in I; try discriminate;
    injection I as <- _; cbn [coverage_len] in C3.
  - cbn [segment dense_segment]. replace (b <=? a) with false by lia. replace (a <? s') with false by lia.
    rewrite values_slice_from by (unfold MAX_OFF, U32_MAX, USIZE_MAX in *; lia).
    set (ws := firstn (N.to_nat (b - a)) (skipn (N.to_nat (a - s')) vs)).
    assert (L : lenN ws = b - a).
    { unfold ws, lenN. rewrite firstn_length, skipn_length. unfold lenN in *. lia. }
    assert (NE : ws <> []) by (intros X; rewrite X in L; cbn in L; lia).
    exists (Dense ns (lenN ws) (from_values ws)). split; [destruct ws; [congruence|reflexivity]|].
    assert (WF : wf (Dense ns (lenN ws) (from_values ws))) by (constructor; [auto|lia]).
    split; auto. split.
    { unfold interval. cbn. rewrite L. f_equal. f_equal. unfold sat_add, MAX_OFF, U32_MAX, USIZE_MAX in *. lia. }
    intros off. rewrite !get_dense. unfold om_block.
    destruct (ns <=? off) eqn:E1; cbn [andb]; [|now replace (off <? ns) with true by lia].
    replace (off <? ns) with false by lia. unfold ws. rewrite nth_error_firstn, nth_error_skipn.
    destruct (off <? ns + (b - a)) eqn:E2.
    + replace (Nat.ltb (N.to_nat (off - ns)) (N.to_nat (b - a))) with true by lia.
      replace (a + (off - ns) <? s') with false by lia. f_equal. lia.
    + now replace (Nat.ltb (N.to_nat (off - ns)) (N.to_nat (b - a))) with false by lia.
  - cbn [segment run_segment]. replace (b <=? a) with false by lia.
    replace ((a <? s') || (sat_add s' len <? b)) with false
      by (unfold sat_add, MAX_OFF, U32_MAX, USIZE_MAX in *; lia).
    destruct (seg_runs (from_values vs) (a - s') (b - s') 0 0 ends) as [es ws] eqn:SS.
    destruct (seg_runs_spec ends vs 0 len None (from_values vs) 0 (a - s') (b - s') es ws) as [G1 G2]; auto; try lia.
    { intros j v J. rewrite from_values_get. unfold nthN. rewrite <- J. f_equal. lia. }
    replace (N.max 0 (a - s') - (a - s')) with 0 in G1 by lia. replace (b - s' - (a - s')) with (b - a) in G1 by lia.
    replace (if 0 <=? a - s' then None else None) with (@None ov) in G1 by (now destruct (0 <=? a - s')).
    exists (Run ns (b - a) es (from_values ws)). split; [now apply from_parts_id|].
    split; [constructor; auto|]. split.
    { unfold interval. cbn. f_equal. f_equal. unfold sat_add, MAX_OFF, U32_MAX, USIZE_MAX in *. lia. }
    intros off. rewrite !get_run by auto.
    destruct (ns <=? off) eqn:E1; cbn [andb]; [|now replace (off <? ns) with true by lia].
    replace (off <? ns) with false by lia. destruct (off <? ns + (b - a)) eqn:E2.
    + replace (a + (off - ns) <? s') with false by lia.
      rewrite <- (G2 (a + (off - ns) - s')) by lia. f_equal. lia.
    + eapply run_at_none; eauto. lia.
Qed.
