(** TAKE, DROP, HSTACK and VSTACK. *)
From Coq Require Import QArith Permutation Sorted ZifyNat ZifyBool.
From Verif Require Import Base Maps LookupModel LookupSpec AyModel AySpec AyProofs1 AyProofs2 AyProofs3 AyProofs4.
Close Scope Q_scope.

(** ** Slices *)
Definition slice {A} (lo hi : nat) (l : list A) : list A := firstn (hi - lo) (skipn lo l).
Lemma slice_length : forall A lo hi (l : list A), hi <= length l -> length (slice lo hi l) = hi - lo.
Proof. intros. unfold slice. rewrite firstn_length, skipn_length. lia. Qed.
Lemma nth_skipn : forall A lo (l : list A) i d, nth i (skipn lo l) d = nth (lo + i) l d.
Proof.
  intros A lo. induction lo as [|lo IH]; intros l i d; auto. destruct l as [|a l]; cbn; [now destruct i|]. apply IH.
Qed.
Lemma nth_firstn : forall A n (l : list A) i d, i < n -> nth i (firstn n l) d = nth i l d.
Proof.
  intros A n. induction n as [|n IH]; intros l i d H; [lia|]. destruct l as [|a l]; auto. destruct i; cbn; auto. apply IH. lia.
Qed.
Lemma nth_slice : forall A lo hi (l : list A) i d, i < hi - lo -> nth i (slice lo hi l) d = nth (lo + i) l d.
Proof. intros. unfold slice. rewrite nth_firstn by auto. apply nth_skipn. Qed.
Lemma slice_map_seq : forall A (f : nat -> A) lo hi n, hi <= n -> slice lo hi (map f (seq 0 n)) = map f (seq lo (hi - lo)).
Proof.
  intros A f lo hi n H. destruct (Nat.lt_ge_cases lo hi) as [L|L].
  2:{ unfold slice. replace (hi - lo) with 0 by lia. reflexivity. }
  apply list_ext with (d := f 0).
  - rewrite slice_length by (rewrite map_length, seq_length; lia). now rewrite map_length, seq_length.
  - intros i Hi. rewrite slice_length in Hi by (rewrite map_length, seq_length; lia).
    rewrite nth_slice by auto. rewrite nth_map_seq by lia. rewrite map_nth, seq_nth by lia. reflexivity.
Qed.
Lemma slice_all : forall A (l : list A), slice 0 (length l) l = l.
Proof. intros. unfold slice. rewrite Nat.sub_0_r. cbn. apply firstn_all. Qed.

Lemma cut_out_shows : forall w r0 r1 c0 c1, r1 <= v_rows w -> c1 <= v_cols w ->
  shows (cut_out w r0 r1 c0 c1) (norm (map (slice c0 c1) (slice r0 r1 (rows_of w)))).
Proof.
  intros w r0 r1 c0 c1 Hr Hc.
  assert (E : map (slice c0 c1) (slice r0 r1 (rows_of w)) =
              map (fun r => map (get_cell w r) (seq c0 (c1 - c0))) (seq r0 (r1 - r0))).
  { unfold rows_of. rewrite slice_map_seq, map_map by auto. apply map_ext. intros r. unfold row_of. now apply slice_map_seq. }
  rewrite E. unfold cut_out.
  destruct (Nat.leb_spec r1 r0); [|destruct (Nat.leb_spec c1 c0)]; cbn [orb].
  - replace (r1 - r0) with 0 by lia. eexists. split; reflexivity.
  - replace (c1 - c0) with 0 by lia. exists (Range (of_rows [])). split; [reflexivity|]. cbn [cells].
    change (rows_of (of_rows [])) with (@nil (list lval)). cbn [seq map].
    clear E. induction (seq r0 (r1 - r0)) as [|r l IH]; [reflexivity|]. cbn. exact IH.
  - assert (N : forall n m t, rect n m t -> 0 < m -> norm t = t).
    { intros n m t [_ W] Hm. revert W. clear -Hm. induction t as [|a t IH]; intros W; cbn; auto.
      rewrite (W a) by (now left). destruct m; [lia|]. cbn. f_equal. apply IH. intros. apply W. now right. }
    set (t := map _ (seq r0 (r1 - r0))).
    assert (R : rect (r1 - r0) (c1 - c0) t).
    { split; [unfold t; now rewrite map_length, seq_length|]. intros row Hin. unfold t in Hin. apply in_map_iff in Hin.
      destruct Hin as (r & <- & _). now rewrite map_length, seq_length. }
    rewrite (N _ _ _ R) by lia. apply (shows_collapse (r1 - r0) (c1 - c0)); auto; try lia.
    apply plain_of. intros row v Hin Hv. unfold t in Hin. apply in_map_iff in Hin. destruct Hin as (r & <- & _).
    apply in_map_iff in Hv. destruct Hv as (c & <- & _). eauto.
Qed.

(** ** TAKE and DROP *)
Lemma take_part_ok : forall A n k lo hi (l : list A), length l = n -> take_part n k = Part lo hi ->
  hi <= n /\ slice lo hi l = ends k l.
Proof.
  intros A n k lo hi l L. unfold take_part, ends. destruct (in_i64 (Z.abs k)); cbn [negb]; [|discriminate].
  destruct (Z.of_nat n <? Z.abs k)%Z eqn:E; [discriminate|]. destruct (0 <=? k)%Z eqn:F; intros H; inversion H; subst.
  - split; [lia|]. unfold slice. now rewrite Nat.sub_0_r.
  - split; auto. unfold slice. replace (Z.to_nat (Z.of_nat (length l) + k)) with (length l - Z.to_nat (- k)) by lia.
    rewrite <- skipn_length. apply firstn_all.
Qed.
Lemma take_part_in : forall n k, (Z.abs k <= Z.of_nat n)%Z -> (Z.abs k <= I64_MAX)%Z -> exists lo hi, take_part n k = Part lo hi.
Proof.
  intros n k H M. unfold take_part. assert (I : in_i64 (Z.abs k) = true) by (unfold in_i64, I64_MIN, I64_MAX in *; lia). rewrite I. cbn [negb].
  destruct (Z.of_nat n <? Z.abs k)%Z eqn:E; [lia|]. destruct (0 <=? k)%Z; eauto.
Qed.
Lemma take_part_far : forall n k, (Z.of_nat n < Z.abs k)%Z -> (Z.abs k <= I64_MAX)%Z -> take_part n k = TooFar.
Proof.
  intros n k H M. unfold take_part. assert (I : in_i64 (Z.abs k) = true) by (unfold in_i64, I64_MIN, I64_MAX in *; lia). rewrite I. cbn [negb].
  destruct (Z.of_nat n <? Z.abs k)%Z eqn:E; [auto|lia].
Qed.
Lemma drop_part_ok : forall A n k (l : list A), length l = n -> let '(lo, hi) := drop_part n k in
  hi <= n /\ slice lo hi l = rest_of k l.
Proof.
  intros A n k l L. unfold drop_part, rest_of. destruct (0 <=? k)%Z eqn:F.
  - split; [lia|]. unfold slice. subst n. destruct (Nat.le_ge_cases (Z.to_nat k) (length l)) as [H|H].
    + rewrite Nat.min_l by auto. rewrite <- skipn_length. apply firstn_all.
    + rewrite Nat.min_r by auto. rewrite !skipn_all2 by lia. now rewrite firstn_nil.
  - split; [lia|]. unfold slice. cbn [skipn]. rewrite Nat.sub_0_r. subst n. f_equal. lia.
Qed.

Lemma map_in_rect : forall w (f g : list lval -> list lval) l, (forall row, In row l -> In row (rows_of w)) ->
  (forall row, length row = v_cols w -> f row = g row) -> map f l = map g l.
Proof.
  intros w f g l I H. apply map_ext_in. intros row Hin. apply H. apply (rows_of_rect w). auto.
Qed.
Lemma slice_in : forall A lo hi (l : list A) x, In x (slice lo hi l) -> In x l.
Proof.
  intros A lo hi l x H. unfold slice in H.
  assert (F : forall n (u : list A), In x (firstn n u) -> In x u).
  { intros n u Hu. rewrite <- (firstn_skipn n u). apply in_app_iff. now left. }
  apply F in H. rewrite <- (firstn_skipn lo l). apply in_app_iff. now right.
Qed.

Lemma take_shows : forall w r c, is_empty w = false ->
  (Z.abs (int_arg 0 r) <= Z.of_nat (v_rows w))%Z -> (Z.abs (int_arg 0 c) <= Z.of_nat (v_cols w))%Z ->
  (Z.of_nat (v_rows w) <= I64_MAX)%Z -> (Z.of_nat (v_cols w) <= I64_MAX)%Z ->
  shows (f_take w r c) (norm (map (opt_ends c) (ends (int_arg 0 r) (rows_of w)))).
Proof.
  intros w r c E Hr Hc M1 M2. unfold f_take. fold (is_empty w). rewrite E.
  destruct (take_part_in (v_rows w) (int_arg 0 r)) as (r0 & r1 & P); try lia. rewrite P.
  destruct (take_part_ok _ _ _ _ _ (rows_of w) (rows_of_length w) P) as [B1 S1]. rewrite <- S1.
  destruct c as [v|]; cbn [opt_ends].
  - destruct (take_part_in (v_cols w) (int_arg 0 (Some v))) as (c0 & c1 & P'); try lia. rewrite P'.
    assert (B2 : c1 <= v_cols w) by (apply (take_part_ok _ _ _ _ _ (row_of w 0) (row_of_length w 0) P')).
    rewrite (map_in_rect w (ends _) (slice c0 c1)).
    + now apply cut_out_shows.
    + intros row. apply slice_in.
    + intros row L. symmetry. apply (take_part_ok _ _ _ _ _ row L P').
  - rewrite (map_in_rect w (fun l => l) (slice 0 (v_cols w))).
    + now apply cut_out_shows.
    + intros row. apply slice_in.
    + intros row L. rewrite <- L. symmetry. apply slice_all.
Qed.
Lemma drop_shows : forall w r c, is_empty w = false ->
  shows (f_drop w r c) (norm (map (opt_rest c) (rest_of (int_arg 0 r) (rows_of w)))).
Proof.
  intros w r c E. unfold f_drop. fold (is_empty w). rewrite E.
  pose proof (drop_part_ok _ (v_rows w) (int_arg 0 r) (rows_of w) (rows_of_length w)) as P.
  destruct (drop_part (v_rows w) (int_arg 0 r)) as [r0 r1]. destruct P as [B1 <-].
  destruct c as [v|]; cbn [opt_rest].
  - pose proof (fun row => drop_part_ok lval (v_cols w) (int_arg 0 (Some v)) row) as P.
    destruct (drop_part (v_cols w) (int_arg 0 (Some v))) as [c0 c1].
    rewrite (map_in_rect w (rest_of _) (slice c0 c1)).
    + apply cut_out_shows; auto. apply (P (row_of w 0)), row_of_length.
    + intros row. apply slice_in.
    + intros row L. symmetry. now apply P.
  - rewrite (map_in_rect w (fun l => l) (slice 0 (v_cols w))).
    + now apply cut_out_shows.
    + intros row. apply slice_in.
    + intros row L. rewrite <- L. symmetry. apply slice_all.
Qed.

(** ** Stacks *)
Definition solid (a : calc) : bool := match a with Scalar _ => true | Range w => negb (is_empty w) end.
Definition extent (axis : view -> nat) (a : calc) : nat := match a with Scalar _ => 1 | Range w => axis w end.

Lemma collect_spec : forall axis args target,
  collect axis target args =
  let es := filter solid args in
  let t := match target with Some t => Some t | None => option_map (extent axis) (hd_error es) end in
  if forallb (fun e => match t with Some t => extent axis e =? t | None => true end) es then Some (t, es) else None.
Proof.
  intros axis args. induction args as [|a args IH]; intros target; cbn.
  - destruct target; reflexivity.
  - destruct a as [v|w]; cbn.
    + destruct target as [t|]; cbn.
      * destruct t as [|[|t]]; cbn; auto. rewrite IH. cbn. destruct (forallb _ _); reflexivity.
      * rewrite IH. cbn. destruct (forallb _ _); reflexivity.
    + fold (is_empty w). destruct (is_empty w); cbn; [apply IH|]. destruct target as [t|]; cbn.
      * destruct (axis w =? t); cbn; auto. rewrite IH. cbn. destruct (forallb _ _); reflexivity.
      * rewrite Nat.eqb_refl. cbn. rewrite IH. cbn. destruct (forallb _ _); reflexivity.
Qed.

Lemma norm_cells : forall a, norm (cells a) = if solid a then cells a else [].
Proof.
  intros [v|w]; cbn; auto. unfold norm.
  assert (G : forall l, filter (fun row => negb (length row =? 0)) (map (row_of w) l) = if v_cols w =? 0 then [] else map (row_of w) l).
  { induction l as [|r l IH]; cbn; [now destruct (v_cols w =? 0)|]. rewrite row_of_length, IH. destruct (v_cols w =? 0); reflexivity. }
  unfold rows_of. rewrite G. unfold is_empty. destruct (v_rows w =? 0) eqn:E; cbn.
  - apply Nat.eqb_eq in E. rewrite E. cbn. now destruct (v_cols w =? 0).
  - destruct (v_cols w =? 0); reflexivity.
Qed.
Lemma stacked : forall args, flat_map (fun a => norm (cells a)) args = flat_map cells (filter solid args).
Proof.
  intros args. induction args as [|a args IH]; cbn; auto. rewrite norm_cells, IH. destruct (solid a); reflexivity.
Qed.
Lemma solid_rect : forall a, solid a = true -> rect (extent v_rows a) (extent v_cols a) (cells a) /\ 0 < extent v_rows a /\ 0 < extent v_cols a.
Proof.
  intros [v|w]; cbn; intros H.
  - split; [|lia]. split; auto. intros row [<-|[]]. reflexivity.
  - apply negb_true_iff, nonempty in H. split; [apply rows_of_rect|tauto].
Qed.
Lemma vstack_stored : forall es, map (map stored) (flat_map vstack_rows es) = flat_map cells es.
Proof.
  induction es as [|e es IH]; cbn; auto. rewrite map_app, IH. f_equal. destruct e as [v|w]; cbn; auto.
  apply map_stored, plain_rows_of.
Qed.

Lemma all_level : forall es t, forallb solid es = true -> hd_error es = Some t ->
  (forallb (fun e => extent v_cols e =? extent v_cols t) es = true <-> level (flat_map cells es)).
Proof.
  intros es t S H. rewrite forallb_forall in *. 
  assert (It : In t es) by (destruct es; inversion H; now left).
  assert (Row : forall e, In e es -> exists row, In row (cells e) /\ length row = extent v_cols e).
  { intros e He. destruct (solid_rect e (S e He)) as ([L W] & P & _). destruct (cells e) as [|row rest]; [cbn in L; lia|].
    exists row. split; [now left|]. apply W. now left. }
  split.
  - intros A a b Ha Hb. apply in_flat_map in Ha, Hb. destruct Ha as (e & He & Ha), Hb as (f & Hf & Hb).
    destruct (solid_rect e (S e He)) as ([_ W] & _). destruct (solid_rect f (S f Hf)) as ([_ W'] & _).
    rewrite (W a Ha), (W' b Hb). pose proof (A e He) as X. pose proof (A f Hf) as Y. apply Nat.eqb_eq in X, Y. congruence.
  - intros L e He. apply Nat.eqb_eq. destruct (Row e He) as (a & Ia & <-). destruct (Row t It) as (b & Ib & <-).
    apply L; apply in_flat_map; eauto.
Qed.
Lemma filter_all : forall A (f : A -> bool) l, forallb f (filter f l) = true.
Proof. intros. apply forallb_forall. intros x H. apply filter_In in H. tauto. Qed.

Lemma level_rect : forall t, t <> [] -> level t -> rect (length t) (length (hd [] t)) t.
Proof.
  intros t N L. split; auto. intros row H. destruct t as [|a t]; [congruence|]. apply L; auto. now left.
Qed.

Lemma vstack_ok : forall args, level (flat_map (fun a => norm (cells a)) args) ->
  shows (f_vstack args) (flat_map (fun a => norm (cells a)) args).
Proof.
  intros args L. rewrite stacked in *. unfold f_vstack. rewrite collect_spec. cbv zeta.
  pose proof (filter_all _ solid args) as S. set (es := filter solid args) in *. clearbody es.
  destruct es as [|t es'] eqn:E; [cbn; eexists; split; reflexivity|]. cbn [hd_error option_map]. rewrite <- E in *.
  assert (Hh : hd_error es = Some t) by (now rewrite E).
  rewrite (proj2 (all_level es t S Hh) L). rewrite E. rewrite <- E.
  eexists. split; [reflexivity|]. rewrite <- vstack_stored.
  destruct (solid_rect t) as ([Lt Wt] & P1 & P2); [rewrite forallb_forall in S; apply S; rewrite E; now left|].
  assert (NE : flat_map vstack_rows es <> []).
  { intros X. pose proof (vstack_stored es) as Y. rewrite X in Y. cbn in Y. rewrite E in Y. cbn in Y.
    symmetry in Y. apply app_eq_nil in Y. destruct Y as [Y _]. rewrite Y in Lt. cbn in Lt. lia. }
  assert (LV : level (flat_map vstack_rows es)).
  { intros a b Ha Hb. rewrite <- (map_length stored a), <- (map_length stored b). apply L; rewrite <- vstack_stored; now apply in_map. }
  eapply cells_collapse; [apply level_rect; auto| |].
  - destruct (flat_map vstack_rows es); [congruence|cbn; lia].
  - destruct (flat_map vstack_rows es) as [|a rows] eqn:F; [congruence|]. cbn.
    assert (In (map stored a) (flat_map cells es)) by (rewrite <- vstack_stored, F; now left).
    destruct (cells t) as [|b rest] eqn:G; [cbn in Lt; lia|].
    assert (Ib : In b (flat_map cells es)) by (rewrite E; cbn; rewrite G; now left).
    rewrite <- (map_length stored a), (L _ _ H Ib), (Wt b) by (now left). auto.
Qed.
Lemma vstack_bad : forall args, ~ level (flat_map (fun a => norm (cells a)) args) -> is_error (f_vstack args) K_VALUE.
Proof.
  intros args L. rewrite stacked in *. unfold f_vstack. rewrite collect_spec. cbv zeta.
  pose proof (filter_all _ solid args) as S. set (es := filter solid args) in *. clearbody es.
  destruct es as [|t es'] eqn:E; [exfalso; apply L; intros a b []|]. cbn [hd_error option_map]. rewrite <- E in *.
  assert (Hh : hd_error es = Some t) by (now rewrite E).
  destruct (forallb (fun e => extent v_cols e =? extent v_cols t) es) eqn:F; [|reflexivity]. exfalso. apply L. now apply (all_level es t S Hh).
Qed.

(** HSTACK *)
Lemma nth_map' : forall A B (f : A -> B) l i d d', i < length l -> nth i (map f l) d = f (nth i l d').
Proof. intros. rewrite (nth_indep _ d (f d')) by (now rewrite map_length). apply map_nth. Qed.
Lemma hpush_spec : forall n res e, length res = n -> extent v_rows e = n -> solid e = true ->
  map (map stored) (hpush res e) = map (fun r => map stored (nth r res []) ++ nth r (cells e) []) (seq 0 n) /\
  length (hpush res e) = n.
Proof.
  intros n res e L X S. destruct e as [v|w]; cbn in X.
  - subst n. destruct res as [|row [|]]; cbn in *; try lia. rewrite map_app. auto.
  - cbn [hpush cells]. split; [|now rewrite map_length, combine_length, seq_length, L, Nat.min_id].
    rewrite map_map. apply list_ext with (d := []).
    + rewrite !map_length, combine_length, !seq_length. lia.
    + intros i Hi. rewrite map_length, combine_length, seq_length, L in Hi.
      rewrite (nth_map_seq _ (fun r => map stored (nth r res []) ++ nth r (rows_of w) [])) by lia.
      rewrite nth_map' with (d' := (0, [])) by (rewrite combine_length, seq_length, L; lia).
      rewrite combine_nth by (now rewrite seq_length). rewrite seq_nth by lia. cbn [Nat.add].
      destruct (Nat.ltb_spec i (v_rows w)); [|lia]. rewrite map_app, nth_rows_of by lia. f_equal.
      rewrite <- (map_id (row_of w i)) at 2. apply map_ext_in. intros v Hv. unfold row_of in Hv. apply in_map_iff in Hv.
      destruct Hv as (c & <- & _). apply get_stored.
Qed.
Lemma hpush_all : forall n es res, length res = n -> forallb solid es = true ->
  forallb (fun e => extent v_rows e =? n) es = true ->
  map (map stored) (fold_left hpush es res) =
    map (fun r => map stored (nth r res []) ++ flat_map (fun e => nth r (cells e) []) es) (seq 0 n) /\
  length (fold_left hpush es res) = n.
Proof.
  intros n es. induction es as [|e es IH]; intros res L S H; cbn [fold_left flat_map].
  - split; auto. apply list_ext with (d := []); [now rewrite !map_length, seq_length|].
    intros i Hi. rewrite map_length in Hi. rewrite (nth_map_seq _ (fun r => map stored (nth r res []) ++ [])) by lia.
    rewrite app_nil_r. change (@nil lval) with (map stored []) at 1. apply map_nth.
  - cbn in S, H. apply andb_true_iff in S, H. destruct S as [S1 S2], H as [H1 H2]. apply Nat.eqb_eq in H1.
    destruct (hpush_spec n res e L H1 S1) as [P1 P2]. destruct (IH _ P2 S2 H2) as [Q1 Q2]. split; auto.
    rewrite Q1. apply map_ext_in. intros r Hr. apply in_seq in Hr.
    assert (X : map stored (nth r (hpush res e) []) = map stored (nth r res []) ++ nth r (cells e) []).
    { transitivity (nth r (map (map stored) (hpush res e)) []).
      - change (@nil lval) with (map stored []) at 2. symmetry. apply map_nth.
      - rewrite P1. now rewrite (nth_map_seq _ (fun r => map stored (nth r res []) ++ nth r (cells e) [])) by lia. }
    rewrite X. now rewrite <- app_assoc.
Qed.

Lemma hstack_ok : forall args n, 0 < n -> filter solid args <> [] ->
  (forall a, In a args -> norm (cells a) <> [] -> length (cells a) = n) ->
  shows (f_hstack args) (map (beside (map (fun a => norm (cells a)) args)) (seq 0 n)).
Proof.
  intros args n Hn NE H. unfold f_hstack. rewrite collect_spec. cbv zeta.
  assert (B : forall r, beside (map (fun a => norm (cells a)) args) r = flat_map (fun e => nth r (cells e) []) (filter solid args)).
  { intros r. unfold beside. clear. induction args as [|a args IH]; cbn; auto. rewrite norm_cells, IH. destruct (solid a); cbn; auto. now destruct r. }
  rewrite (map_ext _ _ B). clear B.
  pose proof (filter_all _ solid args) as S.
  assert (X : forall e, In e (filter solid args) -> extent v_rows e = n).
  { intros e He. apply filter_In in He. destruct He as [He Se]. destruct (solid_rect e Se) as ([L _] & P & _).
    rewrite <- L. apply H; auto. rewrite norm_cells, Se. intros Y. rewrite Y in L. cbn in L. lia. }
  set (es := filter solid args) in *. clearbody es. clear H args.
  destruct es as [|t es'] eqn:E; [congruence|]. cbn [hd_error option_map]. rewrite <- E in *. 
  assert (Xt : extent v_rows t = n) by (apply X; rewrite E; now left). rewrite Xt.
  assert (F : forallb (fun e => extent v_rows e =? n) es = true) by (apply forallb_forall; intros e He; apply Nat.eqb_eq; auto).
  rewrite F. destruct (hpush_all n es (repeat [] n) (repeat_length _ _) S F) as [P Q].
  rewrite E. rewrite <- E. eexists. split; [reflexivity|].
  set (row r := flat_map (fun e => nth r (cells e) []) es) in *.
  assert (P' : map (map stored) (fold_left hpush es (repeat [] n)) = map row (seq 0 n)).
  { rewrite P. apply map_ext. intros r. unfold row. rewrite nth_repeat. reflexivity. }
  rewrite <- P'.
  assert (Len : forall r, r < n -> length (row r) = list_sum (map (extent v_cols) es)).
  { intros r Hr. unfold row. rewrite forallb_forall in S. clear -S X Hr. induction es as [|e es IH]; cbn; auto.
    rewrite app_length, IH by (intros; first [apply S|apply X]; now right). f_equal.
    destruct (solid_rect e (S e ltac:(now left))) as ([L W] & _). apply W, nth_In. rewrite L, X by (now left). auto. }
  apply cells_collapse with (n := n) (m := list_sum (map (extent v_cols) es)); auto.
  - split; auto. intros u Hu. rewrite <- (map_length stored u).
    assert (I : In (map stored u) (map row (seq 0 n))) by (rewrite <- P'; now apply in_map).
    apply in_map_iff in I. destruct I as (r & <- & Hr). apply in_seq in Hr. apply Len. lia.
  - rewrite E. cbn. destruct (solid_rect t) as (_ & _ & P2); [rewrite forallb_forall in S; apply S; rewrite E; now left|]. lia.
Qed.
Lemma hstack_bad : forall args a b, In a args -> In b args -> norm (cells a) <> [] -> norm (cells b) <> [] ->
  length (cells a) <> length (cells b) -> is_error (f_hstack args) K_VALUE.
Proof.
  intros args a b Ia Ib Na Nb Neq. unfold f_hstack. rewrite collect_spec. cbv zeta.
  assert (G : forall x, In x args -> norm (cells x) <> [] -> In x (filter solid args) /\ length (cells x) = extent v_rows x).
  { intros x Ix Nx. rewrite norm_cells in Nx. destruct (solid x) eqn:S; [|congruence]. split; [now apply filter_In|].
    apply (solid_rect x S). }
  destruct (G a Ia Na) as [A1 A2], (G b Ib Nb) as [B1 B2].
  destruct (filter solid args) as [|t es'] eqn:E; [destruct A1|]. cbn [hd_error option_map]. rewrite <- E in *.
  destruct (forallb _ _) eqn:F; [|reflexivity]. exfalso. rewrite forallb_forall in F.
  pose proof (F a A1) as X. pose proof (F b B1) as Y. apply Nat.eqb_eq in X, Y. congruence.
Qed.
Lemma stack_none : forall args, (forall a, In a args -> norm (cells a) = []) ->
  shows (f_hstack args) [] /\ shows (f_vstack args) [].
Proof.
  intros args H. unfold f_hstack, f_vstack. rewrite !collect_spec. cbv zeta.
  assert (E : filter solid args = []).
  { destruct (filter solid args) as [|t l] eqn:E; auto. exfalso.
    assert (I : In t (filter solid args)) by (rewrite E; now left). apply filter_In in I. destruct I as [I S].
    specialize (H t I). rewrite norm_cells, S in H. destruct (solid_rect t S) as ([L _] & P & _). rewrite H in L. cbn in L. lia. }
  rewrite E. cbn. split; eexists; split; reflexivity.
Qed.
