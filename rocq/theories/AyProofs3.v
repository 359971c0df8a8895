(** SORT and SORTBY. *)
From Coq Require Import QArith Permutation Sorted ZifyNat ZifyBool.
From Verif Require Import Base Maps LookupModel LookupSpec LookupProofs AyModel AySpec AyProofs1 AyProofs2.
Close Scope Q_scope.

Lemma reordered_rect : forall n m t p, rect n m t -> length p = n -> (forall i, In i p -> i < n) -> rect n m (reordered t p).
Proof.
  intros n m t p [L W] Lp B. split; [unfold reordered; now rewrite map_length|]. intros row H. unfold reordered in H.
  apply in_map_iff in H. destruct H as (i & <- & Hi). apply W, nth_In. rewrite L. auto.
Qed.
Lemma reordered_in : forall n m t p, rect n m t -> (forall i, In i p -> i < n) -> forall row, In row (reordered t p) -> In row t.
Proof.
  intros n m t p [L W] B row H. unfold reordered in H. apply in_map_iff in H. destruct H as (i & <- & Hi).
  apply nth_In. rewrite L. auto.
Qed.

Section Sort.
  Variable lower : text -> text.
  Variable parse : text -> option fnum.
  Variable sb : forall A : Type, (A -> A -> comparison) -> list A -> option (list A).
  Hypothesis SB : sorts sb.

  Lemma sort_list : forall A (l : list A) d cmp cs n, n = length l -> Forall (good lower parse n) cs ->
    (forall i j, i < n -> j < n -> cmp (nth i l d) (nth j l d) = by_criteria lower parse cs i j) ->
    exists p, sb A cmp l = Some (map (fun i => nth i l d) p) /\ stable_order (lex_le lower cs) n p.
  Proof.
    intros A l d cmp cs n -> G H. destruct (crit_total lower parse (length l) cs G) as [As Tr].
    assert (T : total_on cmp l).
    { split.
      - intros a b Ha Hb. apply In_nth with (d := d) in Ha, Hb.
        destruct Ha as (i & Hi & <-), Hb as (j & Hj & <-). rewrite !H by auto. apply As; apply in_seq; lia.
      - intros a b c Ha Hb Hc. apply In_nth with (d := d) in Ha, Hb, Hc.
        destruct Ha as (i & Hi & <-), Hb as (j & Hj & <-), Hc as (k & Hk & <-). rewrite !H by auto.
        apply Tr; apply in_seq; lia. }
    destruct (SB A cmp l T) as (p & l' & E & O & M). exists p. split.
    - rewrite E. f_equal. pose proof (fun i => stable_order_bound _ _ _ i O) as B. clear E O.
      revert l' M. induction p as [|i p IH]; intros [|x l'] M; cbn in *; try discriminate; auto.
      inversion M as [[M1 M2]]. rewrite (nth_error_nth' l d) in M1 by (apply B; now left). inversion M1.
      f_equal. apply IH; auto.
    - apply stable_order_ext with (le := at_le cmp l); auto. intros i j Hi Hj. rewrite <- (crit_le lower parse (length l)) by auto.
      rewrite <- H by auto. unfold at_le. split.
      + intros X. apply X; now apply nth_error_nth'.
      + intros X a b Ha Hb. apply nth_error_nth with (d := d) in Ha, Hb. now subst.
  Qed.

  Lemma one_criterion : forall vs asc i j, by_criteria lower parse [(vs, asc)] i j =
    turned asc (cmp0 lower parse (nth i vs LEmpty) (nth j vs LEmpty)).
  Proof. intros. cbn. destruct (cmp0 lower parse _ _), asc; reflexivity. Qed.

  Lemma nth_keys : forall k t i, nth i (keys_at k t) LEmpty = cell t i k.
  Proof.
    intros. unfold keys_at, cell. replace LEmpty with (nth k (@nil lval) LEmpty) at 1 by (now destruct k).
    now rewrite (map_nth (fun row => nth k row LEmpty)).
  Qed.

  Lemma sort_table : forall n t k asc, length t = n -> one_kind lower parse (keys_at k t) ->
    exists p, sb (list lval) (fun a b => turned asc (cmp0 lower parse (nth k a LEmpty) (nth k b LEmpty))) t =
              Some (reordered t p) /\ stable_order (lex_le lower [(keys_at k t, asc)]) n p.
  Proof.
    intros n t k asc L K. apply sort_list; auto.
    - constructor; [|constructor]. split; cbn; auto. unfold keys_at. now rewrite map_length.
    - intros i j _ _. rewrite one_criterion, !nth_keys. reflexivity.
  Qed.

  Lemma sort_idx_ok : forall i, (1 <= i <= I64_MAX)%Z -> sort_idx i = Some (Z.to_nat (i - 1)).
  Proof. intros i H. unfold sort_idx, in_i64, I64_MIN, I64_MAX in *. destruct (_ && _)%bool eqn:E; [f_equal; lia|lia]. Qed.

  Lemma sort_rows : forall w ix ord bc k,
    is_empty w = false -> int_arg 1 ix = Z.of_nat k%nat -> (1 <= k <= v_cols w) -> (Z.of_nat k <= I64_MAX)%Z ->
    true_arg bc = false -> one_kind lower parse (keys_at (k - 1) (rows_of w)) ->
    exists p, stable_order (lex_le lower [(keys_at (k - 1) (rows_of w), (0 <=? int_arg 1 ord)%Z)]) (v_rows w) p /\
              shows (f_sort lower parse sb w ix ord bc) (reordered (rows_of w) p).
  Proof.
    intros w ix ord bc k E Ik Hk Hm Hb K. unfold f_sort. fold (is_empty w). rewrite E, Ik, sort_idx_ok, Hb by lia.
    replace (Z.to_nat (Z.of_nat k - 1)) with (k - 1) by lia.
    destruct (Nat.leb_spec (v_cols w) (k - 1)); [lia|].
    destruct (sort_table (v_rows w) (rows_of w) (k - 1) (0 <=? int_arg 1 ord)%Z (rows_of_length w) K) as (p & -> & O).
    exists p. split; auto. apply nonempty in E.
    pose proof (fun i => stable_order_bound _ _ _ i O) as B. pose proof (stable_order_length _ _ _ O) as L.
    apply (shows_collapse (v_rows w) (v_cols w)); try tauto.
    - apply reordered_rect; auto. apply rows_of_rect.
    - eapply plain_incl; [apply plain_rows_of|]. eapply reordered_in; eauto. apply rows_of_rect.
  Qed.

  Lemma flip_back : forall n m t p, rect m n t -> length p = m -> (forall i, In i p -> i < m) ->
    map (fun r => map (fun col => nth r col LEmpty) (reordered t p)) (seq 0 n) = flip m n (reordered t p).
  Proof.
    intros n m t p R L B. destruct (reordered_rect m n t p R L B) as [L' W'].
    apply table_ext with (n := n) (m := m).
    - split; [now rewrite map_length, seq_length|]. intros row H. apply in_map_iff in H. destruct H as (r & <- & _).
      now rewrite map_length.
    - apply flip_rect.
    - intros r c Hr Hc. rewrite flip_cell by auto. unfold cell. rewrite nth_map_seq by auto.
      replace LEmpty with (nth r (@nil lval) LEmpty) at 1 by (now destruct r).
      now rewrite (map_nth (fun col => nth r col LEmpty)).
  Qed.

  (** Whatever the sort does: sorting columns is sorting the rows of the mirrored table. *)
  Lemma sort_cols : forall w ix ord bc k,
    is_empty w = false -> int_arg 1 ix = Z.of_nat k%nat -> (1 <= k <= v_rows w) -> (Z.of_nat k <= I64_MAX)%Z ->
    true_arg bc = true ->
    let t := flip (v_rows w) (v_cols w) (rows_of w) in
    one_kind lower parse (keys_at (k - 1) t) ->
    exists p, stable_order (lex_le lower [(keys_at (k - 1) t, (0 <=? int_arg 1 ord)%Z)]) (v_cols w) p /\
              shows (f_sort lower parse sb w ix ord bc) (flip (v_cols w) (v_rows w) (reordered t p)).
  Proof.
    intros w ix ord bc k E Ik Hk Hm Hb t K. unfold f_sort. fold (is_empty w). rewrite E, Ik, sort_idx_ok, Hb by lia.
    replace (Z.to_nat (Z.of_nat k - 1)) with (k - 1) by lia.
    destruct (Nat.leb_spec (v_rows w) (k - 1)); [lia|]. rewrite cols_flip. fold t.
    assert (R : rect (v_cols w) (v_rows w) t) by apply flip_rect.
    destruct (sort_table (v_cols w) t (k - 1) (0 <=? int_arg 1 ord)%Z (proj1 R) K) as (p & -> & O).
    exists p. split; auto. apply nonempty in E.
    pose proof (fun i => stable_order_bound _ _ _ i O) as B. pose proof (stable_order_length _ _ _ O) as L.
    rewrite (flip_back (v_rows w) (v_cols w)) by auto.
    apply (shows_collapse (v_rows w) (v_cols w)); try tauto.
    - apply flip_rect.
    - intros row v Hr Hv. unfold flip in Hr. apply in_map_iff in Hr. destruct Hr as (c & <- & Hc).
      apply in_map_iff in Hv. destruct Hv as (r & <- & Hr). apply in_seq in Hc, Hr.
      assert (In (nth r (reordered t p) []) t).
      { eapply reordered_in; eauto. apply nth_In. destruct (reordered_rect _ _ _ _ R L B) as [-> _]. lia. }
      unfold cell. apply (plain_cols w (nth r (reordered t p) [])); [rewrite cols_flip; auto|].
      apply nth_In. destruct R as [_ W]. rewrite W by auto. lia.
  Qed.

  (** ** SORTBY *)
  Lemma sortby_ok : forall w args cs, is_empty w = false ->
    criteria (length args) (v_rows w) args = Some cs -> cs <> [] -> Forall (good lower parse (v_rows w)) cs ->
    exists p, stable_order (lex_le lower cs) (v_rows w) p /\
              shows (f_sortby lower parse sb w args) (reordered (rows_of w) p).
  Proof.
    intros w args cs E C NE G. unfold f_sortby. fold (is_empty w). rewrite E, C.
    destruct args as [|a args]; [cbn in C; inversion C; congruence|]. destruct cs as [|c cs]; [congruence|].
    set (l := map (fun r => (r, row_of w r)) (seq 0 (v_rows w))).
    set (d := (0, row_of w 0)).
    assert (NL : forall i, i < v_rows w -> nth i l d = (i, row_of w i)).
    { intros i Hi. unfold l. now rewrite nth_map_seq. }
    destruct (sort_list _ l d (fun a b => by_criteria lower parse (c :: cs) (fst a) (fst b)) (c :: cs) (v_rows w)) as (p & -> & O); auto.
    { unfold l. now rewrite map_length, seq_length. }
    { intros i j Hi Hj. now rewrite !NL by auto. }
    exists p. split; auto. apply nonempty in E.
    pose proof (fun i => stable_order_bound _ _ _ i O) as B. pose proof (stable_order_length _ _ _ O) as L.
    replace (map snd (map (fun i => nth i l d) p)) with (reordered (rows_of w) p).
    2:{ unfold reordered. rewrite map_map. apply map_ext_in. intros i Hi. rewrite NL by auto. now rewrite nth_rows_of by auto. }
    apply (shows_collapse (v_rows w) (v_cols w)); try tauto.
    - apply reordered_rect; auto. apply rows_of_rect.
    - eapply plain_incl; [apply plain_rows_of|]. eapply reordered_in; eauto. apply rows_of_rect.
  Qed.
End Sort.

(** Reordering into sorted order a table that is sorted already. *)
Lemma stable_order_id : forall (le : nat -> nat -> Prop) n, (forall i j, i < j -> j < n -> le i j) -> stable_order le n (seq 0 n).
Proof.
  intros le n H. split; auto.
  assert (G : forall m k, k + m = n -> StronglySorted (fun i j => le i j /\ (le j i -> i < j)) (seq k m)).
  { induction m as [|m IH]; intros k Hk; cbn; constructor; [apply IH; lia|]. apply Forall_forall.
    intros j Hj. apply in_seq in Hj. split; [apply H; lia|lia]. }
  apply G. lia.
Qed.
Lemma reordered_id : forall t, reordered t (seq 0 (length t)) = t.
Proof. intros. unfold reordered. apply map_nth_seq. Qed.

Lemma sorted_nth : forall A (R : A -> A -> Prop) l d, StronglySorted R l ->
  forall i j, i < j -> j < length l -> R (nth i l d) (nth j l d).
Proof.
  intros A R l d S. induction S as [|a l S IH F]; cbn; intros i j Hij Hj; [lia|]. rewrite Forall_forall in F.
  destruct j as [|j]; [lia|]. destruct i as [|i]; [apply F, nth_In; lia|]. apply IH; lia.
Qed.
