(** Theorems about the functions that return arrays (C155-C166). *)
From Coq Require Import String QArith Qabs Permutation Sorted ZifyNat ZifyBool Lqa.
From Verif Require Import Base Maps LookupModel LookupSpec LookupProofs AyModel AySpec.
From Verif Require Import AyProofs1 AyProofs2 AyProofs3 AyProofs4 AyProofs5 AyProofs6 AyProofs7.
Close Scope Q_scope.

Definition nums (l : list (list Z)) : view := of_rows (map (map LInt) l).
Definition num (z : Z) : lval := LNum (Fin (inject_Z z)).
Definition id_lower (t : text) : text := t.
Definition no_parse (_ : text) : option fnum := None.

(** * C155: SORT gives the rows in stable order of one column *)

(** A number argument is cut at the point. *)
Theorem C155_arguments : forall dflt q,
  (let z := inject_Z (int_arg dflt (Some (LNum (Fin q)))) in
   (0 <= q -> q < inject_Z I64_MAX -> z <= q /\ q < z + 1) /\
   (q <= 0 -> inject_Z I64_MIN < q -> z - 1 < q /\ q <= z))%Q /\
  (forall z, int_arg dflt (Some (LInt z)) = z) /\ int_arg dflt None = dflt /\ forall t, int_arg dflt (Some (LText t)) = dflt.
Proof.
  intros dflt [a b]. split; [|auto]. cbv zeta. cbn [int_arg].
  destruct (quot_bounds a (Zpos b) ltac:(lia)) as [Q1 Q2].
  split; intros H1 H2.
  - assert (A : (0 <= a)%Z) by (unfold Qle in H1; cbn in H1; lia).
    assert (B : (a < I64_MAX * Zpos b)%Z) by (unfold Qlt in H2; cbn [Qnum Qden inject_Z] in H2; lia).
    rewrite as_i64_pos by auto. specialize (Q1 A). unfold Qle, Qlt, Qplus, inject_Z. cbn [Qnum Qden]. rewrite ?Pos.mul_1_l. lia.
  - assert (A : (a <= 0)%Z) by (unfold Qle in H1; cbn in H1; lia).
    assert (B : (I64_MIN * Zpos b < a)%Z) by (unfold Qlt in H2; cbn [Qnum Qden inject_Z] in H2; lia).
    rewrite as_i64_neg by auto. specialize (Q2 A). unfold Qle, Qlt, Qminus, Qplus, Qopp, inject_Z. cbn [Qnum Qden]. rewrite ?Pos.mul_1_l. lia.
Qed.

Theorem C155_sorted : forall lower parse sb w ix ord bc k, sorts sb -> is_empty w = false ->
  int_arg 1 ix = Z.of_nat k -> 1 <= k <= v_cols w -> (Z.of_nat k <= I64_MAX)%Z -> true_arg bc = false ->
  one_kind lower parse (keys_at (k - 1) (rows_of w)) ->
  exists p, sorted_by lower (0 <=? int_arg 1 ord)%Z (rows_of w) (k - 1) p /\
            shows (f_sort lower parse sb w ix ord bc) (reordered (rows_of w) p).
Proof.
  intros lower parse sb w ix ord bc k SB E Ik Hk Hm Hb K.
  destruct (sort_rows lower parse sb SB w ix ord bc k E Ik Hk Hm Hb K) as (p & O & Sh). exists p. split; auto.
  apply lex_sorted. now rewrite rows_of_length.
Qed.

(** The order is unique, so every stable sort gives the same table; and it is a rearrangement of the rows. *)
Theorem C155_unique : forall lower asc t k p q, sorted_by lower asc t k p -> sorted_by lower asc t k q ->
  p = q /\ Permutation (reordered t p) t.
Proof.
  intros lower asc t k p q P Q. split; [eapply stable_order_unique; eauto|].
  destruct P as [P _]. rewrite <- (reordered_id t) at 2. unfold reordered. now apply Permutation_map.
Qed.

(** Sorting what is sorted changes nothing. *)
Theorem C155_idempotent : forall lower parse sb w ix ord bc k r, sorts sb -> is_empty w = false ->
  int_arg 1 ix = Z.of_nat k -> 1 <= k <= v_cols w -> (Z.of_nat k <= I64_MAX)%Z -> true_arg bc = false ->
  one_kind lower parse (keys_at (k - 1) (rows_of w)) ->
  f_sort lower parse sb w ix ord bc = Ok r ->
  shows (f_sort lower parse sb (as_view r) ix ord bc) (cells r).
Proof.
  intros lower parse sb w ix ord bc k r SB E Ik Hk Hm Hb K Hr.
  destruct (C155_sorted lower parse sb w ix ord bc k SB E Ik Hk Hm Hb K) as (p & O & (a & Ea & Ca)).
  rewrite Hr in Ea. inversion Ea; subst a. clear Ea.
  assert (B : forall i, In i p -> i < length (rows_of w)) by (intros i; apply (stable_order_bound _ _ _ i O)).
  pose proof (stable_order_length _ _ _ O) as L. rewrite rows_of_length in B, L.
  destruct (reordered_rect _ _ _ p (rows_of_rect w) L B) as [L' W'].
  assert (RV : rows_of (as_view r) = reordered (rows_of w) p) by (now rewrite as_view_cells).
  assert (D1 : v_rows (as_view r) = v_rows w) by (rewrite <- rows_of_length, RV; auto).
  pose proof E as E'. apply nonempty in E'.
  assert (D2 : v_cols (as_view r) = v_cols w).
  { destruct (rows_of_rect (as_view r)) as [_ W2]. rewrite RV in W2.
    assert (I : In (nth 0 (reordered (rows_of w) p) []) (reordered (rows_of w) p)) by (apply nth_In; lia).
    rewrite <- (W2 _ I). auto. }
  destruct (C155_sorted lower parse sb (as_view r) ix ord bc k) as (q & O2 & S2); auto; try lia.
  - apply nonempty. lia.
  - rewrite RV. eapply one_kind_incl; [|exact K]. intros v. apply keys_reordered. now rewrite rows_of_length.
  - rewrite RV in O2, S2. pose proof (sorted_again _ _ _ _ _ O) as O3.
    destruct (C155_unique _ _ _ _ _ _ O2 O3) as [-> _]. rewrite reordered_id in S2. now rewrite Ca.
Qed.

(** A column outside the table on the right is #VALUE!. *)
Theorem C155_outside : forall lower parse sb w ix ord bc, is_empty w = false ->
  (Z.of_nat (if true_arg bc then v_rows w else v_cols w) < int_arg 1 ix)%Z -> (int_arg 1 ix <= I64_MAX)%Z ->
  is_error (f_sort lower parse sb w ix ord bc) K_VALUE.
Proof.
  intros lower parse sb w ix ord bc E H M. unfold f_sort. fold (is_empty w). rewrite E.
  rewrite sort_idx_ok by lia. destruct (true_arg bc).
  - destruct (Nat.leb_spec (v_rows w) (Z.to_nat (int_arg 1 ix - 1))); [reflexivity|lia].
  - destruct (Nat.leb_spec (v_cols w) (Z.to_nat (int_arg 1 ix - 1))); [reflexivity|lia].
Qed.

(** False of the code: an index of zero or below sorts by the first column, it is not #VALUE!. *)
Theorem C155_index_refuted : forall lower parse sb w i ord bc, (I64_MIN < i <= 0)%Z ->
  f_sort lower parse sb w (Some (LInt i)) ord bc = f_sort lower parse sb w (Some (LInt 1)) ord bc.
Proof.
  intros lower parse sb w i ord bc H. unfold f_sort. cbn [int_arg].
  assert (X : sort_idx i = Some 0).
  { unfold sort_idx, in_i64, I64_MIN, I64_MAX in *. destruct (_ && _)%bool eqn:E; [f_equal; lia|lia]. }
  rewrite X. reflexivity.
Qed.
(** False of the code: the least index overflows. *)
Theorem C155_overflow_refuted : forall lower parse sb w ord bc, is_empty w = false ->
  f_sort lower parse sb w (Some (LNum NInf)) ord bc = Panic.
Proof. intros lower parse sb w ord bc E. unfold f_sort. fold (is_empty w). now rewrite E. Qed.
(** False of the code: a negative order above -1 sorts ascending. *)
Theorem C155_order_refuted : forall lower parse sb w ix q bc, (-1 < q)%Q -> (q < 0)%Q ->
  f_sort lower parse sb w ix (Some (LNum (Fin q))) bc = f_sort lower parse sb w ix (Some (LInt 1)) bc.
Proof.
  intros lower parse sb w ix [a b] bc H1 H2. unfold f_sort. cbn [int_arg].
  assert (Z : as_i64 (Fin (a # b)) = 0%Z).
  { unfold Qlt in H1, H2. cbn in H1, H2. rewrite as_i64_neg by (unfold I64_MIN; lia).
    destruct (quot_bounds a (Zpos b) ltac:(lia)) as [_ Q]. specialize (Q ltac:(lia)).
    set (t := (a ÷ Zpos b)%Z) in *.
    assert (-1 < t)%Z by (apply Z.mul_lt_mono_pos_r with (p := Zpos b); lia).
    assert (t < 1)%Z by (apply Z.mul_lt_mono_pos_r with (p := Zpos b); lia). lia. }
  rewrite Z. reflexivity.
Qed.
(** False of the code: with a text between them, a larger number stays before a smaller one. *)
Theorem C155_mixed_refuted : exists w, sorts insertion /\
  rows_of w = [[num 2]; [LText [97%N]]; [num 1]] /\
  shows (f_sort id_lower no_parse insertion w None None None) [[num 2]; [LText [97%N]]; [num 1]].
Proof.
  exists (of_rows [[LInt 2]; [LText [97%N]]; [LInt 1]]). split; [apply insertion_sorts|]. split; [reflexivity|].
  eexists. split; reflexivity.
Qed.

Example C155_example :
  shows (f_sort id_lower no_parse insertion (nums [[1; 30]; [2; 10]; [3; 30]; [4; 20]]%Z) (Some (LInt 2)) None None)
        [[num 2; num 10]; [num 4; num 20]; [num 1; num 30]; [num 3; num 30]] /\
  one_kind id_lower no_parse (keys_at 1 (rows_of (nums [[1; 30]; [2; 10]; [3; 30]; [4; 20]]%Z))).
Proof.
  split; [eexists; split; reflexivity|]. split; [split|].
  - intros v Hv. cbn in Hv. repeat (destruct Hv as [<-|Hv]; [eexists; reflexivity|]). destruct Hv.
  - intros u v a b Hu Hv. cbn in Hu, Hv.
    repeat (destruct Hu as [<-|Hu]; [|]); try destruct Hu;
    repeat (destruct Hv as [<-|Hv]; [|]); try destruct Hv; cbn; intros A B; inversion A; inversion B; subst;
    first [left; reflexivity | right; unfold Qle; cbn; lia].
  - intros u v Hu Hv. cbn in Hu, Hv.
    repeat (destruct Hu as [<-|Hu]; [|]); try destruct Hu;
    repeat (destruct Hv as [<-|Hv]; [|]); try destruct Hv; do 2 eexists; cbn; repeat split; reflexivity.
Qed.

(** * C156: sorting columns is sorting the rows of the transposed table *)

Theorem C156_columns : forall lower parse sb w ix ord k, sorts sb -> is_empty w = false ->
  int_arg 1 ix = Z.of_nat k -> 1 <= k <= v_rows w -> (Z.of_nat k <= I64_MAX)%Z ->
  one_kind lower parse (nth (k - 1) (rows_of w) []) ->
  exists tr t t', f_transpose w = Ok tr /\
    shows (f_sort lower parse sb w ix ord (Some (LBool true))) t /\
    shows (f_sort lower parse sb (as_view tr) ix ord None) t' /\
    mirrored (v_rows w) (v_cols w) t t' /\
    exists p, sorted_by lower (0 <=? int_arg 1 ord)%Z (cells tr) (k - 1) p /\ t' = reordered (cells tr) p.
Proof.
  intros lower parse sb w ix ord k SB E Ik Hk Hm K.
  destruct (transpose_shows w E) as (tr & Et & Ct).
  set (f := flip (v_rows w) (v_cols w) (rows_of w)) in *.
  assert (Rf : rect (v_cols w) (v_rows w) f) by apply flip_rect.
  pose proof E as E'. apply nonempty in E'.
  assert (Keys : keys_at (k - 1) f = nth (k - 1) (rows_of w) []).
  { rewrite nth_rows_of by lia. apply list_ext with (d := LEmpty).
    - unfold keys_at. rewrite map_length, row_of_length. apply Rf.
    - intros i Hi. unfold keys_at in Hi. rewrite map_length in Hi. destruct Rf as [Lf _]. rewrite nth_keys, nth_row_of. unfold f.
      rewrite flip_cell by lia. apply cell_rows_of. }
  destruct (sort_cols lower parse sb SB w ix ord (Some (LBool true)) k E Ik Hk Hm eq_refl) as (p & O & Sh).
  { fold f. now rewrite Keys. }
  fold f in O, Sh.
  assert (RV : rows_of (as_view tr) = f) by (rewrite as_view_cells; exact Ct).
  assert (D1 : v_rows (as_view tr) = v_cols w) by (rewrite <- rows_of_length, RV; apply Rf).
  assert (D2 : v_cols (as_view tr) = v_rows w).
  { destruct (rows_of_rect (as_view tr)) as [_ W2]. rewrite RV in W2. destruct Rf as [Lf Wf].
    assert (I : In (nth 0 f []) f) by (apply nth_In; lia). rewrite <- (W2 _ I). auto. }
  destruct (sort_rows lower parse sb SB (as_view tr) ix ord None k) as (q & O2 & S2); auto; try lia.
  { apply nonempty. lia. }
  { rewrite RV, Keys. exact K. }
  rewrite RV, D1 in O2. rewrite RV in S2. assert (p = q) by (eapply stable_order_unique; eauto). subst q.
  assert (B : forall i, In i p -> i < v_cols w) by (intros i; apply (stable_order_bound _ _ _ i O)).
  pose proof (stable_order_length _ _ _ O) as L.
  exists tr, (flip (v_cols w) (v_rows w) (reordered f p)), (reordered f p). split; auto. split; auto. split; auto. split.
  - apply mirrored_sym, flip_mirrored. now apply reordered_rect.
  - exists p. rewrite Ct. split; auto. apply lex_sorted. destruct Rf as [-> _]. exact O.
Qed.
Example C156_example : shows (f_sort id_lower no_parse insertion (nums [[3; 1; 2]; [10; 20; 30]]%Z) None (Some (LInt (-1))) (Some (LBool true)))
  [[num 3; num 2; num 1]; [num 10; num 30; num 20]].
Proof. eexists. split; reflexivity. Qed.

(** * C157: SORTBY orders the rows by its by-arrays, the first that differs deciding *)

Theorem C157_sortby : forall lower parse sb w args cs, sorts sb -> is_empty w = false -> args <> [] ->
  reads (v_rows w) args cs -> (forall vs asc, In (vs, asc) cs -> one_kind lower parse vs) ->
  exists p, stable_order (lex_le lower cs) (v_rows w) p /\
            shows (f_sortby lower parse sb w args) (reordered (rows_of w) p).
Proof.
  intros lower parse sb w args cs SB E NE R K. pose proof E as E'. apply nonempty in E'.
  apply (sortby_ok lower parse sb SB); auto.
  - apply criteria_ok; auto; lia.
  - eapply reads_nonempty; eauto.
  - apply Forall_forall. intros [vs asc] Hin. split; cbn; [|eauto].
    clear -R Hin. induction R as [|a vs' rest cs V NS R IH|a vs' o asc' rest cs V D R IH]; [destruct Hin| |];
      (destruct Hin as [X|Hin]; [inversion X; subst; apply V|auto]).
Qed.
(** SORTBY by a column of the table is SORT. *)
Theorem C157_agrees : forall lower parse sb w by_a o k, sorts sb -> is_empty w = false ->
  1 <= k <= v_cols w -> (Z.of_nat k <= I64_MAX)%Z ->
  vector (v_rows w) by_a (keys_at (k - 1) (rows_of w)) ->
  one_kind lower parse (keys_at (k - 1) (rows_of w)) ->
  exists t, shows (f_sortby lower parse sb w [by_a; Scalar (LInt o)]) t /\
            shows (f_sort lower parse sb w (Some (LInt (Z.of_nat k))) (Some (LInt o)) None) t.
Proof.
  intros lower parse sb w by_a o k SB E Hk Hm V K.
  destruct (C157_sortby lower parse sb w [by_a; Scalar (LInt o)] [(keys_at (k - 1) (rows_of w), (0 <=? o)%Z)]) as (p & O & Sh); auto; try discriminate.
  { apply reads_order; auto; constructor. }
  { intros vs asc [X|[]]. inversion X; subst. auto. }
  exists (reordered (rows_of w) p). split; auto.
  destruct (sort_rows lower parse sb SB w (Some (LInt (Z.of_nat k))) (Some (LInt o)) None k E eq_refl Hk Hm eq_refl K) as (q & O2 & S2).
  cbn [int_arg] in O2. assert (p = q) by (eapply stable_order_unique; eauto). now subst.
Qed.
(** A by-array of another shape is #VALUE!. *)
Theorem C157_shape : forall lower parse sb w a rest, is_empty w = false -> (forall vs, ~ vector (v_rows w) a vs) ->
  is_error (f_sortby lower parse sb w (a :: rest)) K_VALUE.
Proof.
  intros lower parse sb w a rest E H. unfold f_sortby. fold (is_empty w). rewrite E. cbn [criteria length].
  now rewrite by_values_bad.
Qed.
Example C157_example :
  shows (f_sortby id_lower no_parse insertion (nums [[1]; [2]; [3]; [4]]%Z)
           [Range (nums [[1]; [0]; [1]; [0]]%Z); Scalar (LInt (-1)); Range (nums [[9; 8; 7; 6]]%Z)])
        [[num 3]; [num 1]; [num 4]; [num 2]] /\
  reads 4 [Range (nums [[1]; [0]; [1]; [0]]%Z); Scalar (LInt (-1)); Range (nums [[9; 8; 7; 6]]%Z)]
        [([num 1; num 0; num 1; num 0], false); ([num 9; num 8; num 7; num 6], true)].
Proof.
  split; [eexists; split; reflexivity|]. apply reads_order.
  - split; [reflexivity|left; reflexivity].
  - apply (dir_int (-1)).
  - apply reads_ascending; [split; [reflexivity|right; reflexivity]| |constructor].
    intros (v & rest & X & _). discriminate.
Qed.

(** * C158: FILTER keeps exactly the rows with a true condition *)

Theorem C158_kept : forall w incl dflt, is_empty w = false -> v_rows incl = v_rows w \/ v_rows incl = 1 ->
  (exists i, i < v_rows w /\ wanted w incl i) ->
  exists t, shows (f_filter w incl dflt) t /\ selects (wanted w incl) (rows_of w) t.
Proof. intros w incl dflt E H (i & Hi & Wi). eapply filter_some; eauto. Qed.
Theorem C158_none : forall w incl dflt, is_empty w = false -> v_rows incl = v_rows w \/ v_rows incl = 1 ->
  (forall i, i < v_rows w -> ~ wanted w incl i) ->
  match dflt with Some v => f_filter w incl dflt = Ok v | None => is_error (f_filter w incl dflt) K_CALC end.
Proof. intros w incl dflt E H N. rewrite filter_none by auto. destruct dflt; reflexivity. Qed.
Theorem C158_shape : forall w incl dflt, is_empty w = false -> v_rows incl <> v_rows w -> v_rows incl <> 1 ->
  is_error (f_filter w incl dflt) K_VALUE.
Proof.
  intros w incl dflt E H1 H2. unfold f_filter. fold (is_empty w). rewrite E.
  destruct (negb (v_rows incl =? v_rows w) && negb (v_rows incl =? 1)) eqn:X; [reflexivity|lia].
Qed.
(** The selection is unique, so the theorem determines the result. *)
Theorem C158_determined : forall P t t1 t2, selects P t t1 -> selects P t t2 -> t1 = t2.
Proof. exact selects_unique. Qed.
Example C158_example :
  shows (f_filter (nums [[1; 2]; [3; 4]; [5; 6]]%Z) (of_rows [[LBool true]; [LErr 3%N]; [LInt 7]]) None) [[num 1; num 2]; [num 5; num 6]] /\
  wanted (nums [[1; 2]; [3; 4]; [5; 6]]%Z) (of_rows [[LBool true]; [LErr 3%N]; [LInt 7]]) 2.
Proof.
  split; [eexists; split; reflexivity|]. exists 0. split; [cbn; lia|]. apply truthy_num. intros H. discriminate.
Qed.

(** * C159: UNIQUE keeps the first of equal rows, or those without an equal *)

Theorem C159_rows : forall w bc once, is_empty w = false -> true_arg bc = false ->
  exists t, shows (f_unique w bc once) t /\
            selects (if true_arg once then is_only (rows_of w) else is_first (rows_of w)) (rows_of w) t.
Proof. exact unique_rows. Qed.
(** No two rows of the result are equal, and every row has an equal in it. *)
Theorem C159_distinct : forall t t', selects (is_first t) t t' ->
  (forall i j, i < j -> j < length t' -> ~ same_row (nth j t' []) (nth i t' [])) /\
  (forall row, In row t -> same_row row row -> exists row', In row' t' /\ same_row row row').
Proof.
  intros t t' (ps & S & I & ->). rewrite map_length. split.
  - intros i j Hij Hj. rewrite !nth_map' with (d' := 0) by lia.
    assert (Ij : In (nth j ps 0) ps) by (apply nth_In; lia). apply I in Ij. destruct Ij as [_ F].
    apply F. apply (sorted_nth _ _ _ 0 S); auto.
  - intros row H Hs. apply In_nth with (d := []) in H. destruct H as (i & Hi & <-).
    assert (G : forall n, n <= i -> (exists j, j < n /\ same_row (nth i t []) (nth j t [])) \/
              forall j, j < n -> ~ same_row (nth i t []) (nth j t [])).
    { induction n as [|n IH]; intros Hn; [right; intros; lia|]. destruct (IH ltac:(lia)) as [(j & Hj & X)|N]; [left; exists j; auto|].
      destruct (key_eq (nth i t []) (nth n t [])) eqn:Q; [left; exists n; split; [lia|now apply key_same]|].
      right. intros j Hj X. assert (j < n \/ j = n) as [Y|Y] by lia; [apply (N j); auto|]. subst j. apply key_same in X. congruence. }
    assert (Min : forall n, n <= i -> same_row (nth i t []) (nth n t []) -> exists j, j <= n /\ same_row (nth i t []) (nth j t []) /\ is_first t j).
    { induction n as [n IHn] using (well_founded_induction lt_wf). intros Hn X.
      destruct (G n Hn) as [(j & Hj & Y)|N].
      - destruct (IHn j Hj ltac:(lia) Y) as (m & A & B & C). exists m. split; [lia|auto].
      - exists n. split; auto. split; auto. intros j Hj Z. apply (N j Hj). eapply row_trans; eauto. }
    destruct (Min i ltac:(lia) Hs) as (j & Hj & X & F). exists (nth j t []). split; auto.
    apply (in_map (fun i => nth i t [])). apply I. split; [lia|auto].
Qed.
(** By column the distinct columns are found. *)
Theorem C159_columns : forall w bc once, is_empty w = false -> true_arg bc = true ->
  let t0 := flip (v_rows w) (v_cols w) (rows_of w) in
  exists t, shows (f_unique w bc once) t /\
            selects (if true_arg once then is_only t0 else is_first t0) t0 t.
Proof. exact unique_cols. Qed.
(** False of the code: they are not returned as columns, the result is transposed. *)
Theorem C159_columns_refuted : exists w, rows_of w = [[num 1; num 2; num 1]] /\
  shows (f_unique w (Some (LBool true)) None) [[num 1]; [num 2]].
Proof. exists (nums [[1; 2; 1]]%Z). split; [reflexivity|]. eexists. split; reflexivity. Qed.
Example C159_example :
  shows (f_unique (nums [[1; 2]; [3; 4]; [1; 2]; [1; 3]]%Z) None None) [[num 1; num 2]; [num 3; num 4]; [num 1; num 3]] /\
  shows (f_unique (nums [[1; 2]; [3; 4]; [1; 2]; [1; 3]]%Z) None (Some (LBool true))) [[num 3; num 4]; [num 1; num 3]].
Proof. split; eexists; split; reflexivity. Qed.

(** * C160: TRANSPOSE mirrors the table, and twice gives it back *)

Theorem C160_transpose : forall w, is_empty w = false ->
  exists t, shows (f_transpose w) t /\ mirrored (v_rows w) (v_cols w) (rows_of w) t.
Proof.
  intros w E. eexists. split; [now apply transpose_shows|]. apply flip_mirrored, rows_of_rect.
Qed.
Theorem C160_twice : forall w a, is_empty w = false -> f_transpose w = Ok a -> shows (f_transpose (as_view a)) (rows_of w).
Proof.
  intros w a E H. destruct (transpose_shows w E) as (b & Eb & Cb). rewrite H in Eb. inversion Eb; subst b. clear Eb.
  set (f := flip (v_rows w) (v_cols w) (rows_of w)) in *. assert (Rf : rect (v_cols w) (v_rows w) f) by apply flip_rect.
  apply nonempty in E. assert (RV : rows_of (as_view a) = f) by (now rewrite as_view_cells).
  assert (D1 : v_rows (as_view a) = v_cols w) by (rewrite <- rows_of_length, RV; apply Rf).
  assert (D2 : v_cols (as_view a) = v_rows w).
  { destruct (rows_of_rect (as_view a)) as [_ W2]. rewrite RV in W2. destruct Rf as [Lf Wf].
    assert (I : In (nth 0 f []) f) by (apply nth_In; lia). rewrite <- (W2 _ I). auto. }
  pose proof (transpose_shows (as_view a)) as T. rewrite RV, D1, D2 in T. unfold f in T.
  rewrite flip_flip in T by apply rows_of_rect. apply T. apply nonempty. lia.
Qed.
Example C160_example : shows (f_transpose (nums [[1; 2; 3]; [4; 5; 6]]%Z)) [[num 1; num 4]; [num 2; num 5]; [num 3; num 6]].
Proof. eexists. split; reflexivity. Qed.

(** * C161: TAKE and DROP split a table *)

Theorem C161_take : forall w r c, is_empty w = false ->
  (Z.abs (int_arg 0 r) <= Z.of_nat (v_rows w))%Z -> (Z.abs (int_arg 0 c) <= Z.of_nat (v_cols w))%Z ->
  (Z.of_nat (v_rows w) <= I64_MAX)%Z -> (Z.of_nat (v_cols w) <= I64_MAX)%Z ->
  shows (f_take w r c) (norm (map (opt_ends c) (ends (int_arg 0 r) (rows_of w)))).
Proof. exact take_shows. Qed.
Theorem C161_take_too_many : forall w r c, is_empty w = false -> (Z.abs (int_arg 0 r) <= I64_MAX)%Z -> (Z.abs (int_arg 0 c) <= I64_MAX)%Z ->
  (Z.of_nat (v_rows w) < Z.abs (int_arg 0 r) \/ (c <> None /\ Z.of_nat (v_cols w) < Z.abs (int_arg 0 c)))%Z ->
  is_error (f_take w r c) K_VALUE.
Proof.
  intros w r c E M1 M2 H. unfold f_take, is_error. fold (is_empty w). rewrite E.
  destruct (Z.leb_spec (Z.abs (int_arg 0 r)) (Z.of_nat (v_rows w))) as [L|L].
  - destruct (take_part_in (v_rows w) (int_arg 0 r) L M1) as (lo & hi & ->). destruct H as [H|[Hc H]]; [lia|].
    destruct c as [v|]; [|congruence]. now rewrite take_part_far.
  - now rewrite take_part_far.
Qed.
Theorem C161_drop : forall w r c, is_empty w = false ->
  shows (f_drop w r c) (norm (map (opt_rest c) (rest_of (int_arg 0 r) (rows_of w)))).
Proof. exact drop_shows. Qed.
(** TAKE on top of DROP is the table; below it when counted from the end. *)
Theorem C161_together : forall w k, is_empty w = false -> (Z.abs k <= Z.of_nat (v_rows w))%Z -> (Z.of_nat (v_rows w) <= I64_MAX)%Z ->
  exists a b, f_take w (Some (LInt k)) None = Ok a /\ f_drop w (Some (LInt k)) None = Ok b /\
    shows (f_vstack (if (0 <=? k)%Z then [a; b] else [b; a])) (rows_of w).
Proof. exact stack_parts. Qed.
Theorem C161_columns_together : forall w k, is_empty w = false -> (Z.abs k <= Z.of_nat (v_cols w))%Z ->
  (Z.of_nat (v_rows w) <= I64_MAX)%Z -> (Z.of_nat (v_cols w) <= I64_MAX)%Z ->
  exists a b, f_take w (Some (LInt (Z.of_nat (v_rows w)))) (Some (LInt k)) = Ok a /\
    f_drop w (Some (LInt 0)) (Some (LInt k)) = Ok b /\
    shows (f_hstack (if (0 <=? k)%Z then [a; b] else [b; a])) (rows_of w).
Proof. exact stack_columns. Qed.
(** False of the code: a left-out count of rows takes none of them, whatever the columns
    (the documentation gives TAKE(..., ,-1) for the last column), where DROP drops none. *)
Theorem C161_omitted_refuted : forall w c, is_empty w = false -> (Z.abs (int_arg 0 c) <= Z.of_nat (v_cols w))%Z ->
  (Z.of_nat (v_rows w) <= I64_MAX)%Z -> (Z.of_nat (v_cols w) <= I64_MAX)%Z ->
  shows (f_take w (Some LEmpty) c) [].
Proof.
  intros w c E H M1 M2. assert (L : (Z.abs (int_arg 0 (Some LEmpty)) <= Z.of_nat (v_rows w))%Z) by (cbn; lia).
  exact (C161_take w (Some LEmpty) c E L H M1 M2).
Qed.
(** False of the code: a count below every integer overflows. *)
Theorem C161_overflow_refuted : forall w c, is_empty w = false -> f_take w (Some (LNum NInf)) c = Panic.
Proof. intros w c E. unfold f_take. fold (is_empty w). now rewrite E. Qed.
Example C161_example :
  shows (f_take (nums [[1; 2; 3]; [4; 5; 6]]%Z) (Some (LInt (-1))) (Some (LInt (-2)))) [[num 5; num 6]] /\
  shows (f_drop (nums [[1; 2; 3]; [4; 5; 6]]%Z) (Some (LInt 1)) (Some (LInt (-2)))) [[num 4]].
Proof. split; eexists; split; reflexivity. Qed.

(** * C162: VSTACK and HSTACK put tables together *)

Theorem C162_vstack : forall args, level (flat_map (fun a => norm (cells a)) args) ->
  shows (f_vstack args) (flat_map (fun a => norm (cells a)) args).
Proof. exact vstack_ok. Qed.
Theorem C162_vstack_mismatch : forall args, ~ level (flat_map (fun a => norm (cells a)) args) -> is_error (f_vstack args) K_VALUE.
Proof. exact vstack_bad. Qed.
Theorem C162_hstack : forall args n, 0 < n -> (exists a, In a args /\ norm (cells a) <> []) ->
  (forall a, In a args -> norm (cells a) <> [] -> length (cells a) = n) ->
  shows (f_hstack args) (map (beside (map (fun a => norm (cells a)) args)) (seq 0 n)).
Proof.
  intros args n Hn (a & Ia & Na) H. apply hstack_ok; auto. intros X.
  assert (I : In a (filter solid args)).
  { apply filter_In. split; auto. rewrite norm_cells in Na. destruct (solid a); congruence. }
  rewrite X in I. destruct I.
Qed.
Theorem C162_hstack_mismatch : forall args a b, In a args -> In b args -> norm (cells a) <> [] -> norm (cells b) <> [] ->
  length (cells a) <> length (cells b) -> is_error (f_hstack args) K_VALUE.
Proof. exact hstack_bad. Qed.
Theorem C162_nothing : forall args, (forall a, In a args -> norm (cells a) = []) ->
  shows (f_hstack args) [] /\ shows (f_vstack args) [].
Proof. exact stack_none. Qed.
Example C162_example :
  shows (f_vstack [Range (nums [[1; 2]]%Z); Range (of_rows []); Range (nums [[3; 4]; [5; 6]]%Z)]) [[num 1; num 2]; [num 3; num 4]; [num 5; num 6]] /\
  shows (f_hstack [Scalar (LInt 1); Range (nums [[2; 3]]%Z)]) [[num 1; num 2; num 3]] /\
  is_error (f_hstack [Scalar (LInt 1); Range (nums [[2]; [3]]%Z)]) K_VALUE.
Proof. split; [eexists; split; reflexivity|]. split; [eexists; split; reflexivity|]. reflexivity. Qed.

(** * C163: TOCOL and TOROW list the cells *)

Theorem C163_list : forall a mode bc keep, norm (cells a) <> [] -> (0 <= mode <= 3)%Z ->
  (forall v, keep v = true <-> ~ left_out mode v) ->
  let l := filter keep (reading bc (cells a)) in
  (l = [] -> is_error (f_tocol a mode bc) K_CALC /\ is_error (f_torow a mode bc) K_CALC) /\
  (l <> [] -> shows (f_tocol a mode bc) (map (fun v => [v]) l) /\ shows (f_torow a mode bc) [l]).
Proof.
  intros a mode bc keep N M K. cbv zeta.
  assert (E : forall l, filter keep l = filter (include_cell mode) l).
  { intros l. apply filter_ext. intros v. pose proof (K v) as A. pose proof (include_spec mode v M) as B.
    destruct (keep v), (include_cell mode v); auto; exfalso; intuition congruence. }
  rewrite E. apply tocol_ok; auto. rewrite norm_cells in N. destruct (solid a); congruence.
Qed.
Theorem C163_mode : forall a mode bc, ~ (0 <= mode <= 3)%Z ->
  is_error (f_tocol a mode bc) K_VALUE /\ is_error (f_torow a mode bc) K_VALUE.
Proof. exact tocol_mode. Qed.
Example C163_example :
  shows (f_tocol (Range (of_rows [[LInt 1; LEmpty]; [LErr 3%N; LInt 4]])) 3 true) [[num 1]; [num 4]] /\
  shows (f_torow (Range (of_rows [[LInt 1; LEmpty]; [LErr 3%N; LInt 4]])) 1 true) [[num 1; LErr 3%N; num 4]].
Proof. split; eexists; split; reflexivity. Qed.

(** * C164: CHOOSEROWS and CHOOSECOLS pick rows and columns *)

Theorem C164_rows : forall w args idx, is_empty w = false -> args <> [] -> Forall2 (picks (v_rows w)) args idx ->
  shows (f_chooserows w args) (reordered (rows_of w) idx).
Proof. exact chooserows_ok. Qed.
Theorem C164_columns : forall w args idx, is_empty w = false -> args <> [] -> Forall2 (picks (v_cols w)) args idx ->
  shows (f_choosecols w args) (map (fun row => map (fun i => nth i row LEmpty) idx) (rows_of w)).
Proof. exact choosecols_ok. Qed.
(** The first argument that names nothing decides: an error as it is, else #VALUE!. *)
Theorem C164_outside : forall w pre idx v rest, is_empty w = false ->
  (Forall2 (picks (v_rows w)) pre idx -> (forall i, ~ picks (v_rows w) v i) ->
   is_error (f_chooserows w (pre ++ v :: rest)) (match v with LErr e => e | _ => K_VALUE end)) /\
  (Forall2 (picks (v_cols w)) pre idx -> (forall i, ~ picks (v_cols w) v i) ->
   is_error (f_choosecols w (pre ++ v :: rest)) (match v with LErr e => e | _ => K_VALUE end)).
Proof. exact choose_bad. Qed.
(** An index names at most one position. *)
Theorem C164_one_position : forall n v i j, picks n v i -> picks n v j -> i = j.
Proof. intros n v i j [_ [A B]] [_ [C D]]. lia. Qed.
Example C164_example :
  shows (f_chooserows (nums [[1]; [2]; [3]]%Z) [LInt (-1); LInt 1; LInt 1]) [[num 3]; [num 1]; [num 1]] /\
  Forall2 (picks 3) [LInt (-1); LInt 1; LInt 1] [2; 0; 0].
Proof.
  split; [eexists; split; reflexivity|].
  constructor; [|constructor; [|constructor; [|constructor]]]; (split; [left; eexists; reflexivity|split; cbn; lia]).
Qed.

(** * C165: SEQUENCE fills row by row with equal steps *)

Theorem C165_values : forall v rf c cf s d q k, num_arg v = Some rf -> num_opt (Fin 1%Q) c = Some cf ->
  num_opt (Fin 1%Q) s = Some (Fin q) -> num_opt (Fin 1%Q) d = Some (Fin k) ->
  (0 < as_i64 rf <= MAX_ROWS)%Z -> (0 < as_i64 cf <= MAX_COLS)%Z -> (as_i64 rf * as_i64 cf <= MAX_CELLS)%Z ->
  let n := Z.to_nat (as_i64 rf) in
  let m := Z.to_nat (as_i64 cf) in
  exists t, shows (f_sequence v c s d) t /\ rect n m t /\
    forall i j, i < n -> j < m ->
      let e := (q + inject_Z (Z.of_nat (i * m + j)) * k)%Q in
      exists x, numv (cell t i j) = Some x /\ (Qabs (e - x) < TOL)%Q /\
                ((exists z, e == inject_Z z)%Q -> (x == e)%Q).
Proof.
  intros v rf c cf s d q k Hv Hc Hs Hd Hr Hcc Hm n m.
  assert (TL : generated_array_too_large (as_i64 rf) (as_i64 cf) = false).
  { unfold generated_array_too_large, in_i64, I64_MIN, I64_MAX, MAX_ROWS, MAX_COLS, MAX_CELLS in *. nia. }
  destruct (seq_rows_spec n m q k) as [R C].
  exists (map (map stored) (seq_rows n m q k)). split; [|split].
  - eexists. split; [rewrite (sequence_eq rf c s d ltac:(lia) cf q k Hc Hs Hd ltac:(lia) v Hv), TL; reflexivity|].
    apply (cells_collapse n m); auto; unfold n, m; lia.
  - destruct R as [L W]. split; [now rewrite map_length|]. intros row H. apply in_map_iff in H. destruct H as (x & <- & H). rewrite map_length. auto.
  - intros i j Hi Hj. cbv zeta. destruct (C i j Hi Hj) as (p & Ep & Cp).
    assert (Cell : cell (map (map stored) (seq_rows n m q k)) i j = stored (seq_value p)).
    { rewrite <- Cp. unfold cell. change (@nil lval) with (map stored []) at 1. rewrite map_nth.
      change LEmpty with (stored LEmpty) at 1. now rewrite map_nth. }
    rewrite Cell. destruct (seq_value_near p) as (x & Nx & Bx). exists x. split; auto. split; [now rewrite <- Ep|].
    intros (z & Hz). destruct (seq_value_exact p) as (y & Ny & Ey); [left; exists z; now rewrite Ep|].
    rewrite Nx in Ny. inversion Ny; subst. now rewrite Ey.
Qed.
Theorem C165_limits : forall v rf c cf s d, num_arg v = Some rf -> num_opt (Fin 1%Q) c = Some cf ->
  num_opt (Fin 1%Q) s <> None -> num_opt (Fin 1%Q) d <> None ->
  ((as_i64 rf <= 0 \/ as_i64 cf <= 0)%Z -> is_error (f_sequence v c s d) K_VALUE) /\
  ((0 < as_i64 rf)%Z -> (0 < as_i64 cf)%Z ->
   (MAX_ROWS < as_i64 rf \/ MAX_COLS < as_i64 cf \/ MAX_CELLS < as_i64 rf * as_i64 cf)%Z ->
   is_error (f_sequence v c s d) K_NUM).
Proof.
  intros v rf c cf s d Hv Hc Hs Hd. unfold f_sequence, is_error. rewrite Hv, Hc.
  destruct (num_opt (Fin 1%Q) s); [|congruence]. destruct (num_opt (Fin 1%Q) d); [|congruence]. cbv zeta. split.
  - intros H. destruct ((as_i64 rf <=? 0) || (as_i64 cf <=? 0))%Z eqn:E; [reflexivity|lia].
  - intros H1 H2 H. destruct ((as_i64 rf <=? 0) || (as_i64 cf <=? 0))%Z eqn:E; [lia|].
    assert (TL : generated_array_too_large (as_i64 rf) (as_i64 cf) = true) by (unfold generated_array_too_large; lia).
    now rewrite TL.
Qed.
(** False of the code: small fractions are lost. *)
Theorem C165_small_refuted : exists k, ~ (k == 0)%Q /\
  shows (f_sequence (LInt 3) None (Some (LInt 0)) (Some (LNum (Fin k)))) [[num 0]; [num 0]; [num 0]].
Proof. exists (1 # 10000000000000)%Q. split; [discriminate|]. eexists. split; reflexivity. Qed.
Example C165_example : shows (f_sequence (LInt 2) (Some (LInt 3)) (Some (LInt 10)) (Some (LInt 5))) [[num 10; num 15; num 20]; [num 25; num 30; num 35]].
Proof. eexists. split; reflexivity. Qed.

Print Assumptions C155_arguments.
Print Assumptions C155_sorted.
Print Assumptions C155_unique.
Print Assumptions C155_idempotent.
Print Assumptions C155_outside.
Print Assumptions C155_index_refuted.
Print Assumptions C155_overflow_refuted.
Print Assumptions C155_order_refuted.
Print Assumptions C155_mixed_refuted.
Print Assumptions C156_columns.
Print Assumptions C157_sortby.
Print Assumptions C157_agrees.
Print Assumptions C157_shape.
Print Assumptions C158_kept.
Print Assumptions C158_none.
Print Assumptions C158_shape.
Print Assumptions C158_determined.
Print Assumptions C159_rows.
Print Assumptions C159_distinct.
Print Assumptions C159_columns.
Print Assumptions C159_columns_refuted.
Print Assumptions C160_transpose.
Print Assumptions C160_twice.
Print Assumptions C161_take.
Print Assumptions C161_take_too_many.
Print Assumptions C161_drop.
Print Assumptions C161_together.
Print Assumptions C161_columns_together.
Print Assumptions C161_omitted_refuted.
Print Assumptions C161_overflow_refuted.
Print Assumptions C162_vstack.
Print Assumptions C162_vstack_mismatch.
Print Assumptions C162_hstack.
Print Assumptions C162_hstack_mismatch.
Print Assumptions C162_nothing.
Print Assumptions C163_list.
Print Assumptions C163_mode.
Print Assumptions C164_rows.
Print Assumptions C164_columns.
Print Assumptions C164_outside.
Print Assumptions C164_one_position.
Print Assumptions C165_values.
Print Assumptions C165_limits.
Print Assumptions C165_small_refuted.

(** Only TRUE asks for columns, or for values that occur once; the size limits are Excel's
    sheet and 2^24 cells. *)
Theorem C156_only_true_is_true : forall a, true_arg a = true <-> a = Some (LBool true).
Proof. intros [v|]; [destruct v; cbn; try (split; congruence); match goal with b : bool |- _ => destruct b end; cbn; split; congruence|cbn; split; congruence]. Qed.
Theorem C165_limits_are : forall r c, (0 <= r -> 0 <= c ->
  generated_array_too_large r c = false <-> r <= 1048576 /\ c <= 16384 /\ r * c <= 16777216)%Z.
Proof.
  intros r c Hr Hc. unfold generated_array_too_large, in_i64, I64_MIN, I64_MAX, MAX_ROWS, MAX_COLS, MAX_CELLS.
  change (2 ^ 24)%Z with 16777216%Z. split; intros H.
  - rewrite !orb_false_iff, negb_false_iff, andb_true_iff in H. lia.
  - rewrite !orb_false_iff, negb_false_iff, andb_true_iff. lia.
Qed.
Example C165_limits_are_example : generated_array_too_large 4096 4096 = false /\ generated_array_too_large 4096 4097 = true.
Proof. split; reflexivity. Qed.
Print Assumptions C156_only_true_is_true.
Print Assumptions C165_limits_are.
