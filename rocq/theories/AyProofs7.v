(** SORT again, SORTBY arguments, and stacks of parts. *)
From Coq Require Import QArith Qabs Permutation Sorted ZifyNat ZifyBool Lqa.
From Verif Require Import Base Maps LookupModel LookupSpec LookupProofs AyModel AySpec.
From Verif Require Import AyProofs1 AyProofs2 AyProofs3 AyProofs4 AyProofs5 AyProofs6.
Close Scope Q_scope.

(** ** SORT *)
Lemma lex_one : forall lower vs asc i j, lex_le lower [(vs, asc)] i j <-> before lower asc (nth i vs LEmpty) (nth j vs LEmpty).
Proof. intros. cbn. tauto. Qed.
Lemma lex_sorted : forall lower asc t k p, stable_order (lex_le lower [(keys_at k t, asc)]) (length t) p <-> sorted_by lower asc t k p.
Proof.
  intros. split; apply stable_order_ext; intros i j _ _; rewrite lex_one, !nth_keys; reflexivity.
Qed.
Lemma reordered_cell : forall t p i k, i < length p -> cell (reordered t p) i k = cell t (nth i p 0) k.
Proof. intros. unfold cell, reordered. now rewrite nth_map' with (d' := 0) by auto. Qed.
Lemma sorted_again : forall lower asc t k p, sorted_by lower asc t k p ->
  sorted_by lower asc (reordered t p) k (seq 0 (length (reordered t p))).
Proof.
  intros lower asc t k p H. unfold sorted_by. apply stable_order_id. intros i j Hij Hj.
  unfold reordered in Hj. rewrite map_length in Hj. rewrite !reordered_cell by lia. destruct H as [_ S].
  apply (sorted_nth _ _ _ 0 S i j Hij Hj).
Qed.
Lemma one_kind_incl : forall lower parse l l', (forall v, In v l' -> In v l) -> one_kind lower parse l -> one_kind lower parse l'.
Proof.
  intros lower parse l l' I [[C S] K]. split; [split|]; auto. intros u v a b Iu Iv. apply S; auto.
Qed.
Lemma keys_reordered : forall t p k v, (forall i, In i p -> i < length t) -> In v (keys_at k (reordered t p)) -> In v (keys_at k t).
Proof.
  intros t p k v B H. unfold keys_at in *. apply in_map_iff in H. destruct H as (row & <- & H).
  apply in_map_iff. exists row. split; auto. unfold reordered in H. apply in_map_iff in H. destruct H as (i & <- & Hi). apply nth_In. auto.
Qed.

(** ** Arguments of SORTBY *)
Lemma cells_view_dims : forall a, length (cells a) = v_rows (as_view a).
Proof. intros. rewrite <- as_view_cells. apply rows_of_length. Qed.
Lemma by_values_ok : forall n a vs, 0 < n -> vector n a vs -> by_values n (as_view a) = Some vs.
Proof.
  intros n a vs Hn [L V]. unfold by_values. rewrite <- as_view_cells in V. set (w := as_view a) in *. clearbody w.
  destruct (rows_of_rect w) as [R W]. destruct V as [V|V].
  - assert (Rw : v_rows w = n) by (rewrite <- R, V, map_length; auto).
    assert (Cw : v_cols w = 1).
    { rewrite V in W. destruct vs as [|v vs]; [cbn in L; lia|]. symmetry. apply (W [v]). now left. }
    rewrite Cw, Rw, !Nat.eqb_refl. f_equal. unfold col_of. rewrite Rw.
    transitivity (map (fun r => cell (rows_of w) r 0) (seq 0 n)); [apply map_ext; intros; now rewrite cell_rows_of|].
    rewrite V. rewrite <- L. apply list_ext with (d := LEmpty); [now rewrite map_length, seq_length|].
    intros i Hi. rewrite map_length, seq_length in Hi. rewrite nth_map_seq by auto. unfold cell.
    rewrite nth_map' with (d' := LEmpty) by auto. reflexivity.
  - assert (Rw : v_rows w = 1) by (rewrite <- R, V; auto).
    assert (Cw : v_cols w = n) by (rewrite V in W; rewrite <- (W vs) by (now left); auto).
    assert (E : row_of w 0 = vs) by (rewrite <- nth_rows_of, V by lia; reflexivity).
    rewrite Rw, Cw, !Nat.eqb_refl. destruct (Nat.eqb_spec n 1) as [->|]; [|now rewrite E].
    cbn [Nat.eqb]. f_equal. rewrite <- E. unfold col_of, row_of. rewrite Rw, Cw. reflexivity.
Qed.
Lemma by_values_bad : forall n a, (forall vs, ~ vector n a vs) -> by_values n (as_view a) = None.
Proof.
  intros n a H. destruct (by_values n (as_view a)) as [vs|] eqn:E; auto. exfalso. apply (H vs).
  unfold by_values in E. unfold vector. rewrite <- as_view_cells. set (w := as_view a) in *. clearbody w.
  destruct (Nat.eqb_spec (v_cols w) 1) as [C|].
  - destruct (Nat.eqb_spec (v_rows w) n) as [R|]; [|discriminate]. inversion E; subst. split; [apply col_of_length|]. left.
    unfold rows_of, col_of. rewrite map_map. apply map_ext. intros r. unfold row_of. rewrite C. reflexivity.
  - destruct (Nat.eqb_spec (v_rows w) 1) as [R|]; [|discriminate]. destruct (Nat.eqb_spec (v_cols w) n) as [C|]; [|discriminate].
    inversion E; subst. split; [apply row_of_length|]. right. unfold rows_of. rewrite R. reflexivity.
Qed.
Lemma direction_fle : forall q, fle (Fin 0%Q) (Fin q) = Qle_bool 0 q.
Proof. intros. cbn. now rewrite negb_involutive. Qed.
Lemma criteria_ok : forall n args cs, 0 < n -> reads n args cs -> forall fuel, length args <= fuel -> criteria fuel n args = Some cs.
Proof.
  intros n args cs Hn R. induction R as [|a vs rest cs V NS R IH|a vs o asc rest cs V D R IH]; intros fuel F.
  - destruct fuel; reflexivity.
  - destruct fuel as [|fuel]; cbn in F; [lia|]. cbn [criteria]. rewrite (by_values_ok n a vs Hn V).
    assert (N : next_order rest = (true, rest)).
    { destruct rest as [|[v|w] rest]; auto. destruct v; auto; exfalso; apply NS; eexists; exists rest; (split; [reflexivity|]); unfold number; eauto. }
    rewrite N, IH by lia. reflexivity.
  - destruct fuel as [|fuel]; cbn in F; [lia|]. cbn [criteria]. rewrite (by_values_ok n a vs Hn V).
    destruct D as [i|q]; cbn [next_order]; rewrite ?direction_fle, IH by lia; reflexivity.
Qed.
Lemma reads_nonempty : forall n args cs, reads n args cs -> args <> [] -> cs <> [].
Proof. intros n args cs R. destruct R; congruence. Qed.

(** ** Parts put together *)
Lemma ends_rest : forall A k (l : list A), if (0 <=? k)%Z then ends k l ++ rest_of k l = l else rest_of k l ++ ends k l = l.
Proof. intros. unfold ends, rest_of. destruct (0 <=? k)%Z; apply firstn_skipn. Qed.
Lemma norm_norm : forall t, norm (norm t) = norm t.
Proof. intros. unfold norm. rewrite filter_filter. apply filter_ext. intros. now destruct (negb _). Qed.
Lemma norm_rect : forall m t, (forall row, In row t -> length row = m) -> 0 < m -> norm t = t.
Proof.
  intros m t W Hm. induction t as [|a t IH]; cbn; auto. rewrite (W a) by (now left). destruct m; [lia|]. cbn. f_equal. apply IH. intros. apply W. now right.
Qed.
Lemma ends_in : forall A k (l : list A) x, In x (ends k l) -> In x l.
Proof.
  intros A k l x H. pose proof (ends_rest A k l) as E. destruct (0 <=? k)%Z; rewrite <- E; apply in_app_iff; auto.
Qed.
Lemma rest_in : forall A k (l : list A) x, In x (rest_of k l) -> In x l.
Proof.
  intros A k l x H. pose proof (ends_rest A k l) as E. destruct (0 <=? k)%Z; rewrite <- E; apply in_app_iff; auto.
Qed.

Lemma stack_parts : forall w k, is_empty w = false -> (Z.abs k <= Z.of_nat (v_rows w))%Z -> (Z.of_nat (v_rows w) <= I64_MAX)%Z ->
  exists a b, f_take w (Some (LInt k)) None = Ok a /\ f_drop w (Some (LInt k)) None = Ok b /\
    shows (f_vstack (if (0 <=? k)%Z then [a; b] else [b; a])) (rows_of w).
Proof.
  intros w k E Hk M.
  assert (T : shows (f_take w (Some (LInt k)) None) (norm (map (fun l => l) (ends k (rows_of w))))).
  { pose proof (nonempty w) as N. unfold f_take. fold (is_empty w). rewrite E. cbn [int_arg].
    destruct (take_part_in (v_rows w) k) as (r0 & r1 & P); try lia. rewrite P.
    destruct (take_part_ok _ _ _ _ _ (rows_of w) (rows_of_length w) P) as [B1 S1]. rewrite <- S1.
    rewrite (map_in_rect w (fun l => l) (slice 0 (v_cols w))).
    - now apply cut_out_shows.
    - intros row. apply slice_in.
    - intros row L. rewrite <- L. symmetry. apply slice_all. }
  pose proof (drop_shows w (Some (LInt k)) None E) as D. cbn [opt_rest int_arg] in D.
  rewrite !map_id in T, D. destruct T as (a & Ea & Ca), D as (b & Eb & Cb). exists a, b. split; auto. split; auto.
  apply nonempty in E. destruct (rows_of_rect w) as [L W].
  rewrite (norm_rect (v_cols w)) in Ca, Cb; try tauto.
  2:{ intros row H. apply W. eapply rest_in; eauto. }
  2:{ intros row H. apply W. eapply ends_in; eauto. }
  assert (Na : norm (cells a) = cells a) by (apply (norm_rect (v_cols w)); [rewrite Ca; intros row H; apply W; eapply ends_in; eauto|tauto]).
  assert (Nb : norm (cells b) = cells b) by (apply (norm_rect (v_cols w)); [rewrite Cb; intros row H; apply W; eapply rest_in; eauto|tauto]).
  assert (X : flat_map (fun a => norm (cells a)) (if (0 <=? k)%Z then [a; b] else [b; a]) = rows_of w).
  { pose proof (ends_rest _ k (rows_of w)) as X. destruct (0 <=? k)%Z; cbn; rewrite app_nil_r, Na, Nb, Ca, Cb; exact X. }
  rewrite <- X. apply vstack_ok. rewrite X. intros u v Hu Hv. now rewrite !W.
Qed.

Lemma norm_map_length : forall (f : list lval -> list lval) t n, (forall row, In row t -> length (f row) = n) -> 0 < n -> norm (map f t) = map f t.
Proof.
  intros f t n H Hn. apply (norm_rect n); auto. intros row Hr. apply in_map_iff in Hr. destruct Hr as (x & <- & Hx). auto.
Qed.
Lemma norm_map_zero : forall (f : list lval -> list lval) t, (forall row, In row t -> f row = []) -> norm (map f t) = [].
Proof.
  intros f t H. induction t as [|a t IH]; cbn; auto. rewrite (H a) by (now left). cbn. apply IH. intros. apply H. now right.
Qed.
Lemma norm_part : forall w (f : list lval -> list lval) n, (forall row, length row = v_cols w -> length (f row) = n) ->
  norm (map f (rows_of w)) = if n =? 0 then [] else map f (rows_of w).
Proof.
  intros w f n H. destruct (rows_of_rect w) as [_ W]. destruct (Nat.eqb_spec n 0) as [->|Hn].
  - apply norm_map_zero. intros row Hr. apply length_zero_iff_nil. auto.
  - apply norm_map_length with (n := n); auto. lia.
Qed.
Lemma stack_columns : forall w k, is_empty w = false -> (Z.abs k <= Z.of_nat (v_cols w))%Z ->
  (Z.of_nat (v_rows w) <= I64_MAX)%Z -> (Z.of_nat (v_cols w) <= I64_MAX)%Z ->
  exists a b, f_take w (Some (LInt (Z.of_nat (v_rows w)))) (Some (LInt k)) = Ok a /\
    f_drop w (Some (LInt 0)) (Some (LInt k)) = Ok b /\
    shows (f_hstack (if (0 <=? k)%Z then [a; b] else [b; a])) (rows_of w).
Proof.
  intros w k E Hk M1 M2.
  pose proof (take_shows w (Some (LInt (Z.of_nat (v_rows w)))) (Some (LInt k)) E) as T. cbn [int_arg opt_ends] in T.
  specialize (T ltac:(lia) Hk M1 M2).
  pose proof (drop_shows w (Some (LInt 0)) (Some (LInt k)) E) as D. cbn [int_arg opt_rest] in D.
  assert (X1 : ends (Z.of_nat (v_rows w)) (rows_of w) = rows_of w).
  { unfold ends. destruct (0 <=? Z.of_nat (v_rows w))%Z eqn:F; [|lia]. apply firstn_all2. rewrite rows_of_length. lia. }
  assert (X2 : rest_of 0 (rows_of w) = rows_of w) by reflexivity.
  rewrite X1 in T. rewrite X2 in D.
  set (na := Z.to_nat (Z.abs k)). set (nb := v_cols w - na).
  assert (LA : forall row : list lval, length row = v_cols w -> length (ends k row) = na).
  { intros row L. unfold ends, na. destruct (0 <=? k)%Z eqn:F; [rewrite firstn_length|rewrite skipn_length]; lia. }
  assert (LB : forall row : list lval, length row = v_cols w -> length (rest_of k row) = nb).
  { intros row L. unfold rest_of, nb, na. destruct (0 <=? k)%Z eqn:F; [rewrite skipn_length|rewrite firstn_length]; lia. }
  rewrite (norm_part w _ na LA) in T. rewrite (norm_part w _ nb LB) in D.
  destruct T as (a & Ea & Ca), D as (b & Eb & Cb). exists a, b. split; auto. split; auto.
  pose proof E as E'. apply nonempty in E'. destruct E' as [Hr Hc]. destruct (rows_of_rect w) as [L W].
  assert (Na : norm (cells a) = cells a).
  { rewrite Ca. destruct (Nat.eqb_spec na 0); auto. apply norm_map_length with (n := na); [auto|lia]. }
  assert (Nb : norm (cells b) = cells b).
  { rewrite Cb. destruct (Nat.eqb_spec nb 0); auto. apply norm_map_length with (n := nb); [auto|lia]. }
  assert (RA : forall r, r < v_rows w -> nth r (cells a) [] = ends k (row_of w r)).
  { intros r H. assert (Z : length (ends k (row_of w r)) = na) by (apply LA, row_of_length). rewrite Ca.
    destruct (Nat.eqb_spec na 0) as [F|F].
    - rewrite F in Z. apply length_zero_iff_nil in Z. rewrite Z. now destruct r.
    - rewrite nth_map' with (d' := []) by lia. now rewrite nth_rows_of. }
  assert (RB : forall r, r < v_rows w -> nth r (cells b) [] = rest_of k (row_of w r)).
  { intros r H. assert (Z : length (rest_of k (row_of w r)) = nb) by (apply LB, row_of_length). rewrite Cb.
    destruct (Nat.eqb_spec nb 0) as [F|F].
    - rewrite F in Z. apply length_zero_iff_nil in Z. rewrite Z. now destruct r.
    - rewrite nth_map' with (d' := []) by lia. now rewrite nth_rows_of. }
  set (args := if (0 <=? k)%Z then [a; b] else [b; a]).
  assert (In2 : forall x, In x args -> x = a \/ x = b) by (unfold args; destruct (0 <=? k)%Z; cbn; intuition).
  assert (Le : forall x, In x args -> norm (cells x) <> [] -> length (cells x) = v_rows w).
  { intros x Hx N. destruct (In2 x Hx) as [-> | ->].
    - rewrite Na in N. rewrite Ca in *. destruct (na =? 0); [congruence|]. now rewrite map_length.
    - rewrite Nb in N. rewrite Cb in *. destruct (nb =? 0); [congruence|]. now rewrite map_length. }
  assert (NE : filter solid args <> []).
  { intros F. assert (Z : na = 0 /\ nb = 0).
    { assert (G : forall x, In x args -> solid x = false).
      { intros x Hx. destruct (solid x) eqn:Sx; auto. exfalso. assert (In x (filter solid args)) by (now apply filter_In). rewrite F in H. destruct H. }
      assert (Ia : In a args /\ In b args) by (unfold args; destruct (0 <=? k)%Z; cbn; auto). destruct Ia as [Ia Ib].
      pose proof (norm_cells a) as P. rewrite (G a Ia), Na in P. pose proof (norm_cells b) as Q. rewrite (G b Ib), Nb in Q.
      rewrite Ca in P. rewrite Cb in Q. split.
      - destruct (Nat.eqb_spec na 0); auto. apply map_eq_nil in P. rewrite P in L. cbn in L. lia.
      - destruct (Nat.eqb_spec nb 0); auto. apply map_eq_nil in Q. rewrite Q in L. cbn in L. lia. }
    unfold nb in Z. lia. }
  pose proof (hstack_ok args (v_rows w) Hr NE Le) as H.
  replace (rows_of w) with (map (beside (map (fun a0 => norm (cells a0)) args)) (seq 0 (v_rows w))); auto.
  unfold rows_of. apply map_ext_in. intros r Hin. apply in_seq in Hin.
  pose proof (ends_rest _ k (row_of w r)) as X. unfold args, beside.
  destruct (0 <=? k)%Z; cbn [map flat_map]; rewrite app_nil_r, Na, Nb, RA, RB by lia; exact X.
Qed.
