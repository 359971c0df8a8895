(** FILTER and UNIQUE. *)
From Coq Require Import QArith Permutation Sorted ZifyNat ZifyBool.
From Verif Require Import Base Maps LookupModel LookupSpec AyModel AySpec AyProofs1 AyProofs2 AyProofs3.
Close Scope Q_scope.

(** ** Selections *)
Lemma filter_seq_sorted : forall f m k, StronglySorted lt (filter f (seq k m)).
Proof.
  intros f m. induction m as [|m IH]; intros k; cbn; [constructor|]. destruct (f k); auto. constructor; auto.
  apply Forall_forall. intros j Hj. apply filter_In in Hj. destruct Hj as [Hj _]. apply in_seq in Hj. lia.
Qed.
Lemma selects_filter : forall t f (P : nat -> Prop), (forall i, i < length t -> (f i = true <-> P i)) ->
  selects P t (reordered t (filter f (seq 0 (length t)))).
Proof.
  intros t f P H. exists (filter f (seq 0 (length t))). split; [apply filter_seq_sorted|]. split; auto.
  intros i. rewrite filter_In, in_seq. split.
  - intros [A B]. split; [lia|]. apply H; auto; lia.
  - intros [A B]. split; [lia|]. now apply H.
Qed.
Lemma selects_unique : forall P t t1 t2, selects P t t1 -> selects P t t2 -> t1 = t2.
Proof.
  intros P t t1 t2 (p & S & I & ->) (q & S' & I' & ->). f_equal. eapply sorted_unique; [|exact S|exact S'|].
  - intros; lia.
  - apply NoDup_Permutation.
    + clear I. induction S as [|a l S IH F]; constructor; auto. intros X. rewrite Forall_forall in F. specialize (F a X). lia.
    + clear I'. induction S' as [|a l S' IH F]; constructor; auto. intros X. rewrite Forall_forall in F. specialize (F a X). lia.
    + intros i. now rewrite I, I'.
Qed.
Lemma selects_ext : forall (P Q : nat -> Prop) t t', (forall i, i < length t -> (P i <-> Q i)) -> selects P t t' -> selects Q t t'.
Proof.
  intros P Q t t' H (p & S & I & ->). exists p. split; auto. split; auto. intros i. rewrite I. split; intros [A B]; split; auto; now apply H.
Qed.
Lemma reordered_rect' : forall n m t p, rect n m t -> (forall i, In i p -> i < n) -> rect (length p) m (reordered t p).
Proof.
  intros n m t p [L W] B. split; [unfold reordered; now rewrite map_length|]. intros row H. unfold reordered in H.
  apply in_map_iff in H. destruct H as (i & <- & Hi). apply W, nth_In. rewrite L. auto.
Qed.

(** ** FILTER *)
Lemma truthy_spec : forall v, is_truthy v = true <-> truthy v.
Proof.
  intros v. destruct v as [x|z|s|b|q| |k|]; cbn.
  - destruct x as [q| | |].
    + rewrite negb_true_iff. split.
      * intros H. constructor. intros X. apply Qeq_bool_iff in X. congruence.
      * intros H. inversion H as [|? H1| |? H2| | |]; subst; [|now destruct (H2 q)].
        destruct (Qeq_bool q 0) eqn:E; auto. apply Qeq_bool_iff in E. contradiction.
    + split; auto. intros _. apply truthy_special. discriminate.
    + split; auto. intros _. apply truthy_special. discriminate.
    + split; auto. intros _. apply truthy_special. discriminate.
  - rewrite negb_true_iff, Z.eqb_neq. split; [now constructor|]. intros H. now inversion H.
  - rewrite negb_true_iff, Nat.eqb_neq. split.
    + intros H. constructor. now intros ->.
    + intros H. inversion H as [| | | |? X| |]; subst. destruct s; [congruence|]. cbn. lia.
  - split; [intros ->; constructor|]. intros H. now inversion H.
  - split; auto. constructor.
  - split; [discriminate|]. intros H. inversion H.
  - split; [discriminate|]. intros H. inversion H.
  - split; auto. constructor.
Qed.

Definition wantedb (w incl : view) (i : nat) : bool :=
  existsb (fun c => is_truthy (get_cell incl (cond_row w incl i) c)) (seq 0 (v_cols incl)).
Lemma wantedb_spec : forall w incl i, wantedb w incl i = true <-> wanted w incl i.
Proof.
  intros. unfold wantedb, wanted. rewrite existsb_exists. split; intros (c & A & B).
  - exists c. apply in_seq in A. split; [lia|]. now apply truthy_spec.
  - exists c. split; [apply in_seq; lia|]. now apply truthy_spec.
Qed.

Lemma filter_eq : forall w incl dflt, is_empty w = false ->
  v_rows incl = v_rows w \/ v_rows incl = 1 ->
  f_filter w incl dflt =
  match filter (wantedb w incl) (seq 0 (v_rows w)) with
  | [] => match dflt with Some v => Ok v | None => fail K_CALC end
  | ps => Ok (Range (of_rows (reordered (rows_of w) ps)))
  end.
Proof.
  intros w incl dflt E H. unfold f_filter. fold (is_empty w). rewrite E.
  destruct (negb (v_rows incl =? v_rows w) && negb (v_rows incl =? 1)) eqn:X; [lia|].
  fold (wantedb w incl). change (fun r => existsb _ (seq 0 (v_cols incl))) with (wantedb w incl).
  destruct (filter (wantedb w incl) (seq 0 (v_rows w))) as [|i ps] eqn:F; auto.
  do 3 f_equal. unfold reordered. apply map_ext_in. intros j Hj. rewrite <- F in Hj. apply filter_In in Hj.
  destruct Hj as [Hj _]. apply in_seq in Hj. now rewrite nth_rows_of by lia.
Qed.

Lemma filter_some : forall w incl dflt i, is_empty w = false ->
  v_rows incl = v_rows w \/ v_rows incl = 1 -> i < v_rows w -> wanted w incl i ->
  exists t, shows (f_filter w incl dflt) t /\ selects (wanted w incl) (rows_of w) t.
Proof.
  intros w incl dflt i E H Hi Wi. rewrite filter_eq by auto.
  set (ps := filter (wantedb w incl) (seq 0 (v_rows w))).
  assert (I : In i ps) by (apply filter_In; split; [apply in_seq; lia|now apply wantedb_spec]).
  assert (B : forall j, In j ps -> j < v_rows w) by (intros j Hj; apply filter_In in Hj; destruct Hj as [Hj _]; apply in_seq in Hj; lia).
  exists (reordered (rows_of w) ps). apply nonempty in E. split.
  - destruct ps as [|j ps'] eqn:F; [destruct I|]. eexists. split; [reflexivity|]. cbn [cells].
    rewrite (rows_of_of_rows (length (j :: ps')) (v_cols w)); try tauto.
    + apply map_stored. eapply plain_incl; [apply plain_rows_of|]. eapply reordered_in; eauto. apply rows_of_rect.
    + eapply reordered_rect'; eauto. apply rows_of_rect.
    + cbn. lia.
  - unfold ps. rewrite <- (rows_of_length w). apply selects_filter. intros j _. apply wantedb_spec.
Qed.
Lemma filter_none : forall w incl dflt, is_empty w = false ->
  v_rows incl = v_rows w \/ v_rows incl = 1 -> (forall i, i < v_rows w -> ~ wanted w incl i) ->
  f_filter w incl dflt = match dflt with Some v => Ok v | None => fail K_CALC end.
Proof.
  intros w incl dflt E H Hn. rewrite filter_eq by auto.
  destruct (filter (wantedb w incl) (seq 0 (v_rows w))) as [|i ps] eqn:F; auto. exfalso.
  assert (I : In i (filter (wantedb w incl) (seq 0 (v_rows w)))) by (rewrite F; now left).
  apply filter_In in I. destruct I as [I X]. apply in_seq in I. apply wantedb_spec in X. apply (Hn i); auto; lia.
Qed.

(** ** UNIQUE *)
Lemma veq_same : forall a b, veq a b = true <-> same a b.
Proof.
  intros a b. split.
  - destruct a as [x|z|s|p|q| |k|], b as [x'|z'|s'|p'|q'| |k'|]; cbn; try discriminate; intros H.
    + destruct x as [u| | |], x' as [u'| | |]; try discriminate; [|now apply same_other|now apply same_other].
      apply Qeq_bool_iff in H. now constructor.
    + apply Z.eqb_eq in H. subst. now apply same_other.
    + apply text_eqb_spec in H. subst. now apply same_other.
    + apply eqb_prop in H. subst. now apply same_other.
    + apply Qeq_bool_iff in H. now constructor.
    + now apply same_other.
    + apply N.eqb_eq in H. subst. now apply same_other.
    + now apply same_other.
  - intros [x y H|x y H|v H]; cbn; try now apply Qeq_bool_iff.
    destruct v as [[u| | |]|z|s|p|q| |k|]; cbn; auto; try congruence.
    + apply Qeq_bool_iff. reflexivity.
    + apply Z.eqb_refl.
    + now apply text_eqb_spec.
    + apply eqb_reflx.
    + apply Qeq_bool_iff. reflexivity.
    + apply N.eqb_refl.
Qed.
Lemma key_same : forall a b, key_eq a b = true <-> same_row a b.
Proof.
  induction a as [|x a IH]; destruct b as [|y b]; cbn; split; intros H; try discriminate; try (now inversion H); try constructor.
  - apply andb_true_iff in H. now apply veq_same.
  - apply andb_true_iff in H. now apply IH.
  - inversion H; subst. apply andb_true_iff. split; [now apply veq_same|now apply IH].
Qed.
Lemma same_sym : forall a b, same a b -> same b a.
Proof. intros a b [x y H|x y H|v H]; [now apply same_num|now apply same_serial|now apply same_other]. Qed.
Lemma same_trans : forall a b c, same a b -> same b c -> same a c.
Proof.
  intros a b c H1 H2. destruct H1 as [x y H|x y H|v H]; auto.
  - inversion H2 as [u z E|u z E|v E]; subst; [apply same_num; etransitivity; eauto|now apply same_num].
  - inversion H2 as [u z E|u z E|v E]; subst; [apply same_serial; etransitivity; eauto|now apply same_serial].
Qed.
Lemma row_sym : forall a b, same_row a b -> same_row b a.
Proof. intros a b H. induction H; constructor; auto using same_sym. Qed.
Lemma row_trans : forall a b c, same_row a b -> same_row b c -> same_row a c.
Proof.
  intros a b c H. revert c. induction H as [|x y a b S H IH]; intros c H'; inversion H' as [|? z ? c' S' T]; subst; constructor.
  - eapply same_trans; eauto.
  - now apply IH.
Qed.
Lemma key_eq_sym : forall a b, key_eq a b = key_eq b a.
Proof.
  intros. destruct (key_eq a b) eqn:E, (key_eq b a) eqn:F; auto.
  - apply key_same, row_sym, key_same in E. congruence.
  - apply key_same, row_sym, key_same in F. congruence.
Qed.
Lemma key_eq_trans : forall a b c, key_eq a b = true -> key_eq b c = true -> key_eq a c = true.
Proof. intros a b c. rewrite !key_same. apply row_trans. Qed.

Definition bump (o : option nat) : option nat := Some (match o with Some n => S n | None => 1 end).
Lemma count_get_add : forall m x k, count_get (count_add m x) k = if key_eq k x then bump (count_get m k) else count_get m k.
Proof.
  induction m as [|[k' n] m IH]; intros x k; cbn.
  - destruct (key_eq k x); reflexivity.
  - destruct (key_eq x k') eqn:E; cbn.
    + destruct (key_eq k k') eqn:F, (key_eq k x) eqn:G; auto.
      * exfalso. rewrite key_eq_sym in E. pose proof (key_eq_trans _ _ _ F E). congruence.
      * exfalso. pose proof (key_eq_trans _ _ _ G E). congruence.
    + destruct (key_eq k k') eqn:F; [|apply IH]. destruct (key_eq k x) eqn:G; auto.
      exfalso. rewrite key_eq_sym in G. pose proof (key_eq_trans _ _ _ G F). congruence.
Qed.
Definition count_in (l : table) (k : list lval) : nat := length (filter (key_eq k) l).
Definition counted (m : counts) (l : table) : Prop :=
  forall k, count_get m k = match count_in l k with 0 => None | n => Some n end.
Lemma counted_add : forall m l x, counted m l -> counted (count_add m x) (l ++ [x]).
Proof.
  intros m l x H k. rewrite count_get_add, (H k). unfold count_in. rewrite filter_app, app_length. cbn.
  destruct (key_eq k x); cbn.
  - replace (length (filter (key_eq k) l) + 1) with (S (length (filter (key_eq k) l))) by lia.
    destruct (length (filter (key_eq k) l)); reflexivity.
  - rewrite ?(H k), Nat.add_0_r. reflexivity.
Qed.

Definition firstb (t : table) (i : nat) : bool := forallb (fun j => negb (key_eq (nth i t []) (nth j t []))) (seq 0 i).
Lemma firstb_spec : forall t i, firstb t i = true <-> is_first t i.
Proof.
  intros. unfold firstb, is_first. rewrite forallb_forall. split.
  - intros H j Hj X. apply key_same in X. specialize (H j ltac:(apply in_seq; lia)). rewrite X in H. discriminate.
  - intros H j Hj. apply in_seq in Hj. destruct (key_eq _ _) eqn:E; auto. apply key_same in E. exfalso. apply (H j); auto; lia.
Qed.
Lemma firstb_app : forall t u i, i < length t -> firstb (t ++ u) i = firstb t i.
Proof.
  intros t u i Hi. unfold firstb. rewrite app_nth1 by auto.
  assert (G : forall n k, k + n <= length t ->
     forallb (fun j => negb (key_eq (nth i t []) (nth j (t ++ u) []))) (seq k n) =
     forallb (fun j => negb (key_eq (nth i t []) (nth j t []))) (seq k n)).
  { induction n as [|n IH]; intros k Hk; cbn; auto. rewrite app_nth1 by lia. now rewrite IH by lia. }
  apply G. lia.
Qed.

Lemma forallb_nth_app : forall f (u v : table),
  forallb (fun j => negb (f (nth j (u ++ v) []))) (seq 0 (length u)) = negb (existsb f u).
Proof.
  intros f u v. induction u as [|a u IH]; cbn; auto. rewrite negb_orb, <- IH. f_equal. rewrite <- seq_shift.
  generalize (seq 0 (length u)). intros l. induction l as [|i l IHl]; cbn; auto. now rewrite IHl.
Qed.
Definition firsts (t : table) : table := reordered t (filter (firstb t) (seq 0 (length t))).
Lemma reordered_app : forall t u p, (forall i, In i p -> i < length t) -> reordered (t ++ u) p = reordered t p.
Proof. intros t u p B. unfold reordered. apply map_ext_in. intros i Hi. now rewrite app_nth1 by auto. Qed.
Lemma firsts_snoc : forall t x, firsts (t ++ [x]) = firsts t ++ (if existsb (key_eq x) t then [] else [x]).
Proof.
  intros t x. unfold firsts. rewrite app_length. cbn [length]. replace (length t + 1) with (S (length t)) by lia.
  rewrite seq_S, filter_app. cbn [Nat.add filter].
  assert (F : filter (firstb (t ++ [x])) (seq 0 (length t)) = filter (firstb t) (seq 0 (length t))).
  { apply filter_ext_in. intros i Hi. apply in_seq in Hi. apply firstb_app. lia. }
  rewrite F. unfold reordered at 1. rewrite map_app. fold (reordered (t ++ [x]) (filter (firstb t) (seq 0 (length t)))).
  rewrite reordered_app.
  2:{ intros i Hi. apply filter_In in Hi. destruct Hi as [Hi _]. apply in_seq in Hi. lia. }
  f_equal.
  assert (X : firstb (t ++ [x]) (length t) = negb (existsb (key_eq x) t)).
  { unfold firstb. rewrite app_nth2 by lia. rewrite Nat.sub_diag. cbn [nth].
    apply forallb_nth_app. }
  rewrite X. destruct (existsb (key_eq x) t); cbn; auto. rewrite app_nth2 by lia. now rewrite Nat.sub_diag.
Qed.

Lemma tally_spec : forall ks pre order m, counted m pre -> order = firsts pre ->
  let '(o, m') := tally ks order m in o = firsts (pre ++ ks) /\ counted m' (pre ++ ks).
Proof.
  induction ks as [|k ks IH]; intros pre order m C O; cbn.
  - rewrite app_nil_r. auto.
  - replace (pre ++ k :: ks) with ((pre ++ [k]) ++ ks) by (now rewrite <- app_assoc).
    apply IH; [now apply counted_add|]. rewrite firsts_snoc, O, C. unfold count_in.
    assert (X : existsb (key_eq k) pre = negb (length (filter (key_eq k) pre) =? 0)).
    { clear. induction pre as [|a pre IH]; cbn; auto. destruct (key_eq k a); cbn; auto. }
    rewrite X. destruct (length (filter (key_eq k) pre)); cbn; auto. now rewrite app_nil_r.
Qed.

Definition onceb (t : table) (i : nat) : bool := count_in t (nth i t []) =? 1.
Lemma count_one : forall f (u : table),
  length (filter f u) = 1 <-> exists i, i < length u /\ forall j, j < length u -> (f (nth j u []) = true <-> j = i).
Proof.
  intros f u. induction u as [|a u IH]; cbn.
  - split; [discriminate|]. intros (i & H & _). lia.
  - destruct (f a) eqn:E; cbn.
    + split.
      * intros H. exists 0. split; [lia|]. intros [|j] Hj; [tauto|]. split; [|discriminate]. intros X. exfalso.
        assert (I : In (nth j u []) (filter f u)) by (apply filter_In; split; auto; apply nth_In; lia).
        destruct (filter f u); [destruct I|]. cbn in H. lia.
      * intros (i & Hi & H). assert (i = 0) by (symmetry; apply (H 0); [lia|auto]). subst i.
        destruct (filter f u) as [|b l] eqn:F; auto. exfalso.
        assert (I : In b (filter f u)) by (rewrite F; now left). apply filter_In in I. destruct I as [I X].
        apply In_nth with (d := []) in I. destruct I as (j & Hj & <-). specialize (H (S j) ltac:(lia)). cbn in H.
        apply H in X. discriminate.
    + rewrite IH. split.
      * intros (i & Hi & H). exists (S i). split; [lia|]. intros [|j] Hj; [rewrite E; split; discriminate|].
        rewrite (H j) by lia. split; congruence.
      * intros (i & Hi & H). destruct i as [|i].
        { exfalso. specialize (H 0 ltac:(lia)). cbn in H. rewrite E in H. destruct H as [_ H]. discriminate (H eq_refl). }
        exists i. split; [lia|]. intros j Hj. specialize (H (S j) ltac:(lia)). cbn in H. rewrite H. split; congruence.
Qed.

Lemma firsts_selects : forall t, selects (is_first t) t (firsts t).
Proof. intros t. unfold firsts. apply selects_filter. intros i _. apply firstb_spec. Qed.

Lemma map_filter : forall A B (g : A -> B) f l, filter f (map g l) = map g (filter (fun x => f (g x)) l).
Proof. intros. induction l as [|x l IH]; cbn; auto. destruct (f (g x)); cbn; congruence. Qed.
Lemma filter_filter : forall A (f g : A -> bool) l, filter f (filter g l) = filter (fun x => g x && f x) l.
Proof. intros. induction l as [|x l IH]; cbn; auto. destruct (g x); cbn; [destruct (f x)|]; congruence. Qed.

Lemma onlyb_spec : forall t i, i < length t ->
  (firstb t i && match count_in t (nth i t []) with 1 => true | _ => false end = true <-> is_only t i).
Proof.
  intros t i Hi. assert (X : (match count_in t (nth i t []) with 1 => true | _ => false end) = onceb t i).
  { unfold onceb. destruct (count_in t (nth i t [])) as [|[|]]; reflexivity. }
  rewrite X, andb_true_iff. unfold onceb. rewrite Nat.eqb_eq. unfold count_in. rewrite count_one, firstb_spec. split.
  - intros [F (k & Hk & H)]. assert (Z : k = i).
    { pose proof (proj2 (H k Hk) eq_refl) as E. destruct (Nat.lt_trichotomy k i) as [L|[L|L]]; auto.
      - exfalso. apply key_same in E. apply (F k); auto.
      - exfalso. assert (E2 : key_eq (nth i t []) (nth i t []) = true).
        { eapply key_eq_trans; [exact E|]. rewrite key_eq_sym. exact E. }
        apply (H i Hi) in E2. lia. }
    subst k. intros j Hj. rewrite <- key_same. now apply H.
  - intros O. split.
    + intros j Hj X'. apply O in X'; lia.
    + exists i. split; auto. intros j Hj. rewrite key_same. now apply O.
Qed.

Lemma distinct_selects : forall (once : bool) (t : table),
  selects (if once then is_only t else is_first t) t (distinct once t).
Proof.
  intros once t. unfold distinct. pose proof (tally_spec t [] [] [] ltac:(intros k; reflexivity) eq_refl) as T.
  destruct (tally t [] []) as [o m]. cbn in T. destruct T as [-> C]. destruct once; cbn [negb orb].
  - unfold firsts, reordered. rewrite map_filter, filter_filter. apply selects_filter.
    intros i Hi. rewrite <- (onlyb_spec t i Hi). rewrite C.
    destruct (count_in t (nth i t [])) as [|[|]]; reflexivity.
  - assert (F : forall l : table, filter (fun _ => true) l = l) by (induction l; cbn; congruence).
    rewrite F. apply firsts_selects.
Qed.

Lemma selects_rect : forall P n m t t', rect n m t -> selects P t t' -> (forall row, In row t' -> length row = m) /\ (forall row, In row t' -> In row t).
Proof.
  intros P n m t t' [L W] (p & S & I & ->).
  assert (B : forall row, In row (map (fun i => nth i t []) p) -> In row t).
  { intros row H. apply in_map_iff in H. destruct H as (i & <- & Hi). apply I in Hi. apply nth_In. tauto. }
  split; auto.
Qed.
Lemma collapse_selected : forall P n m t t', rect n m t -> plain t -> 0 < m -> selects P t t' ->
  shows (Ok (collapse_if_scalar t')) t'.
Proof.
  intros P n m t t' R Pl Hm S. destruct (selects_rect _ _ _ _ _ R S) as [W I].
  assert (E : t' = [] \/ 0 < length t') by (destruct t'; [now left|right; cbn; lia]).
  destruct E as [->|E]; [eexists; split; reflexivity|].
  apply (shows_collapse (length t') m); auto.
  - split; auto.
  - eapply plain_incl; eauto.
Qed.

Lemma unique_rows : forall w bc once, is_empty w = false -> true_arg bc = false ->
  exists t, shows (f_unique w bc once) t /\
            selects (if true_arg once then is_only (rows_of w) else is_first (rows_of w)) (rows_of w) t.
Proof.
  intros w bc once E B. unfold f_unique. fold (is_empty w). rewrite E, B. apply nonempty in E.
  exists (distinct (true_arg once) (rows_of w)). split; [|apply distinct_selects].
  eapply collapse_selected with (n := v_rows w) (m := v_cols w); [apply rows_of_rect|apply plain_rows_of|apply E|apply distinct_selects].
Qed.
Lemma unique_cols : forall w bc once, is_empty w = false -> true_arg bc = true ->
  let t0 := flip (v_rows w) (v_cols w) (rows_of w) in
  exists t, shows (f_unique w bc once) t /\
            selects (if true_arg once then is_only t0 else is_first t0) t0 t.
Proof.
  intros w bc once E B t0. unfold f_unique. fold (is_empty w). rewrite E, B, cols_flip. fold t0. apply nonempty in E.
  exists (distinct (true_arg once) t0). split; [|apply distinct_selects].
  eapply collapse_selected with (n := v_cols w) (m := v_rows w); [apply flip_rect| |apply E|apply distinct_selects].
  unfold t0. rewrite <- cols_flip. apply plain_cols.
Qed.
