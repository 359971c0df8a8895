(* Overlays: iterators, lanes and the values of single fragments. *)
From Coq Require Import List Bool NArith ZArith Lia.
From Coq Require Import ZifyN ZifyNat ZifyBool FinFun.
From Verif Require Import Base Maps OvModel OvSpec.
Import ListNotations.
Open Scope N_scope.

(* ---- iterators ---- *)
Lemma rangeN_spec : forall a b x, In x (rangeN a b) <-> a <= x /\ x < b.
Proof.
  intros a b x. unfold rangeN. rewrite in_map_iff. split.
  - intros (i & E & I). apply in_seq in I. lia.
  - intros [A B]. exists (N.to_nat (x - a)). rewrite in_seq. lia.
Qed.
Lemma rangeN_length : forall a b, length (rangeN a b) = N.to_nat (b - a).
Proof. intros a b. unfold rangeN. now rewrite map_length, seq_length. Qed.
Lemma rangeN_nth : forall a b i, (i < N.to_nat (b - a))%nat -> nth_error (rangeN a b) i = Some (a + N.of_nat i).
Proof.
  intros a b i H. unfold rangeN.
  assert (E : nth_error (seq 0 (N.to_nat (b - a))) i = Some i).
  { rewrite nth_error_nth' with (d := 0%nat) by now rewrite seq_length. now rewrite seq_nth. }
  now rewrite (map_nth_error _ _ _ E).
Qed.
Lemma rangeN_NoDup : forall a b, NoDup (rangeN a b).
Proof.
  intros a b. unfold rangeN. apply Injective_map_NoDup; [|apply seq_NoDup].
  intros x y E. lia.
Qed.
Lemma rangeN_nil : forall a b, b <= a -> rangeN a b = [].
Proof. intros a b H. unfold rangeN. now replace (N.to_nat (b - a)) with 0%nat by lia. Qed.
Lemma rangeN_cons : forall a b, a < b -> rangeN a b = a :: rangeN (a + 1) b.
Proof.
  intros a b H. unfold rangeN. replace (N.to_nat (b - a)) with (S (N.to_nat (b - (a + 1)))) by lia.
  cbn [seq map]. f_equal; [lia|]. rewrite <- seq_shift, map_map. apply map_ext. intros i. lia.
Qed.

Lemma filter_map_in : forall A B (f : A -> option B) l y,
  In y (filter_map f l) <-> exists x, In x l /\ f x = Some y.
Proof.
  intros A B f l y. induction l as [|x l IH]; cbn.
  - split; [tauto|intros (x & [] & _)].
  - destruct (f x) eqn:E; cbn; rewrite IH; split.
    + intros [<- | (z & I & F)]; eauto.
    + intros (z & [-> | I] & F); [left; congruence|eauto].
    + intros (z & I & F); eauto.
    + intros (z & [-> | I] & F); [congruence|eauto].
Qed.
Lemma filter_map_total : forall A B (f : A -> option B) (g : A -> B) l,
  (forall x, In x l -> f x = Some (g x)) -> filter_map f l = map g l.
Proof.
  intros A B f g l. induction l as [|x l IH]; cbn; intros H; auto.
  rewrite (H x) by auto. f_equal. apply IH. auto.
Qed.
Lemma filter_map_ext : forall A B (f g : A -> option B) l,
  (forall x, In x l -> f x = g x) -> filter_map f l = filter_map g l.
Proof.
  intros A B f g l. induction l as [|x l IH]; cbn; intros H; auto.
  rewrite (H x), IH by auto. reflexivity.
Qed.
Lemma enum_from_in : forall A (l : list A) i j x,
  In (j, x) (enum_from i l) <-> i <= j /\ nth_error l (N.to_nat (j - i)) = Some x.
Proof.
  intros A. induction l as [|y l IH]; cbn; intros i j x.
  - split; [tauto|]. intros [_ H]. destruct (N.to_nat (j - i)); discriminate.
  - rewrite IH. split.
    + intros [E | [A1 A2]].
      * injection E as <- <-. split; [lia|]. now replace (N.to_nat (i - i)) with 0%nat by lia.
      * split; [lia|]. replace (N.to_nat (j - i)) with (S (N.to_nat (j - (i + 1)))) by lia. exact A2.
    + intros [A1 A2]. destruct (N.eq_dec i j) as [<- | NE].
      * replace (N.to_nat (i - i)) with 0%nat in A2 by lia. cbn in A2. left. congruence.
      * right. split; [lia|]. replace (N.to_nat (j - i)) with (S (N.to_nat (j - (i + 1)))) in A2 by lia. exact A2.
Qed.
Lemma enumerate_in : forall A (l : list A) j x, In (j, x) (enumerate l) <-> nthN l j = Some x.
Proof.
  intros A l j x. unfold enumerate, nthN. rewrite enum_from_in, N.sub_0_r. split; [tauto|]. split; [lia|auto].
Qed.
Lemma enum_from_snd : forall A (l : list A) i, map snd (enum_from i l) = l.
Proof. intros A. induction l as [|x l IH]; cbn; intros i; auto. now rewrite IH. Qed.

(* ---- sorted lists ---- *)
Fixpoint incr (lo : N) (l : list N) : Prop :=
  match l with [] => True | x :: r => lo <= x /\ incr (x + 1) r end.
Lemma incr_le : forall l lo lo', lo' <= lo -> incr lo l -> incr lo' l.
Proof. intros [|x l] lo lo' H; cbn; auto. intros [A B]. split; [lia|auto]. Qed.
Lemma incr_in : forall l lo x, incr lo l -> In x l -> lo <= x.
Proof.
  induction l as [|y l IH]; cbn; intros lo x H I; [tauto|]. destruct H as [A B]. destruct I as [-> | I]; auto.
  specialize (IH _ _ B I). lia.
Qed.
Lemma incr_NoDup : forall l lo, incr lo l -> NoDup l.
Proof.
  induction l as [|x l IH]; cbn; intros lo H; constructor.
  - intros I. destruct H as [_ H]. pose proof (incr_in _ _ _ H I). lia.
  - destruct H. eauto.
Qed.
Lemma incr_ext : forall l l' lo, incr lo l -> incr lo l' -> (forall x, In x l <-> In x l') -> l = l'.
Proof.
  induction l as [|x l IH]; intros [|y l'] lo; cbn [incr]; auto.
  - intros _ _ H. destruct (proj2 (H y)); cbn; auto.
  - intros _ _ H. destruct (proj1 (H x)); cbn; auto.
  - intros [A1 A2] [B1 B2] H. assert (x = y).
    { destruct (proj1 (H x) (or_introl eq_refl)) as [E | I]; auto.
      destruct (proj2 (H y) (or_introl eq_refl)) as [E | J]; auto.
      pose proof (incr_in _ _ _ B2 I). pose proof (incr_in _ _ _ A2 J). lia. }
    subst y. f_equal. apply IH with (lo := x + 1); auto. intros z. split; intros I.
    + destruct (proj1 (H z) (or_intror I)) as [<- | J]; auto. pose proof (incr_in _ _ _ A2 I). lia.
    + destruct (proj2 (H z) (or_intror I)) as [<- | J]; auto. pose proof (incr_in _ _ _ B2 I). lia.
Qed.

Lemma search_from_some : forall l i x j, search_from i l x = Some j ->
  i <= j /\ nth_error l (N.to_nat (j - i)) = Some x.
Proof.
  induction l as [|y l IH]; cbn; intros i x j H; [discriminate|].
  destruct (x =? y) eqn:E.
  - injection H as <-. apply N.eqb_eq in E. subst. split; [lia|]. now replace (N.to_nat (i - i)) with 0%nat by lia.
  - apply IH in H. destruct H as [A B]. split; [lia|].
    replace (N.to_nat (j - i)) with (S (N.to_nat (j - (i + 1)))) by lia. exact B.
Qed.
Lemma search_from_none : forall l i x, search_from i l x = None <-> ~ In x l.
Proof.
  induction l as [|y l IH]; cbn; intros i x; [tauto|]. destruct (x =? y) eqn:E.
  - apply N.eqb_eq in E. subst. split; [discriminate|tauto].
  - apply N.eqb_neq in E. rewrite IH. split; [intros A [B | B]; auto|tauto].
Qed.
Lemma search_from_at : forall l i j x, NoDup l -> nth_error l j = Some x ->
  search_from i l x = Some (i + N.of_nat j).
Proof.
  induction l as [|y l IH]; intros i [|j] x H E; cbn in *; try discriminate.
  - injection E as ->. rewrite N.eqb_refl. f_equal. lia.
  - inversion H; subst. destruct (x =? y) eqn:EE.
    + apply N.eqb_eq in EE. subst. apply nth_error_In in E. contradiction.
    + rewrite (IH _ j); auto. f_equal. lia.
Qed.
Lemma binary_search_none : forall l x, binary_search l x = None <-> ~ In x l.
Proof. intros. apply search_from_none. Qed.
Lemma binary_search_is_some : forall l x, is_some (binary_search l x) = true <-> In x l.
Proof.
  intros l x. destruct (binary_search l x) eqn:E; cbn.
  - split; auto. intros _. unfold binary_search in E. apply search_from_some in E.
    destruct E as [_ E]. now apply nth_error_In in E.
  - split; [discriminate|]. intros I. apply binary_search_none in E. contradiction.
Qed.

(* partition_point on a sorted list *)
Lemma pp_le : forall A (f : A -> bool) l, partition_point f l <= lenN l.
Proof. intros A f l. unfold lenN. induction l as [|x l IH]; cbn [partition_point length]; [lia|]. destruct (f x); lia. Qed.
Lemma pp_lt_true : forall A (f : A -> bool) l i x, nthN l i = Some x -> i < partition_point f l -> f x = true.
Proof.
  unfold nthN. intros A f. induction l as [|y l IH]; cbn [partition_point]; intros i x E H; [lia|].
  destruct (f y) eqn:F; [|lia]. destruct (N.to_nat i) as [|j] eqn:EI; cbn in E; [congruence|].
  apply (IH (i - 1)); [|lia]. now replace (N.to_nat (i - 1)) with j by lia.
Qed.
Lemma pp_split : forall A (f : A -> bool) l,
  exists a b, l = a ++ b /\ N.of_nat (length a) = partition_point f l /\
              Forall (fun x => f x = true) a /\ match b with [] => True | y :: _ => f y = false end.
Proof.
  intros A f. induction l as [|x l (a & b & E & L & F & G)]; cbn [partition_point].
  - exists [], []. cbn. auto.
  - destruct (f x) eqn:FX.
    + exists (x :: a), b. cbn [length app]. split; [now f_equal|]. split; [lia|]. auto.
    + exists [], (x :: l). cbn. auto.
Qed.

(* ---- lanes ---- *)
Lemma lane_at_lane : forall A (l : list (option A)) i,
  lane_at (lane l) i = match nthN l i with Some x => x | None => None end.
Proof.
  intros A l i. unfold lane. destruct (existsb is_some l) eqn:E; auto. cbn.
  destruct (nthN l i) as [x|] eqn:X; auto. unfold nthN in X. apply nth_error_In in X.
  destruct x as [a|]; auto. exfalso. assert (existsb is_some l = true); [|congruence].
  apply existsb_exists. exists (Some a). auto.
Qed.
Lemma nthN_map : forall A B (f : A -> B) l i, nthN (map f l) i = option_map f (nthN l i).
Proof. intros. unfold nthN. apply nth_error_map. Qed.
Lemma tag_of_u8_of : forall t, tag_of_u8 (tag_u8 t) = t.
Proof. intros []; reflexivity. Qed.
Lemma from_values_get : forall vs i, overlay_value (from_values vs) i = nthN vs i.
Proof.
  intros vs i. unfold overlay_value, from_values, lanes_of.
  cbn [p_tags p_nums p_bools p_text p_errs]. rewrite !lane_at_lane, !nthN_map.
  destruct (nthN vs i) as [v|]; cbn; auto. destruct v; reflexivity.
Qed.
Lemma values_slice_from : forall vs a l, a + l <= lenN vs -> lenN vs <= USIZE_MAX ->
  values_slice (from_values vs) a l = firstn (N.to_nat l) (skipn (N.to_nat a) vs).
Proof.
  intros vs a l H HU. unfold values_slice. replace (sat_add a l) with (a + l) by (unfold sat_add; lia).
  clear HU. revert a H. induction l as [|l IH] using N.peano_ind; intros a H.
  - rewrite rangeN_nil by lia. reflexivity.
  - rewrite rangeN_cons by lia. cbn [filter_map]. rewrite from_values_get. unfold nthN.
    destruct (nth_error vs (N.to_nat a)) as [v|] eqn:E.
    2:{ apply nth_error_None in E. unfold lenN in H. lia. }
    replace (N.to_nat (N.succ l)) with (S (N.to_nat l)) by lia.
    replace (a + N.succ l) with (a + 1 + l) by lia. rewrite IH by lia.
    replace (N.to_nat (a + 1)) with (S (N.to_nat a)) by lia.
    assert (EE : skipn (N.to_nat a) vs = v :: skipn (S (N.to_nat a)) vs).
    { clear - E. revert vs E. induction (N.to_nat a) as [|n IHn]; intros [|w vs] E; cbn in E; try discriminate.
      - injection E as ->. reflexivity.
      - cbn [skipn]. now apply IHn. }
    rewrite EE. reflexivity.
Qed.
