(** Stable orders, an insertion sort, and the orders of SORT and SORTBY. *)
From Coq Require Import QArith Permutation Sorted ZifyNat ZifyBool.
From Verif Require Import Base Maps LookupModel LookupSpec LookupProofs AyModel AySpec AyProofs1.
Close Scope Q_scope.

Lemma sorted_unique : forall A (R : A -> A -> Prop) l l',
  (forall a b, R a b -> R b a -> False) ->
  StronglySorted R l -> StronglySorted R l' -> Permutation l l' -> l = l'.
Proof.
  intros A R l. induction l as [|a l IH]; intros l' As S S' P.
  - apply Permutation_nil in P. now subst.
  - destruct l' as [|b l']; [apply Permutation_sym, Permutation_nil in P; discriminate|].
    inversion S as [|? ? Sl F]; subst. inversion S' as [|? ? Sl' F']; subst. rewrite Forall_forall in F, F'.
    assert (a = b).
    { assert (In a (b :: l')) by (eapply Permutation_in; [exact P|now left]).
      assert (In b (a :: l)) by (eapply Permutation_in; [apply Permutation_sym; exact P|now left]).
      cbn in *. destruct H as [->|H]; auto. destruct H0 as [->|H0]; auto. exfalso. eapply As; eauto. }
    subst. f_equal. apply IH; auto. eapply Permutation_cons_inv; eauto.
Qed.
Lemma stable_order_unique : forall le n p q, stable_order le n p -> stable_order le n q -> p = q.
Proof.
  intros le n p q [P S] [P' S']. eapply sorted_unique; [|exact S|exact S'|].
  - cbn. intros a b [H1 H2] [H3 H4]. specialize (H2 H3). specialize (H4 H1). lia.
  - rewrite P. now apply Permutation_sym.
Qed.
Lemma stable_order_ext : forall le le' n p, (forall i j, i < n -> j < n -> (le i j <-> le' i j)) ->
  stable_order le n p -> stable_order le' n p.
Proof.
  intros le le' n p H [P S]. split; auto.
  assert (B : forall i, In i p -> i < n) by (intros i Hi; apply (Permutation_in _ P), in_seq in Hi; lia).
  clear P. induction S as [|a l S IH F]; constructor.
  - apply IH. intros. apply B. now right.
  - rewrite Forall_forall in *. intros b Hb. destruct (F b Hb) as [F1 F2].
    assert (a < n) by (apply B; now left). assert (b < n) by (apply B; now right). split.
    + now apply H.
    + intros X. apply F2. now apply H.
Qed.
Lemma stable_order_bound : forall le n p i, stable_order le n p -> In i p -> i < n.
Proof. intros le n p i [P _] H. apply (Permutation_in _ P), in_seq in H. lia. Qed.
Lemma stable_order_length : forall le n p, stable_order le n p -> length p = n.
Proof. intros le n p [P _]. apply Permutation_length in P. now rewrite seq_length in P. Qed.

(** ** The insertion sort of short slices *)
Section ISort.
  Context {A : Type}.
  Variable cmp : A -> A -> comparison.
  (** The sorted part is kept backwards. *)
  Fixpoint put (x : A) (l : list A) : list A :=
    match l with
    | [] => [x]
    | y :: l' => match cmp x y with Lt => y :: put x l' | _ => x :: l end
    end.
  Definition isort_rev (l acc : list A) : list A := fold_left (fun acc x => put x acc) l acc.
  Definition isort (l : list A) : list A := rev (isort_rev l []).
End ISort.
Definition insertion (A : Type) (cmp : A -> A -> comparison) (l : list A) : option (list A) := Some (isort cmp l).

Lemma put_map : forall A B (f : A -> B) cmp x l,
  put cmp (f x) (map f l) = map f (put (fun a b => cmp (f a) (f b)) x l).
Proof. intros A B f cmp x l. induction l as [|y l IH]; cbn; auto. destruct (cmp (f x) (f y)); cbn; congruence. Qed.
Lemma isort_map : forall A B (f : A -> B) cmp l,
  isort cmp (map f l) = map f (isort (fun a b => cmp (f a) (f b)) l).
Proof.
  intros A B f cmp l. unfold isort. rewrite map_rev. f_equal. unfold isort_rev.
  change (@nil B) with (map f []). generalize (@nil A). induction l as [|x l IH]; intros acc; cbn; auto.
  rewrite put_map. apply IH.
Qed.
Lemma put_perm : forall A (cmp : A -> A -> comparison) x l, Permutation (put cmp x l) (x :: l).
Proof.
  intros A cmp x l. induction l as [|y l IH]; cbn; auto. destruct (cmp x y); auto. rewrite IH. constructor.
Qed.
Lemma isort_rev_perm : forall A (cmp : A -> A -> comparison) l acc, Permutation (isort_rev cmp l acc) (l ++ acc).
Proof.
  intros A cmp l. unfold isort_rev. induction l as [|x l IH]; intros acc; cbn; auto. rewrite IH, put_perm.
  apply Permutation_sym, Permutation_middle.
Qed.
Lemma isort_perm : forall A (cmp : A -> A -> comparison) l, Permutation (isort cmp l) l.
Proof. intros. unfold isort. rewrite <- Permutation_rev, isort_rev_perm. now rewrite app_nil_r. Qed.

Lemma sorted_app : forall A (R : A -> A -> Prop) l m, StronglySorted R l -> StronglySorted R m ->
  (forall a b, In a l -> In b m -> R a b) -> StronglySorted R (l ++ m).
Proof.
  intros A R l m S. induction S as [|a l S IH F]; cbn; intros Sm H; auto. constructor.
  - apply IH; auto.
  - rewrite Forall_forall in *. intros b Hb. apply in_app_iff in Hb. destruct Hb; auto.
Qed.
Lemma sorted_rev : forall A (R : A -> A -> Prop) l, StronglySorted (fun a b => R b a) l -> StronglySorted R (rev l).
Proof.
  intros A R l S. induction S as [|a l S IH F]; cbn; [constructor|]. apply sorted_app; auto.
  - repeat constructor.
  - intros x y Hx [<-|[]]. rewrite Forall_forall in F. apply F. now apply in_rev.
Qed.

Lemma isort_stable : forall cmp n, total_on cmp (seq 0 n) ->
  StronglySorted (fun i j => cmp i j <> Gt /\ (cmp j i <> Gt -> i < j)) (isort cmp (seq 0 n)).
Proof.
  intros cmp n [As Tr]. unfold isort. apply sorted_rev.
  set (R := fun a b => cmp b a <> Gt /\ (cmp a b <> Gt -> b < a)).
  assert (G : forall m k acc, k + m = n -> StronglySorted R acc -> (forall i, In i acc -> i < k) ->
            StronglySorted R (isort_rev cmp (seq k m) acc)).
  { induction m as [|m IH]; intros k acc Hk S B; cbn; auto. apply IH; [lia| |].
    - clear IH. induction S as [|y l S IH F]; cbn; [repeat constructor|].
      assert (Yk : y < k) by (apply B; now left).
      assert (Iy : In y (seq 0 n)) by (apply in_seq; lia). assert (Ik : In k (seq 0 n)) by (apply in_seq; lia).
      pose proof (As k y Ik Iy) as O. rewrite Forall_forall in F.
      assert (X : cmp k y <> Lt -> StronglySorted R (k :: y :: l)).
      { intros NL. assert (L : cmp y k <> Gt) by (rewrite O; destruct (cmp k y); cbn; congruence).
        constructor; [constructor; auto; rewrite Forall_forall; auto|]. rewrite Forall_forall.
        intros z [<-|Hz]; [split; auto|]. destruct (F z Hz) as [F1 F2].
        assert (z < k) by (apply B; now right). assert (Iz : In z (seq 0 n)) by (apply in_seq; lia).
        split; auto. apply (Tr z y k); auto. }
      destruct (cmp k y) eqn:E; try (apply X; congruence). clear X. constructor.
      + apply IH. intros. apply B. now right.
      + rewrite Forall_forall. intros z Hz. apply (Permutation_in _ (put_perm _ _ _ _)) in Hz.
        destruct Hz as [<-|Hz]; auto. split; [congruence|]. rewrite O. cbn. congruence.
    - intros i Hi. apply (Permutation_in _ (put_perm _ _ _ _)) in Hi. destruct Hi as [<-|Hi]; [lia|].
      specialize (B i Hi). lia. }
  apply (G n 0); [lia|constructor|intros i []].
Qed.

Lemma map_nth_seq : forall A (l : list A) d, map (fun i => nth i l d) (seq 0 (length l)) = l.
Proof.
  intros. apply list_ext with (d := d).
  - now rewrite map_length, seq_length.
  - intros i Hi. rewrite map_length, seq_length in Hi. now rewrite nth_map_seq.
Qed.
Lemma insertion_sorts : sorts insertion.
Proof.
  intros A cmp l T. destruct l as [|d l0]; [exists [], []; cbn; repeat split; constructor|].
  set (l := d :: l0) in *. set (f := fun i => nth i l d). set (c := fun i j => cmp (f i) (f j)).
  assert (Tc : total_on c (seq 0 (length l))).
  { assert (I : forall i, In i (seq 0 (length l)) -> In (f i) l) by (intros i Hi; apply nth_In; apply in_seq in Hi; lia).
    destruct T as [As Tr]. split; unfold c; intros; [apply As|eapply Tr with (b := f b)]; auto. }
  exists (isort c (seq 0 (length l))), (isort cmp l). split; [reflexivity|]. split.
  - apply stable_order_ext with (le := fun i j => c i j <> Gt).
    + intros i j Hi Hj. unfold at_le. split.
      * intros H a b Ha Hb. apply nth_error_nth with (d := d) in Ha, Hb. subst. exact H.
      * intros H. apply H; now apply nth_error_nth'.
    + split; [apply isort_perm|]. now apply isort_stable.
  - rewrite <- (map_nth_seq _ l d) at 1. fold f. rewrite isort_map, map_map. apply map_ext_in.
    intros i Hi. apply (Permutation_in _ (isort_perm _ _ _)), in_seq in Hi. symmetry. apply nth_error_nth'. lia.
Qed.

(** ** The comparison of SORT and SORTBY on values of one kind *)
Section Keys.
  Variable lower : text -> text.
  Variable parse : text -> option fnum.
  Variable l : list lval.
  Hypothesis K : one_kind lower parse l.

  Lemma cmp0_le : forall u v, In u l -> In v l -> (cmp0 lower parse u v <> Gt <-> before lower true u v).
  Proof.
    intros u v Iu Iv. destruct K as [C Q]. destruct (Q u v Iu Iv) as (a & b & Ea & Eb & SC).
    unfold cmp0, before. rewrite (cmp_key lower parse l C u v Iu Iv), Ea, Eb.
    pose proof (kcmp_gt a b SC) as G. split.
    - intros H. exists a, b. repeat split; auto. destruct (kcmp a b) as [[]|] eqn:E.
      + apply kcmp_eq in E. tauto.
      + apply kcmp_le. now rewrite E.
      + congruence.
      + apply kcmp_none in E. contradiction.
    - intros (x & y & Ex & Ey & L). inversion Ex; inversion Ey; subst. destruct (kcmp x y) as [[]|] eqn:E; try discriminate.
      intros _. apply G; auto.
  Qed.
  Lemma cmp0_opp : forall u v, In u l -> In v l -> cmp0 lower parse v u = CompOpp (cmp0 lower parse u v).
  Proof.
    intros u v Iu Iv. destruct K as [C Q]. destruct (Q u v Iu Iv) as (a & b & Ea & Eb & SC).
    unfold cmp0. rewrite (cmp_key lower parse l C u v Iu Iv), (cmp_key lower parse l C v u Iv Iu), Ea, Eb.
    assert (SC' : same_class b a) by (destruct a, b; cbn in *; tauto).
    pose proof (kcmp_le a b) as A. pose proof (kcmp_ge a b) as B. pose proof (kcmp_le b a) as A'. pose proof (kcmp_ge b a) as B'.
    pose proof (kcmp_none a b) as X. pose proof (kcmp_none b a) as Y.
    destruct (kcmp a b) as [[]|], (kcmp b a) as [[]|]; cbn in *; try reflexivity; exfalso; intuition congruence.
  Qed.
  Lemma before_trans : forall asc a b c, before lower asc a b -> before lower asc b c -> before lower asc a c.
  Proof.
    intros asc a b c (x & y & Ex & Ey & L) (y' & z & Ey' & Ez & L').
    rewrite Ey in Ey'. inversion Ey'; subst. exists x, z. repeat split; auto.
    destruct asc; eapply key_le_trans; eauto.
  Qed.
  Lemma turned_le : forall asc u v, In u l -> In v l ->
    (turned asc (cmp0 lower parse u v) <> Gt <-> before lower asc u v).
  Proof.
    intros asc u v Iu Iv. destruct asc; cbn; [now apply cmp0_le|].
    rewrite <- cmp0_opp by auto. rewrite cmp0_le by auto. unfold before.
    split; intros (x & y & H1 & H2 & H3); exists y, x; auto.
  Qed.
  Lemma tie_le : forall asc u v, In u l -> In v l ->
    (cmp0 lower parse u v = Eq <-> before lower asc u v /\ before lower asc v u).
  Proof.
    intros asc u v Iu Iv. rewrite <- !turned_le by auto. rewrite (cmp0_opp u v) by auto.
    destruct asc, (cmp0 lower parse u v); cbn; split; try tauto; try discriminate; try (intros [A B]; congruence); intros _; split; congruence.
  Qed.
End Keys.

(** ** Several criteria *)
Section Criteria.
  Variable lower : text -> text.
  Variable parse : text -> option fnum.
  Variable n : nat.

  Definition good (c : list lval * bool) : Prop := length (fst c) = n /\ one_kind lower parse (fst c).

  Lemma nth_in_good : forall c i, good c -> i < n -> In (nth i (fst c) LEmpty) (fst c).
  Proof. intros c i [L _] H. apply nth_In. lia. Qed.

  Lemma crit_le : forall cs i j, Forall good cs -> i < n -> j < n ->
    (by_criteria lower parse cs i j <> Gt <-> lex_le lower cs i j).
  Proof.
    induction cs as [|[vs asc] cs IH]; intros i j G Hi Hj; cbn; [split; auto; discriminate|].
    inversion G as [|? ? G1 G2]; subst. pose proof (nth_in_good _ i G1 Hi) as Ii. pose proof (nth_in_good _ j G1 Hj) as Ij.
    cbn in Ii, Ij. destruct G1 as [_ K]. cbn in K.
    set (a := nth i vs LEmpty) in *. set (b := nth j vs LEmpty) in *.
    pose proof (turned_le lower parse vs K asc a b Ii Ij) as L.
    pose proof (tie_le lower parse vs K asc a b Ii Ij) as T.
    pose proof (IH i j G2 Hi Hj) as IH'.
    destruct (cmp0 lower parse a b) eqn:E; cbn in L.
    - rewrite IH'. tauto.
    - assert (NT : ~ (before lower asc a b /\ before lower asc b a)) by (intros X; apply T in X; discriminate). tauto.
    - assert (NT : ~ (before lower asc a b /\ before lower asc b a)) by (intros X; apply T in X; discriminate). tauto.
  Qed.
  Lemma crit_opp : forall cs i j, Forall good cs -> i < n -> j < n ->
    by_criteria lower parse cs j i = CompOpp (by_criteria lower parse cs i j).
  Proof.
    induction cs as [|[vs asc] cs IH]; intros i j G Hi Hj; cbn; auto.
    inversion G as [|? ? G1 G2]; subst. pose proof (nth_in_good _ i G1 Hi) as Ii. pose proof (nth_in_good _ j G1 Hj) as Ij.
    cbn in Ii, Ij. destruct G1 as [_ K]. cbn in K.
    rewrite (cmp0_opp lower parse vs K (nth i vs LEmpty) (nth j vs LEmpty)) by auto.
    destruct (cmp0 lower parse (nth i vs LEmpty) (nth j vs LEmpty)); cbn; auto; destruct asc; reflexivity.
  Qed.
  Lemma lex_trans : forall cs i j k, Forall good cs -> i < n -> j < n -> k < n ->
    lex_le lower cs i j -> lex_le lower cs j k -> lex_le lower cs i k.
  Proof.
    induction cs as [|[vs asc] cs IH]; intros i j k G Hi Hj Hk; cbn; auto.
    inversion G as [|? ? G1 G2]; subst.
    intros [B1 L1] [B2 L2]. split; [eapply before_trans; eauto|]. intros B3.
    apply IH with (j := j); auto.
    - apply L1. eapply before_trans; [exact B2|exact B3].
    - apply L2. eapply before_trans; [exact B3|exact B1].
  Qed.
  Lemma crit_total : forall cs, Forall good cs -> total_on (by_criteria lower parse cs) (seq 0 n).
  Proof.
    intros cs G. split.
    - intros a b Ha Hb. apply in_seq in Ha, Hb. apply crit_opp; auto; lia.
    - intros a b c Ha Hb Hc. apply in_seq in Ha, Hb, Hc. rewrite !crit_le by (auto; lia).
      apply lex_trans; auto; lia.
  Qed.
End Criteria.
