From Coq Require Import QArith Qabs Qround Lqa ZifyNat ZifyBool.
From Verif Require Import Base Maps WildModel LookupModel LookupSpec.
Close Scope Q_scope.
Ltac Zify.zify_post_hook ::= Z.div_mod_to_equations.

(** ** Text order *)
Lemma text_cmp_eq : forall a b, text_cmp a b = Eq <-> a = b.
Proof.
  induction a as [|x a IH]; intros [|y b]; cbn; try (split; [discriminate|congruence]); try tauto.
  destruct (N.compare x y) eqn:E.
  - apply N.compare_eq in E. subst y. rewrite IH. split; congruence.
  - split; [discriminate|]. intros X. inversion X; subst. now rewrite N.compare_refl in E.
  - split; [discriminate|]. intros X. inversion X; subst. now rewrite N.compare_refl in E.
Qed.
Lemma text_cmp_lt : forall a b, text_cmp a b = Lt <-> text_lt a b.
Proof.
  induction a as [|x a IH]; intros [|y b]; cbn.
  - split; [discriminate|]. intros H; inversion H.
  - split; auto. intros _. constructor.
  - split; [discriminate|]. intros H; inversion H.
  - destruct (N.compare_spec x y) as [->|L|L].
    + rewrite IH. split; [now constructor|]. intros H; inversion H; subst; auto. lia.
    + split; auto. intros _. now constructor.
    + split; [discriminate|]. intros H; inversion H; subst; lia.
Qed.
Lemma text_cmp_antisym : forall a b, text_cmp a b = CompOpp (text_cmp b a).
Proof.
  induction a as [|x a IH]; intros [|y b]; cbn; auto.
  rewrite (N.compare_antisym y x). destruct (N.compare y x); cbn; auto.
Qed.
Lemma text_lt_trans : forall a b c, text_lt a b -> text_lt b c -> text_lt a c.
Proof.
  intros a b c H. revert c. induction H as [y b|x y a b L|x a b H IH]; intros c K; inversion K; subst; try constructor; auto; lia.
Qed.
Lemma text_lt_irrefl : forall a, ~ text_lt a a.
Proof. induction a; intros H; inversion H; subst; auto. lia. Qed.

(** ** Key order *)
Definition kcmp (a b : key) : option comparison :=
  match a, b with
  | KNum x, KNum y => Some (Qcompare x y)
  | KText x, KText y => Some (text_cmp x y)
  | _, _ => None
  end.

Lemma kcmp_le : forall a b, is_le (kcmp a b) = true <-> key_le a b.
Proof.
  intros [x|x] [y|y]; cbn; try (split; [discriminate|intros H; inversion H]).
  - split.
    + intros H. constructor. destruct (Qcompare x y) eqn:E; try discriminate.
      * apply Qeq_alt in E. lra.
      * apply Qlt_alt in E. lra.
    + intros H. inversion H; subst. destruct (Qcompare x y) eqn:E; [reflexivity|reflexivity|]. apply Qgt_alt in E. lra.
  - split.
    + intros H. destruct (text_cmp x y) eqn:E; try discriminate.
      * apply text_cmp_eq in E. subst. apply kle_text_eq.
      * apply text_cmp_lt in E. now constructor.
    + intros H. inversion H; subst.
      * apply text_cmp_lt in H2. now rewrite H2.
      * now rewrite (proj2 (text_cmp_eq _ _) eq_refl).
Qed.
Lemma kcmp_ge : forall a b, is_ge (kcmp a b) = true <-> key_le b a.
Proof.
  intros a b. rewrite <- kcmp_le. destruct a, b; cbn; try tauto.
  - rewrite <- (Qcompare_antisym q q0). destruct (Qcompare q q0); cbn; tauto.
  - rewrite (text_cmp_antisym t t0). destruct (text_cmp t0 t); cbn; tauto.
Qed.
Lemma kcmp_none : forall a b, kcmp a b = None <-> ~ same_class a b.
Proof. intros [] []; cbn; split; try tauto; try discriminate; intros H; exfalso; apply H; auto. Qed.
Lemma kcmp_gt : forall a b, same_class a b -> (kcmp a b = Some Gt <-> ~ key_le a b).
Proof.
  intros a b H. rewrite <- kcmp_le. destruct (kcmp a b) as [[]|] eqn:E; cbn; split; try discriminate; try tauto; try congruence.
  all: try (intros X; exfalso; apply X; reflexivity).
  apply kcmp_none in E. contradiction.
Qed.
Lemma kcmp_eq : forall a b, kcmp a b = Some Eq <-> key_le a b /\ key_le b a.
Proof.
  intros a b. rewrite <- kcmp_le, <- kcmp_ge. destruct (kcmp a b) as [[]|]; cbn; split; intros; try tauto; try discriminate; destruct H; discriminate.
Qed.
Lemma key_le_trans : forall a b c, key_le a b -> key_le b c -> key_le a c.
Proof.
  intros a b c H K. inversion H; subst; inversion K; subst; try (constructor; auto; fail).
  - constructor. lra.
  - apply kle_text_lt. eauto using text_lt_trans.
Qed.
Lemma key_le_total : forall a b, same_class a b -> key_le a b \/ key_le b a.
Proof.
  intros a b H. rewrite <- (kcmp_le a b), <- (kcmp_ge a b). destruct (kcmp a b) as [[]|] eqn:E; cbn; auto.
  apply kcmp_none in E. contradiction.
Qed.
Lemma key_le_class : forall a b, key_le a b -> same_class a b.
Proof. intros a b H. inversion H; exact I. Qed.
Lemma same_class_sym : forall a b, same_class a b -> same_class b a.
Proof. intros [] []; auto. Qed.
Lemma same_class_trans : forall a b c, same_class a b -> same_class b c -> same_class a c.
Proof. intros [] [] []; cbn; auto; contradiction. Qed.

(** ** The comparison on clean data *)
Section Clean.
  Variable lower : text -> text.
  Variable parse : text -> option fnum.
  Variable l : list lval.
  Hypothesis C : clean parse l.

  Lemma near_sep : forall a b, ((a == b)%Q \/ (TOL <= Qabs (a - b))%Q) ->
    fnear (Fin a) (Fin b) = match Qcompare a b with Eq => true | _ => false end.
  Proof.
    intros a b H. unfold fnear. destruct (Qcompare a b) eqn:E.
    - apply Qeq_alt in E. assert (Z : (Qabs (a - b) == 0)%Q) by (rewrite E; rewrite Qabs_pos; lra).
      destruct (Qle_bool TOL (Qabs (a - b))) eqn:X; auto. apply Qle_bool_iff in X. rewrite Z in X.
      exfalso. revert X. unfold TOL. lra.
    - apply Qlt_alt in E. destruct H as [H|H]; [lra|]. apply Qle_bool_iff in H. now rewrite H.
    - apply Qgt_alt in E. destruct H as [H|H]; [lra|]. apply Qle_bool_iff in H. now rewrite H.
  Qed.

  Lemma lenient_numv : forall v, clean_value parse v ->
    value_to_f64_lenient parse v = option_map Fin (numv v).
  Proof.
    intros [x|z|t|b|q| |k|] H; cbn in *; auto.
    destruct H as (q & ->). reflexivity.
  Qed.

  Lemma no_num : forall v, clean_value parse v -> numv v = None ->
    (exists t, v = LText t) \/ (exists k, v = LErr k) \/ v = LOther.
  Proof.
    intros [[]| | | | | | |] H E; cbn in *; try discriminate; eauto; destruct H as (q & H); discriminate.
  Qed.

  Lemma cmp_key : forall u v, In u l -> In v l ->
    cmp_for_lookup lower parse u v =
    match key_of lower u, key_of lower v with Some a, Some b => kcmp a b | _, _ => None end.
  Proof.
    intros u v Iu Iv. destruct C as [CV CS]. pose proof (CV u Iu) as Cu. pose proof (CV v Iv) as Cv.
    unfold cmp_for_lookup. rewrite !lenient_numv by auto.
    pose proof (CS u v) as Suv.
    destruct (numv u) as [a|] eqn:Eu, (numv v) as [b|] eqn:Ev; cbn [option_map].
    - specialize (Suv a b Iu Iv eq_refl eq_refl). rewrite near_sep by auto.
      assert (Ku : key_of lower u = Some (KNum a)) by (destruct u; cbn in *; try discriminate; try (rewrite Eu); auto; inversion Eu; auto).
      assert (Kv : key_of lower v = Some (KNum b)) by (destruct v; cbn in *; try discriminate; try (rewrite Ev); auto; inversion Ev; auto).
      rewrite Ku, Kv. cbn [kcmp]. destruct (Qcompare a b) eqn:E; auto; cbn [flt].
      + apply Qlt_alt in E. destruct (Qle_bool b a) eqn:X; auto. apply Qle_bool_iff in X. lra.
      + apply Qgt_alt in E. destruct (Qle_bool b a) eqn:X; auto.
        assert (b <= a)%Q by lra. apply Qle_bool_iff in H. congruence.
    - destruct (no_num _ Cv Ev) as [(t & ->)|[(k & ->)| ->]]; destruct u as [[]| | | | | | |]; cbn in *; try discriminate; auto.
    - destruct (no_num _ Cu Eu) as [(t & ->)|[(k & ->)| ->]]; destruct v as [[]| | | | | | |]; cbn in *; try discriminate; auto.
    - destruct (no_num _ Cu Eu) as [(t & ->)|[(k & ->)| ->]]; destruct (no_num _ Cv Ev) as [(t' & ->)|[(k' & ->)| ->]]; reflexivity.
  Qed.
End Clean.

(** ** The searched projection *)
Lemma position_spec : forall p vs, match position p vs with
  | Some k => (exists v, nth_error vs k = Some v /\ p v = true) /\
              (forall i v, i < k -> nth_error vs i = Some v -> p v = false)
  | None => forall i v, nth_error vs i = Some v -> p v = false
  end.
Proof.
  intros p. induction vs as [|v vs IH]; cbn.
  - intros [|i] v H; discriminate.
  - destruct (p v) eqn:E.
    + split; [exists v; auto|]. intros i w H. lia.
    + destruct (position p vs) as [k|]; cbn.
      * destruct IH as [(w & A & B) D]. split; [exists w; auto|]. intros [|i] u Hi Hu; cbn in Hu; [congruence|].
        apply (D i u); auto. lia.
      * intros [|i] u Hu; cbn in Hu; [congruence|]. eapply IH; eauto.
Qed.
Lemma position_some : forall p vs k, position p vs = Some k <->
  (exists v, nth_error vs k = Some v /\ p v = true) /\ (forall i v, i < k -> nth_error vs i = Some v -> p v = false).
Proof.
  intros p vs k. pose proof (position_spec p vs) as P. split.
  - intros H. now rewrite H in P.
  - intros [(v & A & B) D]. destruct (position p vs) as [k'|].
    + destruct P as [(v' & A' & B') D']. f_equal. destruct (Nat.lt_trichotomy k k') as [L|[L|L]]; auto.
      * specialize (D' k v L A). congruence.
      * specialize (D k' v' L A'). congruence.
    + specialize (P k v A). congruence.
Qed.
Lemma position_none : forall p vs, position p vs = None <-> forall i v, nth_error vs i = Some v -> p v = false.
Proof.
  intros p vs. pose proof (position_spec p vs) as P. split.
  - intros H. now rewrite H in P.
  - intros H. destruct (position p vs) as [k|]; auto. destruct P as [(v & A & B) _]. specialize (H k v A). congruence.
Qed.

Section Searched.
  Variable lower : text -> text.
  Variable parse : text -> option fnum.
  Variable vs : list lval.
  Variable needle : lval.
  Let sb (i : nat) : bool := match nth_error vs i with Some v => is_searchable lower parse v needle | None => false end.
  (** The positions searched, in order. *)
  Definition poss : list nat := filter sb (seq 0 (length vs)).
  Let s := searched_new lower parse vs needle.

  Lemma filter_all : forall A (f : A -> bool) l, (forall x, In x l -> f x = true) -> filter f l = l.
  Proof. intros A f l. induction l as [|x l IH]; cbn; intros H; auto. rewrite (H x) by auto. now rewrite IH by auto. Qed.

  Lemma positions_some : forall l, sv_positions s = Some l -> l = poss.
  Proof.
    intros l. unfold s, searched_new. cbn [sv_positions].
    pose proof (position_spec (fun v => negb (is_searchable lower parse v needle)) vs) as P.
    destruct (position _ vs) as [k|]; cbn [option_map]; [|discriminate]. intros H. inversion H; subst l. clear H.
    destruct P as [(v & A & B) D].
    assert (HK : k < length vs) by (apply nth_error_Some; congruence).
    unfold poss. replace (length vs) with (k + S (length vs - S k)) at 2 by lia. rewrite seq_app, filter_app. f_equal.
    - symmetry. apply filter_all. intros x Hx. apply in_seq in Hx. unfold sb.
      destruct (nth_error vs x) as [w|] eqn:W; [|apply nth_error_None in W; lia].
      specialize (D x w ltac:(lia) W). now apply negb_false_iff in D.
    - cbn [seq filter]. replace (sb (0 + k)) with false; [reflexivity|].
      cbn. unfold sb. rewrite A. now apply negb_true_iff in B.
  Qed.
  Lemma positions_none : sv_positions s = None -> poss = seq 0 (length vs).
  Proof.
    unfold s, searched_new. cbn [sv_positions].
    pose proof (position_spec (fun v => negb (is_searchable lower parse v needle)) vs) as P.
    destruct (position _ vs) as [k|]; cbn [option_map]; [discriminate|]. intros _.
    unfold poss. apply filter_all. intros x Hx. apply in_seq in Hx. unfold sb.
    destruct (nth_error vs x) as [w|] eqn:W; [|apply nth_error_None in W; lia].
    specialize (P x w W). now apply negb_false_iff in P.
  Qed.
  Lemma sv_len_eq : sv_len s = length poss.
  Proof.
    unfold sv_len. destruct (sv_positions s) as [l|] eqn:E; [now rewrite (positions_some _ E)|].
    rewrite (positions_none E), seq_length. reflexivity.
  Qed.
  Lemma orig_pos : forall i, i < length poss -> original_position s i = nth_error poss i.
  Proof.
    intros i H. unfold original_position. destruct (sv_positions s) as [l|] eqn:E; [now rewrite (positions_some _ E)|].
    rewrite (positions_none E) in *. rewrite seq_length in H.
    rewrite nth_error_nth' with (d := 0) by (rewrite seq_length; lia). f_equal. rewrite seq_nth; lia.
  Qed.
  Lemma orig_pos_none : forall i, length poss <= i -> original_position s i = None \/ sv_get s i = None.
  Proof.
    intros i H. unfold sv_get, original_position. destruct (sv_positions s) as [l|] eqn:E.
    - left. rewrite (positions_some _ E). now apply nth_error_None.
    - right. apply nth_error_None. rewrite (positions_none E), seq_length in H. exact H.
  Qed.
End Searched.
