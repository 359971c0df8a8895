From Coq Require Import QArith Qabs Qround Lqa ZifyNat ZifyBool.
From Verif Require Import Base Maps WildModel LookupModel LookupSpec LookupProofs LookupProofs2.
Close Scope Q_scope.

(** ** Legacy LOOKUP *)
Lemma approx_loop_eq : forall f n, (forall i, i < n -> f i <> None) ->
  forall fuel lo hi, hi <= n -> approx_loop f fuel lo hi = bsearch f fuel lo hi.
Proof.
  intros f n T. induction fuel as [|fuel IH]; intros lo hi H; auto.
  cbn [approx_loop bsearch]. destruct (lo <? hi) eqn:E; auto.
  set (mid := (lo + hi) / 2). assert (Hm : mid < hi).
  { unfold mid. apply Nat.div_lt_upper_bound; lia. }
  destruct (f mid) as [[]|] eqn:Em; try (apply IH; lia). exfalso. apply (T mid); auto; lia.
Qed.

Section Legacy.
  Variable lower : text -> text.
  Variable parse : text -> option fnum.
  Variable vs : list lval.
  Variable needle : lval.
  Hypothesis C : clean parse (needle :: vs).
  Hypothesis All : forall i, i < length vs -> exists k, cand lower vs needle i k.

  Lemma poss_all : poss lower parse vs needle = seq 0 (length vs).
  Proof.
    unfold poss. apply filter_all. intros i Hi. apply in_seq in Hi.
    destruct (All i ltac:(lia)) as (k & Hk). pose proof Hk as (v & kn & E & _). rewrite E.
    apply (searchable_iff lower parse vs needle C i v E). eauto.
  Qed.

  Lemma approx_ascending : ascending lower vs needle ->
    exists o, approx_match_ascending lower parse vs needle = Ok o /\ last_below lower vs needle o.
  Proof.
    intros Asc. unfold approx_match_ascending. destruct (length vs =? 0) eqn:E.
    - exists None. split; auto. intros j k (v & kn & X & _). destruct vs; [destruct j; discriminate|discriminate].
    - set (f := fun i => match nth_error vs i with Some v => cmp_for_lookup lower parse v needle | None => None end).
      set (s := searched_new lower parse vs needle).
      assert (L : length (poss lower parse vs needle) = length vs) by (rewrite poss_all, seq_length; auto).
      assert (N : forall i, i < length vs -> nth_error (poss lower parse vs needle) i = Some i).
      { intros i Hi. rewrite poss_all. rewrite nth_error_nth' with (d := 0) by (rewrite seq_length; lia). f_equal. rewrite seq_nth; lia. }
      assert (F : forall i, i < length vs -> f i = cmp_at lower parse s needle i).
      { intros i Hi. unfold f, cmp_at. unfold s. rewrite (sv_get_eq lower parse vs needle i i) by auto. reflexivity. }
      assert (T : forall i, i < length vs -> f i <> None) by (intros i Hi; rewrite F by auto; apply f_some; auto; lia).
      rewrite (approx_loop_eq f (length vs) T) by lia.
      destruct (bsearch_ok f (length vs) T) as (k & B & A).
      { intros i j Lij Lj G. rewrite F in * by lia. eapply f_mono; eauto. lia. }
      rewrite B. cbn [rbind]. eexists. split; [reflexivity|].
      assert (A' : asc_ok (cmp_at lower parse s needle) (length (poss lower parse vs needle)) (if k =? 0 then None else Some (k - 1))).
      { rewrite L. destruct (k =? 0); cbn [asc_ok] in A |- *.
        - intros j Hj. rewrite <- F by auto. auto.
        - destruct A as (A1 & A2 & A3). split; auto. rewrite <- F by auto. split; auto. intros j Hj. rewrite <- F by auto. auto. }
      destruct (asc_transfer lower parse vs needle C _ A') as (o & E' & Lb). destruct (k =? 0) eqn:EK.
      + cbn in E'. inversion E'; subst; auto.
      + cbn [to_original] in E'. rewrite orig_pos in E'.
        * destruct A as (A1 & _). rewrite N in E' by auto. inversion E'; subst; auto.
        * destruct A as (A1 & _). lia.
  Qed.
End Legacy.

(** ** Approximate XMATCH and XLOOKUP *)
Section Approx.
  Variable lower : text -> text.
  Variable parse : text -> option fnum.
  Variable l : list lval.
  Variable needle : lval.
  Variable n : Q.
  Hypothesis C : clean parse l.
  Hypothesis In_n : In needle l.
  Hypothesis Hn : numv needle = Some n.
  Variable smaller : bool.

  (** [p] is on the wanted side of the needle; [p] is at most as close as [q]. *)
  Definition side (p : Q) : Prop := if smaller then (p <= n)%Q else (n <= p)%Q.
  Definition near_le (p q : Q) : Prop := if smaller then (p <= q)%Q else (q <= p)%Q.
  Definition near_lt (p q : Q) : Prop := if smaller then (p < q)%Q else (q < p)%Q.

  Lemma fle_fin : forall a b, fle (Fin a) (Fin b) = Qle_bool a b.
  Proof. intros. cbn. apply negb_involutive. Qed.
  Lemma flt_fin : forall a b, flt (Fin a) (Fin b) = true <-> (a < b)%Q.
  Proof.
    intros a b. cbn. destruct (Qle_bool b a) eqn:E; cbn; split; try discriminate; intros H.
    - apply Qle_bool_iff in E. lra.
    - destruct (Qlt_le_dec a b); auto. apply Qle_bool_iff in q. congruence.
    - reflexivity.
  Qed.

  Lemma cmp_num : forall c, In c l -> is_eq (cmp_for_lookup lower parse c needle) = true <-> exists q, numv c = Some q /\ (q == n)%Q.
  Proof.
    intros c Ic. rewrite (cmp_key lower parse l C c needle Ic In_n).
    assert (Kn : key_of lower needle = Some (KNum n)) by (destruct needle as [[]| | | | | | |]; cbn in *; try discriminate; congruence).
    rewrite Kn. destruct (numv c) as [q|] eqn:E.
    - assert (Kc : key_of lower c = Some (KNum q)) by (destruct c as [[]| | | | | | |]; cbn in *; try discriminate; congruence).
      rewrite Kc. cbn. destruct (Qcompare q n) eqn:EQ; cbn; split; try discriminate; auto.
      + intros _. exists q. split; auto. now apply Qeq_alt.
      + intros (q' & X & Y). inversion X; subst q'. apply Qeq_alt in Y. congruence.
      + intros (q' & X & Y). inversion X; subst q'. apply Qeq_alt in Y. congruence.
    - split; [|intros (q' & X & _); discriminate].
      destruct c as [[]| | | | | | |]; cbn in *; try discriminate.
  Qed.

  Definition best_ok (best : option nat) (bv : fnum) : Prop :=
    (best = None /\ bv = start_val smaller) \/ (exists b q0, best = Some b /\ bv = Fin q0).

  Lemma better_spec : forall c best bv, In c l -> best_ok best bv ->
    match better parse smaller (value_to_f64_lenient parse needle) c bv with
    | Some vv => exists q, numv c = Some q /\ vv = Fin q /\ side q /\ (forall q0, bv = Fin q0 -> near_lt q0 q)
    | None => forall q, numv c = Some q -> side q -> exists q0, bv = Fin q0 /\ near_le q q0
    end.
  Proof.
    intros c best bv Ic B. unfold better.
    destruct C as [CV _]. rewrite !(lenient_numv parse) by auto. rewrite Hn. cbn [option_map].
    destruct (numv c) as [q|]; cbn [option_map]; [|intros; discriminate].
    destruct B as [[-> ->]|(b & q0 & -> & ->)].
    - unfold start_val, side, near_lt, near_le. destruct smaller; rewrite fle_fin; cbn [flt]; rewrite andb_true_r.
      + destruct (Qle_bool q n) eqn:E.
        * exists q. repeat split; auto. { now apply Qle_bool_iff. } intros; discriminate.
        * intros q' X Y. inversion X; subst q'. apply Qle_bool_iff in Y. congruence.
      + destruct (Qle_bool n q) eqn:E.
        * exists q. repeat split; auto. { now apply Qle_bool_iff. } intros; discriminate.
        * intros q' X Y. inversion X; subst q'. apply Qle_bool_iff in Y. congruence.
    - unfold side, near_lt, near_le. destruct smaller; rewrite fle_fin.
      + destruct (Qle_bool q n) eqn:E; cbn [andb].
        * destruct (flt (Fin q0) (Fin q)) eqn:F.
          -- exists q. repeat split; auto. { now apply Qle_bool_iff. }
             intros q1 X. inversion X; subst q1. now apply flt_fin.
          -- intros q' X Y. inversion X; subst q'. exists q0. split; auto.
             destruct (Qlt_le_dec q0 q) as [L|L]; auto. apply flt_fin in L. congruence.
        * intros q' X Y. inversion X; subst q'. apply Qle_bool_iff in Y. congruence.
      + destruct (Qle_bool n q) eqn:E; cbn [andb].
        * destruct (flt (Fin q) (Fin q0)) eqn:F.
          -- exists q. repeat split; auto. { now apply Qle_bool_iff. }
             intros q1 X. inversion X; subst q1. now apply flt_fin.
          -- intros q' X Y. inversion X; subst q'. exists q0. split; auto.
             destruct (Qlt_le_dec q q0) as [L|L]; auto. apply flt_fin in L. congruence.
        * intros q' X Y. inversion X; subst q'. apply Qle_bool_iff in Y. congruence.
  Qed.

  Lemma near_trans : forall a b c, near_le a b -> near_le b c -> near_le a c.
  Proof. unfold near_le. destruct smaller; intros; lra. Qed.
  Lemma near_lt_le : forall a b, near_lt a b -> near_le a b.
  Proof. unfold near_le, near_lt. destruct smaller; intros; lra. Qed.
  Lemma near_le_lt : forall a b c, near_le a b -> near_lt b c -> near_lt a c.
  Proof. unfold near_le, near_lt. destruct smaller; intros; lra. Qed.
  Lemma near_n : forall a q, side a -> (q == n)%Q -> near_le a q.
  Proof. unfold near_le, side. destruct smaller; intros; lra. Qed.

  (** The element chosen in a list scanned in order, given the best so far. *)
  Definition chosen (cs : list (nat * lval)) (i : nat) (q : Q) : Prop :=
    exists a c b, cs = a ++ (i, c) :: b /\ numv c = Some q /\ side q /\
      (forall j d p, In (j, d) a -> numv d = Some p -> side p -> near_lt p q) /\
      (forall j d p, In (j, d) b -> numv d = Some p -> side p -> near_le p q).

  Lemma scan_gen : forall cs, (forall i c, In (i, c) cs -> In c l) ->
    forall best bv, best_ok best bv -> (forall q0, bv = Fin q0 -> side q0 /\ ~ (q0 == n)%Q) ->
    match approx_scan lower parse smaller needle cs best bv with
    | Some i =>
        (exists q, chosen cs i q /\ forall q0, bv = Fin q0 -> near_lt q0 q) \/
        (best = Some i /\ exists q0, bv = Fin q0 /\ forall j d p, In (j, d) cs -> numv d = Some p -> side p -> near_le p q0)
    | None => best = None /\ forall j d p, In (j, d) cs -> numv d = Some p -> ~ side p
    end.
  Proof.
    induction cs as [|[i c] cs IH]; intros HI best bv B HB.
    - cbn. destruct B as [[-> ->]|(b & q0 & -> & ->)]; [split; auto; intros ? ? ? []|].
      right. split; auto. exists q0. split; auto. intros ? ? ? [].
    - cbn [approx_scan]. assert (Ic : In c l) by (apply (HI i); left; auto).
      assert (HI' : forall i c, In (i, c) cs -> In c l) by (intros; eapply HI; right; eauto).
      destruct (is_eq (cmp_for_lookup lower parse c needle)) eqn:E.
      + apply (cmp_num c Ic) in E. destruct E as (q & Eq & Qn).
        left. exists q. split.
        * exists [], c, cs. split; auto. split; auto. split; [unfold side; destruct smaller; lra|]. split; [intros ? ? ? []|].
          intros j d p _ _ S. now apply near_n.
        * intros q0 X. destruct (HB q0 X) as [S N]. unfold near_lt, side in *. destruct smaller.
          -- destruct (Qle_lt_or_eq _ _ S); [lra|contradiction].
          -- destruct (Qle_lt_or_eq _ _ S) as [|Y]; [lra|]. symmetry in Y. contradiction.
      + assert (NE : forall q, numv c = Some q -> ~ (q == n)%Q).
        { intros q X Y. assert (is_eq (cmp_for_lookup lower parse c needle) = true) by (apply (cmp_num c Ic); eauto). congruence. }
        pose proof (better_spec c best bv Ic B) as BS.
        destruct (better parse smaller (value_to_f64_lenient parse needle) c bv) as [vv|].
        * destruct BS as (q & Eq & -> & Sq & Lq).
          specialize (IH HI' (Some i) (Fin q)).
          assert (B' : best_ok (Some i) (Fin q)) by (right; eauto).
          assert (HB' : forall q0, Fin q = Fin q0 -> side q0 /\ ~ (q0 == n)%Q) by (intros q0 X; inversion X; subst q0; auto).
          specialize (IH B' HB'). destruct (approx_scan lower parse smaller needle cs (Some i) (Fin q)) as [i'|].
          -- left. destruct IH as [(q' & (a & c' & b & -> & N' & S' & F' & L') & Lt)|[X (q0 & Y & Z)]].
             ++ exists q'. split.
                ** exists ((i, c) :: a), c', b. repeat split; auto.
                   intros j d p [X|X] Np Sp; [|eapply F'; eauto]. inversion X; subst j d.
                   assert (p = q) by congruence. subst p. now apply Lt.
                ** intros q0 X. specialize (Lq q0 X). specialize (Lt q eq_refl).
                   eapply near_le_lt; [apply near_lt_le, Lq|exact Lt].
             ++ inversion X; subst i'. inversion Y; subst q0. exists q. split; auto.
                exists [], c, cs. repeat split; auto. intros ? ? ? [].
          -- destruct IH; discriminate.
        * specialize (IH HI' best bv B HB).
          destruct (approx_scan lower parse smaller needle cs best bv) as [i'|].
          -- destruct IH as [(q' & (a & c' & b & -> & N' & S' & F' & L') & Lt)|[X (q0 & Y & Z)]].
             ++ left. exists q'. split; auto. exists ((i, c) :: a), c', b. repeat split; auto.
                intros j d p [X|X] Np Sp; [|eapply F'; eauto]. inversion X; subst j d.
                destruct (BS p Np Sp) as (q0 & E0 & Le). eapply near_le_lt; [exact Le|apply Lt; exact E0].
             ++ right. split; auto. exists q0. split; auto. intros j d p [X'|X'] Np Sp; [|eapply Z; eauto].
                inversion X'; subst j d. destruct (BS p Np Sp) as (q1 & E1 & Le). rewrite Y in E1. inversion E1; subst q1. exact Le.
          -- destruct IH as [X Y]. split; auto. intros j d p [X'|X'] Np Sp; [|eapply Y; eauto].
             inversion X'; subst j d. destruct (BS p Np Sp) as (q1 & E1 & Le).
             destruct B as [[_ ->]|(b & q0 & Eb & _)]; [|congruence]. unfold start_val in E1. destruct smaller; discriminate.
  Qed.

  Lemma scan_ok : forall cs, (forall i c, In (i, c) cs -> In c l) ->
    match approx_scan lower parse smaller needle cs None (start_val smaller) with
    | Some i => exists q, chosen cs i q
    | None => forall j d p, In (j, d) cs -> numv d = Some p -> ~ side p
    end.
  Proof.
    intros cs HI. pose proof (scan_gen cs HI None (start_val smaller)) as H.
    assert (B : best_ok None (start_val smaller)) by (left; auto).
    specialize (H B). assert (X : forall q0, start_val smaller = Fin q0 -> side q0 /\ ~ (q0 == n)%Q) by (intros q0; unfold start_val; destruct smaller; discriminate).
    specialize (H X). destruct (approx_scan _ _ _ _ _ _ _) as [i|].
    - destruct H as [(q & H & _)|[H _]]; [eauto|discriminate].
    - tauto.
  Qed.
End Approx.

Lemma indexed_nth : forall vs i c, In (i, c) (indexed vs) <-> nth_error vs i = Some c.
Proof.
  intros vs i c. unfold indexed.
  assert (G : forall (vs : list lval) k, In (i, c) (combine (seq k (length vs)) vs) <-> k <= i /\ nth_error vs (i - k) = Some c).
  { induction vs0 as [|v vs0 IH]; intros k; cbn.
    - split; [intros []|]. intros [_ H]. destruct (i - k); discriminate.
    - rewrite IH. split.
      + intros [H|[L H]]; [inversion H; subst; rewrite Nat.sub_diag; auto|].
        split; [lia|]. replace (i - k) with (S (i - S k)) by lia. exact H.
      + intros [L H]. destruct (Nat.eq_dec i k) as [->|]; [left; rewrite Nat.sub_diag in H; cbn in H; congruence|].
        right. split; [lia|]. replace (i - k) with (S (i - S k)) in H by lia. exact H. }
  rewrite G. rewrite Nat.sub_0_r. split; [tauto|]. intros H. split; [lia|exact H].
Qed.
Lemma indexed_split : forall vs a i c b, indexed vs = a ++ (i, c) :: b ->
  nth_error vs i = Some c /\ (forall j d, In (j, d) a -> j < i) /\ (forall j d, In (j, d) b -> i < j).
Proof.
  intros vs a i c b E. unfold indexed in *.
  assert (G : forall (vs : list lval) k a b, combine (seq k (length vs)) vs = a ++ (i, c) :: b ->
     (forall j d, In (j, d) a -> j < i) /\ (forall j d, In (j, d) b -> i < j)).
  { induction vs0 as [|v vs0 IH]; intros k a0 b0 E0; cbn in E0; [destruct a0; discriminate|].
    destruct a0 as [|[k' v'] a0]; cbn in E0; injection E0 as -> -> E1.
    - split; [intros ? ? []|]. intros j d H. rewrite <- E1 in H. apply in_combine_l in H. apply in_seq in H. lia.
    - destruct (IH (S k') a0 b0 E1) as [X Y]. split; auto.
      intros j d [H|H]; [|eauto]. inversion H; subst.
      assert (I : In (i, c) (combine (seq (S j) (length vs0)) vs0)) by (rewrite E1; apply in_or_app; right; left; auto).
      apply in_combine_l in I. apply in_seq in I. lia. }
  split; [|eapply G; eauto]. apply indexed_nth. unfold indexed. rewrite E. apply in_or_app. right. left. auto.
Qed.

Lemma clean_in : forall parse l, clean parse l -> forall v, In v l -> clean_value parse v.
Proof. intros parse l [H _]. exact H. Qed.

Section XMatch.
  Variable lower : text -> text.
  Variable parse : text -> option fnum.
  Variable vs : list lval.
  Variable needle : lval.
  Variable n : Q.
  Hypothesis C : clean parse (needle :: vs).
  Hypothesis Hn : numv needle = Some n.

  Definition closest (smaller first : bool) : option nat -> Prop :=
    if smaller then closest_below vs n first else closest_above vs n first.

  Lemma scan_closest : forall smaller (first : bool),
    closest smaller first
      (approx_scan lower parse smaller needle (if first then indexed vs else rev (indexed vs)) None (start_val smaller)).
  Proof.
    intros smaller first. set (cs := if first then indexed vs else rev (indexed vs)).
    assert (HI : forall i c, In (i, c) cs -> In c (needle :: vs)).
    { intros i c H. right. unfold cs in H. assert (H' : In (i, c) (indexed vs)) by (destruct first; [auto|now apply in_rev]).
      apply indexed_nth in H'. eapply nth_error_In; eauto. }
    assert (IN : forall j d, In (j, d) cs <-> nth_error vs j = Some d).
    { intros j d. unfold cs. destruct first; [|rewrite <- in_rev]; apply indexed_nth. }
    pose proof (scan_ok lower parse _ needle n C (or_introl eq_refl) Hn smaller cs HI) as H.
    destruct (approx_scan lower parse smaller needle cs None (start_val smaller)) as [i|].
    - destruct H as (q & a & c & b & E & Nc & Sq & Fa & Fb).
      assert (Hi : nth_error vs i = Some c) by (apply IN; rewrite E; apply in_or_app; right; left; auto).
      assert (ORD : forall j d, (In (j, d) a -> if first then j < i else i < j) /\ (In (j, d) b -> if first then i < j else j < i)).
      { intros j d. unfold cs in E. destruct first.
        - destruct (indexed_split _ _ _ _ _ E) as (_ & X & Y). split; eauto.
        - assert (E' : indexed vs = rev b ++ (i, c) :: rev a).
          { rewrite <- (rev_involutive (indexed vs)), E, rev_app_distr. cbn. now rewrite <- app_assoc. }
          destruct (indexed_split _ _ _ _ _ E') as (_ & X & Y). split; intros Z; [eapply Y|eapply X]; rewrite <- in_rev; eauto. }
      assert (ALL : forall j p, holds vs j p -> (if smaller then (p <= n)%Q else (n <= p)%Q) ->
         near_le smaller p q /\ ((p == q)%Q -> if first then i <= j else j <= i)).
      { intros j p (d & Hd & Np) Sp. apply IN in Hd. rewrite E in Hd. apply in_app_iff in Hd. destruct Hd as [Hd|[Hd|Hd]].
        - split; [apply near_lt_le; eapply Fa; eauto|]. intros X. exfalso.
          pose proof (Fa j d p Hd Np Sp) as Y. unfold near_lt in Y. destruct smaller; lra.
        - inversion Hd; subst j d. assert (p = q) by congruence. subst p. split; [unfold near_le; destruct smaller; lra|].
          intros _. destruct first; lia.
        - split; [eapply Fb; eauto|]. intros _. pose proof (proj2 (ORD j d) Hd). destruct first; lia. }
      unfold closest. destruct smaller; exists q; (split; [exists c; auto|]); (split; [exact Sq|]); intros j p Hj Lp; apply ALL; auto.
    - unfold closest. destruct smaller; intros j p (d & Hd & Np) Lp; apply IN in Hd; apply (H j d p Hd Np); exact Lp.
  Qed.

  Lemma xmatch_approx : forall (smaller first : bool),
    exists o, xmatch lower parse vs needle (if smaller then -1 else 1) (if first then 1 else -1) = xopt o /\
      closest smaller first o.
  Proof.
    intros smaller first. eexists. split; [|apply scan_closest].
    unfold xmatch. destruct smaller, first; reflexivity.
  Qed.

  Lemma xlookup_scan_eq : forall smaller cs prev best bv,
    match prev with Some p => match cs with (_, c) :: _ => is_le (cmp_for_lookup lower parse p c) = true | [] => True end | None => True end ->
    all_sorted lower parse is_le (map snd cs) = true ->
    xlookup_scan lower parse smaller needle prev cs best bv = Some (approx_scan lower parse smaller needle cs best bv).
  Proof.
    intros smaller. induction cs as [|[i c] cs IH]; intros prev best bv P S; auto.
    cbn [xlookup_scan approx_scan].
    replace (match prev with Some p => is_le (cmp_for_lookup lower parse p c) | None => true end) with true by (destruct prev; auto).
    destruct (is_eq (cmp_for_lookup lower parse c needle)); auto.
    assert (P' : match cs with (_, c') :: _ => is_le (cmp_for_lookup lower parse c c') = true | [] => True end).
    { destruct cs as [|[j d] cs]; auto. cbn [map snd all_sorted] in S. apply andb_true_iff in S. tauto. }
    assert (S' : all_sorted lower parse is_le (map snd cs) = true).
    { destruct cs as [|[j d] cs]; auto. cbn [map snd] in *. cbn [all_sorted] in S. apply andb_true_iff in S. tauto. }
    destruct (better parse smaller (value_to_f64_lenient parse needle) c bv); apply IH; auto.
  Qed.

End XMatch.

Lemma map_snd_indexed : forall vs, map snd (indexed vs) = vs.
Proof.
  intros vs. unfold indexed. generalize 0. induction vs as [|v l IH]; intros k; cbn; auto. now f_equal.
Qed.
