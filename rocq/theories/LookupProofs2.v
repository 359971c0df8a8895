From Coq Require Import QArith Qabs Qround Lqa ZifyNat ZifyBool Sorted.
From Verif Require Import Base Maps WildModel LookupModel LookupSpec LookupProofs.
Close Scope Q_scope.
Ltac Zify.zify_post_hook ::= Z.div_mod_to_equations.

(** ** Search loops over an abstract comparison *)
Definition asc_ok (f : nat -> option comparison) (n : nat) (r : option nat) : Prop :=
  match r with
  | Some i => i < n /\ is_le (f i) = true /\ forall j, j < n -> is_le (f j) = true -> j <= i
  | None => forall j, j < n -> is_le (f j) = false
  end.
Definition desc_ok (f : nat -> option comparison) (n : nat) (r : option nat) : Prop :=
  match r with
  | Some i => i < n /\
      ((f i = Some Eq /\ forall j, j < i -> f j <> Some Eq) \/
       ((forall j, j < n -> f j <> Some Eq) /\ f i = Some Gt /\ forall j, j < n -> f j = Some Gt -> j <= i))
  | None => forall j, j < n -> is_ge (f j) = false
  end.

Lemma bsearch_gen : forall f n,
  (forall i, i < n -> f i <> None) ->
  (forall i j, i < j -> j < n -> f i = Some Gt -> f j = Some Gt) ->
  forall fuel lo hi, lo <= hi -> hi <= n -> hi - lo < fuel ->
    (forall i, i < lo -> f i <> Some Gt) -> (forall i, hi <= i -> i < n -> f i = Some Gt) ->
    exists k, bsearch f fuel lo hi = Ok k /\ k <= n /\
      (forall i, i < k -> f i <> Some Gt) /\ (forall i, k <= i -> i < n -> f i = Some Gt).
Proof.
  intros f n T M. induction fuel as [|fuel IH]; intros lo hi L1 L2 F A B; [lia|].
  cbn [bsearch]. destruct (lo <? hi) eqn:E; [|exists lo; repeat split; auto; try lia; intros i Hi Hn; apply B; lia].
  set (mid := (lo + hi) / 2). assert (Hm : lo <= mid < hi) by (unfold mid; lia).
  destruct (f mid) as [[]|] eqn:Em.
  - apply IH; try lia; auto. intros i Hi. destruct (Nat.eq_dec i mid) as [->|]; [congruence|].
    intros G. specialize (M i mid ltac:(lia) ltac:(lia) G). congruence.
  - apply IH; try lia; auto. intros i Hi. destruct (Nat.eq_dec i mid) as [->|]; [congruence|].
    intros G. specialize (M i mid ltac:(lia) ltac:(lia) G). congruence.
  - apply IH; try lia; auto. intros i Hi Hn. destruct (Nat.eq_dec i mid) as [->|]; [auto|].
    apply (M mid i); auto; lia.
  - exfalso. apply (T mid); auto. lia.
Qed.

Lemma bsearch_ok : forall f n,
  (forall i, i < n -> f i <> None) ->
  (forall i j, i < j -> j < n -> f i = Some Gt -> f j = Some Gt) ->
  exists k, bsearch f (S n) 0 n = Ok k /\ asc_ok f n (if k =? 0 then None else Some (k - 1)).
Proof.
  intros f n T M. destruct (bsearch_gen f n T M (S n) 0 n) as (k & E & K & A & B); try lia.
  exists k. split; auto. destruct (k =? 0) eqn:Z; cbn.
  - intros j Hj. rewrite B; auto. lia.
  - split; [lia|]. split.
    + specialize (A (k - 1) ltac:(lia)). specialize (T (k - 1) ltac:(lia)). destruct (f (k - 1)) as [[]|]; auto; congruence.
    + intros j Hj L. destruct (Nat.le_gt_cases k j); [|lia]. rewrite B in L; auto. discriminate.
Qed.

Lemma linear_asc_gen : forall f m k best,
  (forall b, best = Some b -> b < k) ->
  match linear_asc f (seq k m) best with
  | Some i => (best = Some i /\ (forall j, k <= j < k + m -> is_le (f j) = false)) \/
              (k <= i < k + m /\ is_le (f i) = true /\ forall j, k <= j < k + m -> is_le (f j) = true -> j <= i)
  | None => best = None /\ forall j, k <= j < k + m -> is_le (f j) = false
  end.
Proof.
  intros f. induction m as [|m IH]; intros k best B.
  - cbn. destruct best; [left|]; split; auto; intros; lia.
  - cbn [seq linear_asc].
    set (best' := match f k with Some Eq | Some Lt => _ | _ => best end).
    assert (D : (is_le (f k) = true /\ best' = Some k) \/ (is_le (f k) = false /\ best' = best)).
    { unfold best'. destruct (f k) as [[]|]; cbn [is_le]; auto; left; split; auto;
        (destruct best as [b|]; auto; specialize (B b eq_refl); now replace (b <? k) with true by lia). }
    assert (B' : forall b, best' = Some b -> b < S k).
    { intros b Hb. destruct D as [[_ X]|[_ X]]; rewrite X in Hb; [inversion Hb; lia|]. specialize (B b Hb). lia. }
    specialize (IH (S k) best' B').
    destruct (linear_asc f (seq (S k) m) best') as [i|].
    + destruct IH as [[X Y]|[X [Y Z]]].
      * destruct D as [[Dk Db]|[Dk Db]]; rewrite Db in X.
        -- inversion X; subst i. right. split; [lia|]. split; auto. intros j Hj Lj.
           destruct (Nat.eq_dec j k); [lia|]. rewrite Y in Lj by lia. discriminate.
        -- left. split; auto. intros j Hj. destruct (Nat.eq_dec j k) as [->|]; auto. apply Y. lia.
      * right. split; [lia|]. split; auto. intros j Hj Lj. destruct (Nat.eq_dec j k); [lia|]. apply Z; auto. lia.
    + destruct IH as [X Y]. destruct D as [[Dk Db]|[Dk Db]]; [congruence|]. split; [congruence|].
      intros j Hj. destruct (Nat.eq_dec j k) as [->|]; auto. apply Y. lia.
Qed.
Lemma linear_asc_ok : forall f n, asc_ok f n (linear_asc f (seq 0 n) None).
Proof.
  intros f n. pose proof (linear_asc_gen f n 0 None ltac:(discriminate)) as H.
  destruct (linear_asc f (seq 0 n) None) as [i|]; cbn.
  - destruct H as [[X _]|[X [Y Z]]]; [discriminate|]. split; [lia|]. split; auto. intros j Hj. apply Z. lia.
  - destruct H as [_ H]. intros j Hj. apply H. lia.
Qed.

Lemma linear_desc_gen : forall f m k best,
  (forall b, best = Some b -> b < k) ->
  match linear_desc f (seq k m) best with
  | Some i => (k <= i < k + m /\ f i = Some Eq /\ forall j, k <= j < i -> f j <> Some Eq) \/
              ((forall j, k <= j < k + m -> f j <> Some Eq) /\
               ((best = Some i /\ forall j, k <= j < k + m -> f j <> Some Gt) \/
                (k <= i < k + m /\ f i = Some Gt /\ forall j, k <= j < k + m -> f j = Some Gt -> j <= i)))
  | None => best = None /\ forall j, k <= j < k + m -> is_ge (f j) = false
  end.
Proof.
  intros f. induction m as [|m IH]; intros k best B.
  - cbn. destruct best; [right|]; split; auto; [|left|]; try split; auto; intros; lia.
  - cbn [seq linear_desc]. destruct (f k) as [[]|] eqn:Ek.
    + left. split; [lia|]. split; auto. intros; lia.
    + assert (B' : forall b, best = Some b -> b < S k) by (intros b Hb; specialize (B b Hb); lia).
      specialize (IH (S k) best B'). destruct (linear_desc f (seq (S k) m) best) as [i|].
      * destruct IH as [(X & Y & Z)|[X Y]].
        -- left. split; [lia|]. split; auto. intros j Hj. destruct (Nat.eq_dec j k) as [->|]; [congruence|]. apply Z. lia.
        -- right. split; [intros j Hj; destruct (Nat.eq_dec j k) as [->|]; [congruence|apply X; lia]|].
           destruct Y as [[Y1 Y2]|(Y1 & Y2 & Y3)]; [left|right].
           ++ split; auto. intros j Hj. destruct (Nat.eq_dec j k) as [->|]; [congruence|]. apply Y2; lia.
           ++ split; [lia|]. split; auto. intros j Hj G. destruct (Nat.eq_dec j k) as [->|]; [lia|]. apply Y3; auto; lia.
      * destruct IH as [X Y]. split; auto. intros j Hj. destruct (Nat.eq_dec j k) as [->|]; [now rewrite Ek|]. apply Y; lia.
    + set (best' := match best with None => Some k | Some b => if b <? k then Some k else best end).
      assert (D : best' = Some k).
      { unfold best'. destruct best as [b|]; auto. specialize (B b eq_refl). now replace (b <? k) with true by lia. }
      rewrite D. specialize (IH (S k) (Some k) ltac:(intros b Hb; inversion Hb; lia)).
      destruct (linear_desc f (seq (S k) m) (Some k)) as [i|].
      * destruct IH as [(X & Y & Z)|[X Y]].
        -- left. split; [lia|]. split; auto. intros j Hj. destruct (Nat.eq_dec j k) as [->|]; [congruence|]. apply Z. lia.
        -- right. split; [intros j Hj; destruct (Nat.eq_dec j k) as [->|]; [congruence|apply X; lia]|]. right.
           destruct Y as [[Y1 Y2]|(Y1 & Y2 & Y3)].
           ++ inversion Y1; subst i. split; [lia|]. split; auto. intros j Hj G. destruct (Nat.eq_dec j k); [lia|]. exfalso. apply (Y2 j); auto; lia.
           ++ split; [lia|]. split; auto. intros j Hj G. destruct (Nat.eq_dec j k) as [->|]; [lia|]. apply Y3; auto; lia.
      * destruct IH as [X Y]. discriminate.
    + assert (B' : forall b, best = Some b -> b < S k) by (intros b Hb; specialize (B b Hb); lia).
      specialize (IH (S k) best B'). destruct (linear_desc f (seq (S k) m) best) as [i|].
      * destruct IH as [(X & Y & Z)|[X Y]].
        -- left. split; [lia|]. split; auto. intros j Hj. destruct (Nat.eq_dec j k) as [->|]; [congruence|]. apply Z. lia.
        -- right. split; [intros j Hj; destruct (Nat.eq_dec j k) as [->|]; [congruence|apply X; lia]|].
           destruct Y as [[Y1 Y2]|(Y1 & Y2 & Y3)]; [left|right].
           ++ split; auto. intros j Hj. destruct (Nat.eq_dec j k) as [->|]; [congruence|]. apply Y2; lia.
           ++ split; [lia|]. split; auto. intros j Hj G. destruct (Nat.eq_dec j k) as [->|]; [lia|]. apply Y3; auto; lia.
      * destruct IH as [X Y]. split; auto. intros j Hj. destruct (Nat.eq_dec j k) as [->|]; [now rewrite Ek|]. apply Y; lia.
Qed.
Lemma linear_desc_ok : forall f n, desc_ok f n (linear_desc f (seq 0 n) None).
Proof.
  intros f n. pose proof (linear_desc_gen f n 0 None ltac:(discriminate)) as H.
  destruct (linear_desc f (seq 0 n) None) as [i|]; cbn.
  - destruct H as [(X & Y & Z)|[X [[Y _]|(Y & Z & W)]]]; [|discriminate|].
    + split; [lia|]. left. split; auto. intros j Hj. apply Z. lia.
    + split; [lia|]. right. split; [intros j Hj; apply X; lia|]. split; auto. intros j Hj. apply W. lia.
  - destruct H as [_ H]. intros j Hj. apply H. lia.
Qed.

(** ** From projected indices to positions *)
Lemma seq_sorted : forall n k, StronglySorted lt (seq k n).
Proof.
  induction n as [|n IH]; intros k; cbn; constructor; auto.
  apply Forall_forall. intros x Hx. apply in_seq in Hx. lia.
Qed.
Lemma filter_sorted : forall (f : nat -> bool) l, StronglySorted lt l -> StronglySorted lt (filter f l).
Proof.
  intros f l H. induction H as [|x l H IH F]; cbn; [constructor|].
  destruct (f x); auto. constructor; auto. apply Forall_forall. intros y Hy. apply filter_In in Hy.
  rewrite Forall_forall in F. apply F. tauto.
Qed.
Lemma sorted_nth : forall l, StronglySorted lt l -> forall a b i j,
  a < b -> nth_error l a = Some i -> nth_error l b = Some j -> i < j.
Proof.
  intros l H. induction H as [|x l H IH F]; intros a b i j L A B.
  - destruct a; discriminate.
  - destruct b as [|b]; [lia|]. destruct a as [|a]; cbn in A, B.
    + inversion A; subst. rewrite Forall_forall in F. apply F. eapply nth_error_In; eauto.
    + eapply (IH a b); eauto. lia.
Qed.

Section Match.
  Variable lower : text -> text.
  Variable parse : text -> option fnum.
  Variable vs : list lval.
  Variable needle : lval.
  Hypothesis C : clean parse (needle :: vs).
  Notation ps := (poss lower parse vs needle).
  Notation s := (searched_new lower parse vs needle).
  Notation cnd := (cand lower vs needle).

  Lemma ps_sorted : forall a b i j, a < b -> nth_error ps a = Some i -> nth_error ps b = Some j -> i < j.
  Proof. apply sorted_nth. apply filter_sorted, seq_sorted. Qed.
  Lemma ps_sorted_iff : forall a b i j, nth_error ps a = Some i -> nth_error ps b = Some j -> (a < b <-> i < j).
  Proof.
    intros a b i j A B. split; [intros; eapply ps_sorted; eauto|]. intros L.
    destruct (Nat.lt_trichotomy a b) as [|[->|G]]; auto; [rewrite A in B; inversion B; lia|].
    pose proof (ps_sorted b a j i G B A). lia.
  Qed.

  Lemma in_clean : forall i v, nth_error vs i = Some v -> In v (needle :: vs).
  Proof. intros i v H. right. eapply nth_error_In; eauto. Qed.

  Lemma searchable_iff : forall i v, nth_error vs i = Some v ->
    (is_searchable lower parse v needle = true <-> exists k, cnd i k).
  Proof.
    intros i v H. unfold is_searchable.
    assert (E := cmp_key lower parse _ C v needle (in_clean _ _ H) (or_introl eq_refl)).
    split.
    - intros X. assert (NE : v <> LEmpty) by (intros ->; discriminate).
      assert (Y : cmp_for_lookup lower parse v needle <> None) by (intros Z; rewrite Z in X; destruct v; discriminate).
      rewrite E in Y. destruct (key_of lower v) as [k|] eqn:K; [|congruence].
      destruct (key_of lower needle) as [kn|] eqn:KN; [|congruence].
      exists k, v, kn. repeat split; auto. destruct k, kn; cbn in *; auto; congruence.
    - intros (k & v' & kn & Hv & NE & K & KN & SC). assert (v' = v) by congruence. subst v'.
      rewrite K, KN in E.
      assert (Y : kcmp k kn <> None) by (intros Z; apply kcmp_none in Z; contradiction).
      rewrite E. destruct v; try congruence; destruct (kcmp k kn); congruence.
  Qed.

  Lemma in_ps : forall i, In i ps <-> exists k, cnd i k.
  Proof.
    intros i. unfold poss. rewrite filter_In, in_seq. split.
    - intros [_ H]. destruct (nth_error vs i) as [v|] eqn:E; [|discriminate]. now apply (searchable_iff i v).
    - intros (k & H). pose proof H as H'. destruct H as (v & kn & E & _). rewrite E. split.
      + assert (i < length vs) by (apply nth_error_Some; congruence). lia.
      + apply (searchable_iff i v E). eauto.
  Qed.
  Lemma cand_index : forall i k, cnd i k -> exists a, a < length ps /\ nth_error ps a = Some i.
  Proof.
    intros i k H. assert (I : In i ps) by (apply in_ps; eauto). apply In_nth_error in I. destruct I as (a & E).
    exists a. split; auto. apply nth_error_Some. congruence.
  Qed.
  Lemma index_cand : forall a, a < length ps -> exists i k, nth_error ps a = Some i /\ cnd i k.
  Proof.
    intros a H. destruct (nth_error ps a) as [i|] eqn:E; [|apply nth_error_None in E; lia].
    assert (I : In i ps) by (eapply nth_error_In; eauto). apply in_ps in I. destruct I as (k & I). eauto.
  Qed.
  Lemma cand_fun : forall i k k', cnd i k -> cnd i k' -> k = k'.
  Proof. intros i k k' (v & kn & E & _ & K & _) (v' & kn' & E' & _ & K' & _). congruence. Qed.

  Lemma sv_get_eq : forall a i, nth_error ps a = Some i -> sv_get s a = nth_error vs i.
  Proof.
    intros a i H. unfold sv_get. rewrite orig_pos; [now rewrite H|]. apply nth_error_Some. congruence.
  Qed.

  Lemma cmp_at_key : forall a i k, nth_error ps a = Some i -> cnd i k ->
    exists kn, key_of lower needle = Some kn /\ same_class k kn /\ cmp_at lower parse s needle a = kcmp k kn.
  Proof.
    intros a i k H (v & kn & E & _ & K & KN & SC). exists kn. repeat split; auto.
    unfold cmp_at. rewrite (sv_get_eq a i H), E.
    rewrite (cmp_key lower parse _ C v needle (in_clean _ _ E) (or_introl eq_refl)). now rewrite K, KN.
  Qed.
  Notation f := (cmp_at lower parse s needle).

  Lemma f_le : forall a i k, nth_error ps a = Some i -> cnd i k -> (is_le (f a) = true <-> below lower needle k).
  Proof.
    intros a i k H Hc. destruct (cmp_at_key a i k H Hc) as (kn & KN & SC & ->). rewrite kcmp_le. unfold below. split.
    - intros L. eauto.
    - intros (kn' & KN' & L). congruence.
  Qed.
  Lemma f_ge : forall a i k, nth_error ps a = Some i -> cnd i k -> (is_ge (f a) = true <-> above lower needle k).
  Proof.
    intros a i k H Hc. destruct (cmp_at_key a i k H Hc) as (kn & KN & SC & ->). rewrite kcmp_ge. unfold above. split.
    - intros L. eauto.
    - intros (kn' & KN' & L). congruence.
  Qed.
  Lemma f_some : forall a, a < length ps -> f a <> None.
  Proof.
    intros a H. destruct (index_cand a H) as (i & k & E & Hc). destruct (cmp_at_key a i k E Hc) as (kn & _ & SC & ->).
    intros X. apply kcmp_none in X. contradiction.
  Qed.

  (** Sorted checks are pairwise order. *)
  Lemma adj_pairwise : forall (R : key -> key -> Prop) (n : nat) (K : nat -> key),
    (forall a b c, R a b -> R b c -> R a c) ->
    (forall a, S a < n -> R (K a) (K (S a))) -> forall a b, a < b -> b < n -> R (K a) (K b).
  Proof.
    intros R n K T H a b L. induction L as [|b L IH]; intros Hb; [apply H; auto|].
    eapply T; [apply IH; lia|apply H; auto].
  Qed.

  Lemma sorted_by_iff : forall ok, sorted_by lower parse ok s = true <->
    (forall a i j k k', nth_error ps a = Some i -> nth_error ps (S a) = Some j -> cnd i k -> cnd j k' -> ok (kcmp k k') = true).
  Proof.
    intros ok. unfold sorted_by. rewrite sv_len_eq, forallb_forall. split.
    - intros H a i j k k' A B Ci Cj. specialize (H (S a)).
      assert (LB : S a < length ps) by (apply nth_error_Some; congruence).
      replace (S a - 1) with a in H by lia. rewrite (sv_get_eq _ _ A), (sv_get_eq _ _ B) in H.
      destruct Ci as (v & kn & E & _ & K & _). destruct Cj as (v' & kn' & E' & _ & K' & _). rewrite E, E' in H.
      rewrite (cmp_key lower parse _ C v v' (in_clean _ _ E) (in_clean _ _ E')), K, K' in H.
      apply H. apply in_seq. lia.
    - intros H b Hb. apply in_seq in Hb. destruct b as [|a]; [lia|]. replace (S a - 1) with a by lia.
      destruct (index_cand a ltac:(lia)) as (i & k & A & Ci). destruct (index_cand (S a) ltac:(lia)) as (j & k' & B & Cj).
      specialize (H a i j k k' A B Ci Cj). rewrite (sv_get_eq _ _ A), (sv_get_eq _ _ B).
      destruct Ci as (v & kn & E & _ & K & _). destruct Cj as (v' & kn' & E' & _ & K' & _). rewrite E, E'.
      now rewrite (cmp_key lower parse _ C v v' (in_clean _ _ E) (in_clean _ _ E')), K, K'.
  Qed.

  Lemma pairs : forall (R : key -> key -> Prop), (forall a b c, R a b -> R b c -> R a c) ->
    ((forall a i j k k', nth_error ps a = Some i -> nth_error ps (S a) = Some j -> cnd i k -> cnd j k' -> R k k') <->
     (forall i j a b, i < j -> cnd i a -> cnd j b -> R a b)).
  Proof.
    intros R T. split.
    - intros H i j a b L Ci Cj. destruct (cand_index i a Ci) as (x & Lx & X). destruct (cand_index j b Cj) as (y & Ly & Y).
      assert (L' : x < y) by (eapply ps_sorted_iff; eauto).
      revert j b L Cj Y Ly. induction L' as [|y' L' IH]; intros j b L Cj Y Ly; [apply (H x i j); auto|].
      destruct (index_cand y' ltac:(lia)) as (m & km & M & Cm). apply T with km.
      + apply (IH m km); auto; [|lia]. apply (ps_sorted x y'); auto.
      + apply (H y' m j); auto.
    - intros H a i j k k' A B Ci Cj. apply (H i j); auto. apply (ps_sorted a (S a)); auto.
  Qed.

  Lemma sorted_le : sorted_by lower parse is_le s = true <-> ascending lower vs needle.
  Proof.
    rewrite sorted_by_iff. rewrite <- (pairs key_le key_le_trans).
    split; intros H a i j k k' A B X Y; [apply (kcmp_le k k')|apply (kcmp_le k k')]; apply (H a i j); auto.
  Qed.
  Lemma sorted_ge : sorted_by lower parse is_ge s = true <-> descending lower vs needle.
  Proof.
    rewrite sorted_by_iff. rewrite <- (pairs (fun a b => key_le b a) (fun a b c X Y => key_le_trans c b a Y X)).
    split; intros H a i j k k' A B X Y; [apply (kcmp_ge k k')|apply (kcmp_ge k k')]; apply (H a i j); auto.
  Qed.

  Lemma f_mono : ascending lower vs needle -> forall a b, a < b -> b < length ps -> f a = Some Gt -> f b = Some Gt.
  Proof.
    intros Asc a b L Lb G.
    destruct (index_cand a ltac:(lia)) as (i & k & A & Ci). destruct (index_cand b Lb) as (j & k' & B & Cj).
    destruct (cmp_at_key a i k A Ci) as (kn & KN & SC & E). destruct (cmp_at_key b j k' B Cj) as (kn' & KN' & SC' & E').
    assert (kn' = kn) by congruence. subst kn'. rewrite E in G. rewrite E'.
    apply (kcmp_gt _ _ SC) in G. apply (kcmp_gt _ _ SC'). intros X. apply G.
    eapply key_le_trans; [|exact X]. apply (Asc i j); auto. apply (ps_sorted a b); auto.
  Qed.

  Lemma asc_transfer : forall r, asc_ok f (length ps) r ->
    exists o, to_original s r = Ok o /\ last_below lower vs needle o.
  Proof.
    intros [a|] H; cbn in H.
    - destruct H as (L & G & M). destruct (index_cand a L) as (i & k & A & Ci).
      exists (Some i). cbn [to_original]. rewrite orig_pos, A by auto. split; auto. split.
      + exists k. split; auto. now apply (f_le a i k A Ci).
      + intros j k' Cj Bj. destruct (cand_index j k' Cj) as (b & Lb & B).
        assert (b <= a) by (apply M; auto; now apply (f_le b j k')).
        destruct (Nat.eq_dec b a) as [->|]; [rewrite A in B; inversion B; auto|].
        assert (j < i) by (apply (ps_sorted b a); auto; lia). lia.
    - exists None. split; auto. intros j k Cj Bj. destruct (cand_index j k Cj) as (b & Lb & B).
      apply (f_le b j k B Cj) in Bj. rewrite H in Bj; auto. discriminate.
  Qed.

  Lemma f_eq : forall a i k, nth_error ps a = Some i -> cnd i k -> (f a = Some Eq <-> below lower needle k /\ above lower needle k).
  Proof.
    intros a i k A Ci. rewrite <- (f_le a i k A Ci), <- (f_ge a i k A Ci).
    destruct (f a) as [[]|]; cbn; split; intros X; try tauto; try discriminate; destruct X; discriminate.
  Qed.

  Lemma desc_transfer : forall r, desc_ok f (length ps) r ->
    exists o, to_original s r = Ok o /\ first_equal_or_last_above lower vs needle o.
  Proof.
    intros [a|] H; cbn in H.
    - destruct H as (L & H). destruct (index_cand a L) as (i & k & A & Ci).
      exists (Some i). cbn [to_original]. rewrite orig_pos, A by auto. split; auto.
      destruct H as [[E F]|(N & G & M)].
      + left. exists k. apply (f_eq a i k A Ci) in E. repeat split; try tauto.
        intros j k' Cj B1 B2. destruct (cand_index j k' Cj) as (b & Lb & B).
        destruct (Nat.le_gt_cases i j); auto. exfalso. apply (F b).
        * apply (ps_sorted_iff b a j i); auto.
        * apply (f_eq b j k' B Cj). auto.
      + right. split; [|split].
        * intros j k' Cj A1 B1. destruct (cand_index j k' Cj) as (b & Lb & B). apply (N b Lb). apply (f_eq b j k' B Cj). auto.
        * exists k. split; auto. apply (f_ge a i k A Ci). now rewrite G.
        * intros j k' Cj A1. destruct (cand_index j k' Cj) as (b & Lb & B).
          assert (G' : is_ge (f b) = true) by now apply (f_ge b j k' B Cj).
          assert (b <= a). { apply M; auto. specialize (N b Lb). destruct (f b) as [[]|]; try discriminate; auto. congruence. }
          destruct (Nat.eq_dec b a) as [->|]; [rewrite A in B; inversion B; auto|].
          assert (j < i) by (apply (ps_sorted b a); auto; lia). lia.
    - exists None. split; auto. intros j k Cj Aj. destruct (cand_index j k Cj) as (b & Lb & B).
      apply (f_ge b j k B Cj) in Aj. rewrite H in Aj; auto. discriminate.
  Qed.

  Lemma bss_asc : ascending lower vs needle -> exists r,
    binary_search_searched lower parse s needle 1 = Ok r /\ asc_ok f (length ps) r.
  Proof.
    intros Asc. unfold binary_search_searched. rewrite sv_len_eq. cbn [Z.eqb orb].
    destruct (length ps =? 0) eqn:E.
    - exists None. split; auto. intros j Hj. lia.
    - destruct (bsearch_ok f (length ps) f_some (f_mono Asc)) as (k & B & A). cbn [Z.eqb Pos.eqb]. rewrite B. cbn [rbind].
      eexists; split; eauto.
  Qed.
  Lemma bss_desc : exists r, binary_search_searched lower parse s needle (-1) = Ok r /\ desc_ok f (length ps) r.
  Proof.
    unfold binary_search_searched. rewrite sv_len_eq. cbn [Z.eqb orb].
    destruct (length ps =? 0) eqn:E.
    - exists None. split; auto. intros j Hj. lia.
    - eexists. split; [reflexivity|]. apply linear_desc_ok.
  Qed.

  Lemma match_range_asc : ascending lower vs needle ->
    exists o, match_range lower parse vs needle 1 = Ok o /\ last_below lower vs needle o.
  Proof.
    intros Asc. unfold match_range. cbn [Z.eqb Pos.eqb]. rewrite (proj2 sorted_le Asc). cbn [negb].
    rewrite sv_len_eq. destruct (length ps <? 8).
    - cbn [rbind]. apply asc_transfer, linear_asc_ok.
    - destruct (bss_asc Asc) as (r & -> & H). cbn [rbind]. now apply asc_transfer.
  Qed.
  Lemma match_range_desc : descending lower vs needle ->
    exists o, match_range lower parse vs needle (-1) = Ok o /\ first_equal_or_last_above lower vs needle o.
  Proof.
    intros D. unfold match_range. cbn [Z.eqb Pos.eqb]. rewrite (proj2 sorted_ge D). cbn [negb].
    rewrite sv_len_eq. destruct (length ps <? 8).
    - cbn [rbind]. apply desc_transfer, linear_desc_ok.
    - destruct bss_desc as (r & -> & H). cbn [rbind]. now apply desc_transfer.
  Qed.
  Lemma match_range_unsorted_asc : ~ ascending lower vs needle -> match_range lower parse vs needle 1 = Ok None.
  Proof.
    intros N. unfold match_range. cbn [Z.eqb Pos.eqb].
    destruct (sorted_by lower parse is_le s) eqn:E; [|reflexivity]. apply sorted_le in E. contradiction.
  Qed.
  Lemma match_range_unsorted_desc : ~ descending lower vs needle -> match_range lower parse vs needle (-1) = Ok None.
  Proof.
    intros N. unfold match_range. cbn [Z.eqb Pos.eqb].
    destruct (sorted_by lower parse is_ge s) eqn:E; [|reflexivity]. apply sorted_ge in E. contradiction.
  Qed.
  Lemma match_array_asc : ascending lower vs needle ->
    exists o, match_array lower parse vs needle 1 = Ok o /\ last_below lower vs needle o.
  Proof.
    intros Asc. unfold match_array, binary_search_match. cbn [Z.eqb orb].
    destruct (length vs =? 0) eqn:E.
    - exists None. split; auto. intros j k (v & kn & X & _). destruct vs; [destruct j; discriminate|discriminate].
    - destruct (bss_asc Asc) as (r & -> & H). cbn [rbind]. now apply asc_transfer.
  Qed.
End Match.
