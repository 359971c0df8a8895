From Coq Require Import ZifyN ZifyNat ZifyBool.
From Verif Require Import Base Maps WildModel WildSpec.

(** Meaning of a token list. *)
Fixpoint tmatch (toks : list wtoken) (t : text) : Prop :=
  match toks with
  | [] => t = []
  | AnySeq :: r => exists pre t', t = pre ++ t' /\ tmatch r t'
  | AnyChar :: r => exists c t', t = c :: t' /\ tmatch r t'
  | Lit l :: r => exists t', t = l ++ t' /\ tmatch r t'
  end.

Lemma tmatch_app : forall a b t, tmatch (a ++ b) t <-> exists t1 t2, t = t1 ++ t2 /\ tmatch a t1 /\ tmatch b t2.
Proof.
  induction a as [|x a IH]; intros b t.
  - cbn. split; [intros H; exists [], t; auto|]. intros (t1 & t2 & -> & -> & H). exact H.
  - destruct x; cbn; split.
    + intros (pre & t' & -> & H). apply IH in H. destruct H as (t1 & t2 & -> & H1 & H2).
      exists (pre ++ t1), t2. rewrite app_assoc. repeat split; auto. exists pre, t1. auto.
    + intros (t1 & t2 & -> & (pre & t' & -> & H1) & H2). exists pre, (t' ++ t2). rewrite app_assoc. split; auto.
      apply IH. exists t', t2. auto.
    + intros (c & t' & -> & H). apply IH in H. destruct H as (t1 & t2 & -> & H1 & H2).
      exists (c :: t1), t2. repeat split; auto. exists c, t1. auto.
    + intros (t1 & t2 & -> & (c & t' & -> & H1) & H2). exists c, (t' ++ t2). split; auto. apply IH. eauto.
    + intros (t' & -> & H). apply IH in H. destruct H as (t1 & t2 & -> & H1 & H2).
      exists (l ++ t1), t2. rewrite app_assoc. repeat split; auto. exists t1. auto.
    + intros (t1 & t2 & -> & (t' & -> & H1) & H2). exists (t' ++ t2). rewrite app_assoc. split; auto. apply IH. eauto.
Qed.

Lemma tmatch_flush : forall lit toks t,
  tmatch (flush lit toks) t <-> exists t1, t = t1 ++ lit /\ tmatch toks t1.
Proof.
  intros lit toks t. unfold flush. destruct lit as [|c lit].
  - split; [intros H; exists t; now rewrite app_nil_r|]. intros (t1 & -> & H). now rewrite app_nil_r.
  - rewrite tmatch_app. split.
    + intros (t1 & t2 & -> & H & (t' & -> & ->)). exists t1. rewrite app_nil_r. auto.
    + intros (t1 & -> & H). exists t1, (c :: lit). repeat split; auto. exists []. rewrite app_nil_r. split; reflexivity.
Qed.

Lemma star_inv : forall p t, glob (STAR :: p) t -> exists pre t', t = pre ++ t' /\ glob p t'.
Proof. intros p t G. unfold STAR in G. inversion G; subst; eauto; exfalso; congruence. Qed.
Lemma quest_inv : forall p t, glob (QUEST :: p) t -> exists c t', t = c :: t' /\ glob p t'.
Proof. intros p t G. unfold QUEST in G. inversion G; subst; eauto; exfalso; congruence. Qed.
Lemma esc_inv : forall x p t, glob (TILDE :: x :: p) t -> exists t', t = x :: t' /\ glob p t'.
Proof. intros x p t G. unfold TILDE in G. inversion G; subst; eauto; exfalso; congruence. Qed.
Lemma tilde_inv : forall t, glob [TILDE] t -> t = [TILDE].
Proof. intros t G. unfold TILDE in *. inversion G; subst; eauto; exfalso; congruence. Qed.
Lemma char_inv : forall c p t, c <> STAR -> c <> QUEST -> c <> TILDE -> glob (c :: p) t -> exists t', t = c :: t' /\ glob p t'.
Proof. intros c p t N1 N2 N3 G. unfold STAR, QUEST, TILDE in *. inversion G; subst; eauto; exfalso; congruence. Qed.

(** Meaning of a raw pattern as a function of its suffix. *)
Lemma tokenize_spec : forall n p, length p <= n -> forall toks lit t,
  tmatch (tokenize toks lit p) t <-> exists t1 t2, t = t1 ++ lit ++ t2 /\ tmatch toks t1 /\ glob p t2.
Proof.
  induction n as [|n IH]; intros p Hp toks lit t.
  - destruct p; [|cbn in Hp; lia]. cbn [tokenize]. rewrite tmatch_flush. split.
    + intros (t1 & -> & H). exists t1, []. rewrite app_nil_r. repeat split; auto. constructor.
    + intros (t1 & t2 & -> & H & G). inversion G; subst. exists t1. rewrite app_nil_r. auto.
  - destruct p as [|ch p].
    { cbn [tokenize]. rewrite tmatch_flush. split.
      + intros (t1 & -> & H). exists t1, []. rewrite app_nil_r. repeat split; auto. constructor.
      + intros (t1 & t2 & -> & H & G). inversion G; subst. exists t1. rewrite app_nil_r. auto. }
    cbn in Hp. cbn [tokenize]. destruct (N.eqb ch TILDE) eqn:E1.
    { apply N.eqb_eq in E1. subst ch. destruct p as [|x p].
      - cbn [tokenize]. rewrite tmatch_flush. split.
        + intros (t1 & -> & H). exists t1, [TILDE]. repeat split; auto. constructor.
        + intros (t1 & t2 & -> & H & G). apply tilde_inv in G. subst t2. exists t1. auto.
      - rewrite IH by (cbn in Hp; lia). split.
        + intros (t1 & t2 & -> & H & G). exists t1, (x :: t2). rewrite <- app_assoc. repeat split; auto. now constructor.
        + intros (t1 & t2 & -> & H & G). apply esc_inv in G. destruct G as (t0 & -> & G).
          exists t1, t0. rewrite <- app_assoc. auto. }
    apply N.eqb_neq in E1. destruct (N.eqb ch STAR) eqn:E2.
    { apply N.eqb_eq in E2. subst ch. rewrite IH by lia. split.
      - intros (t1 & t2 & -> & H & G). rewrite tmatch_app in H. destruct H as (a & b & -> & Ha & (pre & t' & -> & Hb)).
        cbn in Hb. subst t'. rewrite app_nil_r in *. apply tmatch_flush in Ha. destruct Ha as (a' & -> & Ha).
        exists a', (pre ++ t2). rewrite <- !app_assoc. repeat split; auto. now constructor.
      - intros (t1 & t2 & -> & H & G). apply star_inv in G. destruct G as (pre & t0 & -> & G).
        exists (t1 ++ lit ++ pre), t0. rewrite <- !app_assoc. repeat split; auto.
        rewrite app_assoc. apply tmatch_app. exists (t1 ++ lit), pre. repeat split; auto.
        + apply tmatch_flush. eauto.
        + cbn. exists pre, []. rewrite app_nil_r. auto. }
    apply N.eqb_neq in E2. destruct (N.eqb ch QUEST) eqn:E3.
    { apply N.eqb_eq in E3. subst ch. rewrite IH by lia. split.
      - intros (t1 & t2 & -> & H & G). rewrite tmatch_app in H. destruct H as (a & b & -> & Ha & (c & t' & -> & Hb)).
        cbn in Hb. subst t'. apply tmatch_flush in Ha. destruct Ha as (a' & -> & Ha).
        exists a', (c :: t2). rewrite <- !app_assoc. repeat split; auto. now constructor.
      - intros (t1 & t2 & -> & H & G). apply quest_inv in G. destruct G as (c & t0 & -> & G).
        exists (t1 ++ lit ++ [c]), t0. rewrite <- !app_assoc. repeat split; auto.
        rewrite app_assoc. apply tmatch_app. exists (t1 ++ lit), [c]. repeat split; auto.
        + apply tmatch_flush. eauto.
        + cbn. exists c, []. auto. }
    apply N.eqb_neq in E3. rewrite IH by lia. split.
    + intros (t1 & t2 & -> & H & G). exists t1, (ch :: t2). rewrite <- app_assoc. repeat split; auto. now constructor.
    + intros (t1 & t2 & -> & H & G). apply char_inv in G; auto. destruct G as (t0 & -> & G).
      exists t1, t0. rewrite <- app_assoc. auto.
Qed.

Lemma last_split : forall (c : list wtoken), last c AnyChar = AnySeq -> exists c', c = c' ++ [AnySeq].
Proof.
  intros c H. destruct c as [|x c]; [discriminate|].
  exists (removelast (x :: c)). rewrite <- H. apply app_removelast_last. discriminate.
Qed.

Lemma compact_spec : forall toks acc t, tmatch (fold_left compact_step toks acc) t <-> tmatch (acc ++ toks) t.
Proof.
  induction toks as [|x toks IH]; intros acc t; cbn [fold_left]; [now rewrite app_nil_r|].
  rewrite IH.
  assert (D : tmatch ((acc ++ [x]) ++ toks) t <-> tmatch (acc ++ x :: toks) t) by (rewrite <- app_assoc; tauto).
  destruct x; cbn [compact_step]; auto.
  destruct (last acc AnyChar) eqn:E; auto.
  apply last_split in E. destruct E as (c' & ->). rewrite <- !app_assoc. cbn. rewrite !tmatch_app. split.
  - intros (t1 & t2 & -> & H1 & (pre & t' & -> & H2)). exists t1, (pre ++ t'). repeat split; auto.
    exists pre, t'. split; auto. exists [], t'. auto.
  - intros (t1 & t2 & -> & H1 & (pre & t' & -> & (pre' & t'' & -> & H2))).
    exists t1, (pre ++ pre' ++ t''). repeat split; auto. exists (pre ++ pre'), t''. now rewrite <- app_assoc.
Qed.

Lemma compile_spec : forall p t, tmatch (compile p) t <-> glob p t.
Proof.
  intros p t. unfold compile. rewrite compact_spec. cbn [app]. rewrite (tokenize_spec (length p)) by lia. split.
  - intros (t1 & t2 & -> & H & G). cbn in H. subst t1. exact G.
  - intros G. exists [], t. cbn. auto.
Qed.

(** ** The matching loop *)

Lemma strip_spec : forall l t t', strip l t = Some t' <-> t = l ++ t'.
Proof.
  induction l as [|a l IH]; intros t t'; cbn.
  - split; congruence.
  - destruct t as [|b t]; [split; discriminate|]. destruct (N.eqb a b) eqn:E.
    + apply N.eqb_eq in E. subst b. rewrite IH. split; congruence.
    + apply N.eqb_neq in E. split; [discriminate|]. congruence.
Qed.

(** Star-free tokens consume a fixed number of characters. *)
Fixpoint starfree (toks : list wtoken) : Prop :=
  match toks with [] => True | AnySeq :: _ => False | _ :: r => starfree r end.
Fixpoint width (toks : list wtoken) : nat :=
  match toks with [] => 0 | AnySeq :: r => width r | AnyChar :: r => 1 + width r | Lit l :: r => length l + width r end.
Lemma starfree_app : forall a b, starfree (a ++ b) <-> starfree a /\ starfree b.
Proof. induction a as [|[]]; cbn; intros b; rewrite ?IHa; tauto. Qed.
Lemma width_app : forall a b, width (a ++ b) = width a + width b.
Proof. induction a as [|[]]; cbn; intros b; rewrite ?IHa; lia. Qed.
Lemma tmatch_width : forall toks t, starfree toks -> tmatch toks t -> length t = width toks.
Proof.
  induction toks as [|[| |l] toks IH]; cbn; intros t F H; subst; auto; try contradiction.
  - destruct H as (c & t' & -> & H). cbn. rewrite (IH t'); auto.
  - destruct H as (t' & -> & H). rewrite app_length, (IH t'); auto.
Qed.

(** The invariant relating the current attempt to the last star. *)
Definition inv (toks : list wtoken) (t : text) (retry : option (list wtoken * text)) : Prop :=
  match retry with
  | None => True
  | Some (rt, rs) => exists mid m, rt = mid ++ toks /\ rs = m ++ t /\ starfree mid /\ length m = width mid
  end.
(** What is left to find. *)
Definition goal_of (toks : list wtoken) (t : text) (retry : option (list wtoken * text)) : Prop :=
  tmatch toks t \/
  match retry with
  | None => False
  | Some (rt, rs) => exists c pre t', rs = (c :: pre) ++ t' /\ tmatch rt t'
  end.

Definition measure (T M : nat) (toks : list wtoken) (t : text) (retry : option (list wtoken * text)) : nat :=
  match retry with
  | None => (S T * S M) * S T + length toks
  | Some (rt, rs) => (length rt * S M + length rs) * S T + length toks
  end.

Lemma fail_goal : forall toks t rt c rest,
  ~ tmatch toks t ->
  (goal_of toks t (Some (rt, c :: rest)) <-> goal_of rt rest (Some (rt, rest))).
Proof.
  intros toks t rt c rest N. unfold goal_of. split.
  - intros [H|(c' & pre & t' & E & H)]; [contradiction|]. cbn in E. inversion E; subst.
    destruct pre as [|d pre]; [left; exact H|]. right. exists d, pre, t'. auto.
  - intros [H|(c' & pre & t' & E & H)]; right.
    + exists c, [], rest. auto.
    + exists c, (c' :: pre), t'. rewrite E. auto.
Qed.

Lemma fail_goal_end : forall toks t retry, ~ tmatch toks t ->
  (retry = None \/ exists rt, retry = Some (rt, [])) -> ~ goal_of toks t retry.
Proof.
  intros toks t retry N [->|(rt & ->)] [H|H]; auto. destruct H as (c & pre & t' & E & _). discriminate.
Qed.

Lemma loop_ok : forall T M fuel toks t retry,
  inv toks t retry ->
  length toks <= T -> length t <= M ->
  match retry with Some (rt, rs) => length rt <= T /\ length rs <= M | None => True end ->
  measure T M toks t retry < fuel ->
  exists b, match_loop fuel toks t retry = Some b /\ (b = true <-> goal_of toks t retry).
Proof.
  intros T M. induction fuel as [|fuel IH]; intros toks t retry I HT HS HR MM; [lia|].
  (* the failure continuation *)
  assert (FAIL : ~ tmatch toks t ->
    exists b, match retry with
        | Some (rt, _ :: rest) => match_loop fuel rt rest (Some (rt, rest))
        | _ => Some false
        end = Some b /\ (b = true <-> goal_of toks t retry)).
  { intros N. destruct retry as [[rt [|c rest]]|].
    - exists false. split; auto. split; [discriminate|]. intros G. exfalso. revert G. apply fail_goal_end; eauto.
    - destruct (IH rt rest (Some (rt, rest))) as (b & E & B).
      + exists [], []. cbn. auto.
      + tauto.
      + cbn in HR. lia.
      + cbn in HR. split; lia.
      + cbn [measure length] in *. destruct HR as [HR1 HR2].
        assert ((length rt * S M + S (length rest)) * S T =
                (length rt * S M + length rest) * S T + S T) by ring. lia.
      + exists b. split; auto. rewrite B. symmetry. now apply fail_goal.
    - exists false. split; auto. split; [discriminate|]. intros G. exfalso. revert G. apply fail_goal_end; auto. }
  cbn [match_loop]. destruct toks as [|[| |l] toks'].
  - (* end of the pattern *)
    destruct t as [|c t].
    + exists true. split; auto. split; auto. intros _. left. reflexivity.
    + apply FAIL. discriminate.
  - (* a star *)
    destruct (IH toks' t (Some (toks', t))) as (b & E & B).
    + exists [], []. cbn. auto.
    + cbn in HT. lia.
    + exact HS.
    + cbn in HT. split; lia.
    + assert (X : length toks' * S M + length t < S (length toks') * S M) by (cbn; lia).
      cbn [length] in HT.
      assert (Y : forall K, S (length toks') * S M <= K ->
                   (length toks' * S M + length t) * S T + length toks' < K * S T).
      { intros K HK. assert ((length toks' * S M + length t + 1) * S T <= K * S T)
          by (apply Nat.mul_le_mono_r; lia). lia. }
      unfold measure in MM |- *. destruct retry as [[rt rs]|].
      * destruct I as (mid & m & -> & -> & _). rewrite !app_length in *. cbn [length] in *.
        specialize (Y ((length mid + S (length toks')) * S M + (length m + length t))).
        assert (S (length toks') * S M <= (length mid + S (length toks')) * S M)
          by (apply Nat.mul_le_mono_r; lia).
        lia.
      * specialize (Y (S T * S M)).
        assert (S (length toks') * S M <= S T * S M) by (apply Nat.mul_le_mono_r; lia).
        lia.
    + exists b. split; auto. rewrite B. unfold goal_of. split.
      * intros [H|(c & pre & t' & -> & H)]; left; cbn.
        -- exists [], t. auto.
        -- exists (c :: pre), t'. auto.
      * assert (G : forall pre t', t = pre ++ t' -> tmatch toks' t' ->
             tmatch toks' t \/ (exists c pre t', t = (c :: pre) ++ t' /\ tmatch toks' t')).
        { intros [|c pre] t' -> H; [left; exact H|right]. exists c, pre, t'. auto. }
        intros [(pre & t' & E' & H)|H]; [eapply G; eauto|].
        destruct retry as [[rt rs]|]; [|contradiction].
        destruct I as (mid & m & -> & -> & F & W). destruct H as (c & pre & t' & E' & H).
        apply tmatch_app in H. destruct H as (t1 & t2 & -> & H1 & (pre2 & t3 & -> & H2)).
        pose proof (tmatch_width _ _ F H1) as W1.
        (* m ++ t = c :: pre ++ t1 ++ pre2 ++ t3, |m| = |t1| *)
        assert (L : t = skipn (length m) ((c :: pre) ++ t1 ++ pre2 ++ t3))
          by (rewrite <- E'; rewrite skipn_app, Nat.sub_diag, skipn_all; reflexivity).
        assert (L2 : exists q, t = q ++ t3).
        { exists (skipn (length m) ((c :: pre) ++ t1 ++ pre2)). rewrite L.
          replace ((c :: pre) ++ t1 ++ pre2 ++ t3) with (((c :: pre) ++ t1 ++ pre2) ++ t3) by now rewrite <- !app_assoc.
          rewrite skipn_app. f_equal.
          replace (length m - length ((c :: pre) ++ t1 ++ pre2)) with 0; [reflexivity|].
          rewrite !app_length. cbn [length]. lia. }
        destruct L2 as (q & Eq). eapply G; eauto.
  - (* one character *)
    destruct t as [|c t].
    + apply FAIL. intros (c & t' & E & _). discriminate.
    + cbn [length] in *. destruct (IH toks' t retry) as (b & E & B); try lia; auto.
      * destruct retry as [[rt rs]|]; auto. destruct I as (mid & m & -> & -> & F & W).
        exists (mid ++ [AnyChar]), (m ++ [c]). rewrite <- !app_assoc, starfree_app, width_app, app_length. cbn. repeat split; auto; lia.
      * unfold measure in *. destruct retry as [[rt rs]|]; cbn [length] in MM; lia.
      * exists b. split; auto. rewrite B. unfold goal_of. cbn. split.
        -- intros [H|H]; [left; exists c, t; auto|right; exact H].
        -- intros [(c' & t' & E' & H)|H]; [left; congruence|right; exact H].
  - (* a literal run *)
    destruct (strip l t) as [t'|] eqn:E.
    + apply strip_spec in E. subst t. rewrite app_length in HS. cbn [length] in *.
      destruct (IH toks' t' retry) as (b & E & B); try lia; auto.
      * destruct retry as [[rt rs]|]; auto. destruct I as (mid & m & -> & -> & F & W).
        exists (mid ++ [Lit l]), (m ++ l). rewrite <- !app_assoc, starfree_app, width_app, app_length. cbn. repeat split; auto; lia.
      * unfold measure in *. destruct retry as [[rt rs]|]; cbn [length] in MM; lia.
      * exists b. split; auto. rewrite B. unfold goal_of. cbn. split.
        -- intros [H|H]; [left; exists t'; auto|right; exact H].
        -- intros [(t2 & E' & H)|H]; [left; apply app_inv_head in E'; now subst t2|right; exact H].
    + apply FAIL. intros (t' & E' & _). apply strip_spec in E'. congruence.
Qed.

Lemma matches_spec : forall toks t, exists b, matches_folded toks t = Some b /\ (b = true <-> tmatch toks t).
Proof.
  intros toks t. unfold matches_folded.
  destruct (loop_ok (length toks) (length t) (match_fuel toks t) toks t None) as (b & E & B).
  - exact I.
  - auto.
  - auto.
  - exact I.
  - unfold measure, match_fuel. lia.
  - exists b. split; auto. rewrite B. unfold goal_of. tauto.
Qed.

Lemma wildcard_spec : forall lower p t, exists b,
  wildcard_pattern_match lower p t = Some b /\ (b = true <-> glob (lower p) (lower t)).
Proof.
  intros lower p t. unfold wildcard_pattern_match. destruct (matches_spec (compile (lower p)) (lower t)) as (b & E & B).
  exists b. split; auto. rewrite B. apply compile_spec.
Qed.

Lemma glob_plain : forall p, plain p -> forall t, glob p t <-> p = t.
Proof.
  induction p as [|c p IH]; intros (P1 & P2 & P3) t.
  - split; [intros H; now inversion H|]. intros <-. constructor.
  - cbn in P1, P2, P3. assert (plain p) by (unfold plain; tauto). split.
    + intros H0. inversion H0; subst; try (exfalso; tauto). f_equal. now apply IH.
    + intros <-. constructor; try (intros ->; tauto). now apply IH.
Qed.

(** A literal text, escaped, matches exactly itself. *)
Fixpoint escape (t : text) : text :=
  match t with [] => [] | c :: r => 126%N :: c :: escape r end.
Lemma glob_escape : forall s t, glob (escape s) t <-> s = t.
Proof.
  induction s as [|c s IH]; intros t; cbn.
  - split; [intros H; now inversion H|]. intros <-. constructor.
  - split.
    + intros H. inversion H; subst; try (exfalso; congruence). f_equal. now apply IH.
    + intros <-. constructor. now apply IH.
Qed.
