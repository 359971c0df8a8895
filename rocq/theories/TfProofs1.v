(** Lemmas about the searches of TfModel: prefixes, first occurrences, pieces. *)
From Coq Require Import ZifyN ZifyNat ZifyBool.
From Verif Require Import Base Maps NuModel TfModel TfSpec.
Local Open Scope Z_scope.

Lemma starts_app : forall p r, starts p (p ++ r) = true.
Proof. induction p as [|c p IH]; intros r; cbn; [reflexivity|]. rewrite N.eqb_refl. apply IH. Qed.

Lemma starts_inv : forall p s, starts p s = true -> exists r, s = p ++ r.
Proof.
  induction p as [|c p IH]; intros s H; cbn in *.
  - exists s. reflexivity.
  - destruct s as [|x s]; [discriminate|]. apply andb_prop in H. destruct H as [H1 H2].
    apply N.eqb_eq in H1. subst x. destruct (IH _ H2) as [r ->]. exists r. reflexivity.
Qed.

Lemma skipn_app_len : forall (p r : text), skipn (length p) (p ++ r) = r.
Proof. induction p; intros r; cbn; auto. Qed.
Lemma firstn_app_len : forall (p r : text), firstn (length p) (p ++ r) = p.
Proof. induction p; intros r; cbn; [reflexivity|]. f_equal. apply IHp. Qed.

Lemma cut_some : forall p s a b, cut p s = Some (a, b) ->
  s = a ++ p ++ b /\ forall a' b', s = a' ++ p ++ b' -> (length a <= length a')%nat.
Proof.
  intros p s. induction s as [|c s IH]; intros a b H.
  - cbn [cut] in H. destruct (starts p []) eqn:E; [|discriminate].
    apply starts_inv in E. destruct E as [r Er]. injection H as <- <-.
    split; [|intros; cbn; lia]. cbn. rewrite Er, skipn_app_len. reflexivity.
  - cbn [cut] in H. destruct (starts p (c :: s)) eqn:E.
    + apply starts_inv in E. destruct E as [r Er]. injection H as <- <-.
      split; [|intros; cbn; lia]. rewrite Er, skipn_app_len. reflexivity.
    + destruct (cut p s) as [[a0 b0]|]; [|discriminate]. injection H as <- <-.
      destruct (IH _ _ eq_refl) as [H1 H2]. split.
      * cbn. f_equal. exact H1.
      * intros a' b' H'. destruct a' as [|x a'].
        -- cbn in H'. rewrite H' in E. rewrite starts_app in E. discriminate.
        -- cbn in H'. injection H' as _ H'. apply H2 in H'. cbn. lia.
Qed.

Lemma cut_none : forall p s, cut p s = None -> ~ within p s.
Proof.
  intros p s. induction s as [|c s IH]; intros H [a [b E]].
  - cbn [cut] in H. destruct (starts p []) eqn:Es; [discriminate|].
    destruct a; [|discriminate]. cbn in E. rewrite E, starts_app in Es. discriminate.
  - cbn [cut] in H. destruct (starts p (c :: s)) eqn:Es; [discriminate|].
    destruct (cut p s) as [[a0 b0]|]; [discriminate|].
    destruct a as [|x a].
    + cbn in E. rewrite E, starts_app in Es. discriminate.
    + cbn in E. injection E as _ E. apply IH; [reflexivity|]. exists a, b. exact E.
Qed.

Lemma app_len_inj : forall (a b a' b' : text),
  a ++ b = a' ++ b' -> length a = length a' -> a = a' /\ b = b'.
Proof.
  induction a as [|x a IH]; intros b [|y a'] b' H L; cbn in *; try discriminate; [auto|].
  injection H as -> H. injection L as L. destruct (IH _ _ _ H L) as [-> ->]. auto.
Qed.

Lemma cut_first : forall p a b,
  (forall a' b', a ++ p ++ b = a' ++ p ++ b' -> (length a <= length a')%nat) ->
  cut p (a ++ p ++ b) = Some (a, b).
Proof.
  intros p a b H. destruct (cut p (a ++ p ++ b)) as [[a1 b1]|] eqn:E.
  - destruct (cut_some _ _ _ _ E) as [H1 H2].
    pose proof (H _ _ H1) as L1. pose proof (H2 _ _ eq_refl) as L2.
    destruct (app_len_inj _ _ _ _ H1) as [-> H3]; [lia|].
    apply app_inv_head in H3. subst. reflexivity.
  - exfalso. apply (cut_none _ _ E). exists a, b. reflexivity.
Qed.

Lemma cut_not : forall p s, ~ within p s -> cut p s = None.
Proof.
  intros p s H. destruct (cut p s) as [[a b]|] eqn:E; [|reflexivity].
  exfalso. apply H. destruct (cut_some _ _ _ _ E) as [-> _]. exists a, b. reflexivity.
Qed.

(** * Pieces *)

Lemma pieces_ne : forall d s ps, pieces d s ps -> ps <> [].
Proof. intros d s ps H. destruct H; discriminate. Qed.

Lemma pieces_exist : forall d s, d <> [] -> exists ps, pieces d s ps.
Proof.
  intros d s Hd. remember (length s) as n eqn:En. revert s En.
  induction n as [n IH] using lt_wf_ind. intros s ->.
  destruct (cut d s) as [[a b]|] eqn:E.
  - destruct (cut_some _ _ _ _ E) as [H1 H2].
    destruct (IH (length b)) with (s := b) as [ps Hp]; [|reflexivity|].
    + rewrite H1, !app_length. destruct d; [congruence|]. cbn. lia.
    + exists (a :: ps). rewrite H1. constructor; [|exact Hp].
      intros a' r' Ea. apply (H2 a' r'). rewrite H1. exact Ea.
  - exists [s]. constructor. apply cut_none. exact E.
Qed.

Lemma pieces_unique : forall d s ps, d <> [] -> pieces d s ps ->
  forall qs, pieces d s qs -> ps = qs.
Proof.
  intros d s ps Hd H. induction H as [s Hn|a r ps Hf Hp IH]; intros qs Hq.
  - inversion Hq as [s' Hn' E1 E2|a r ps Hf Hp E1 E2]; subst; [reflexivity|].
    exfalso. apply Hn. exists a, r. reflexivity.
  - inversion Hq as [s' Hn' E1 E2|a1 r1 qs1 Hf1 Hp1 E1 E2]; subst.
    + exfalso. apply Hn'. exists a, r. reflexivity.
    + pose proof (Hf1 _ _ E1). pose proof (Hf _ _ (eq_sym E1)).
      destruct (app_len_inj _ _ _ _ E1) as [-> E3]; [lia|].
      apply app_inv_head in E3. subst r1. f_equal. apply IH. exact Hp1.
Qed.

Lemma join_cons : forall d a ps, ps <> [] -> join d (a :: ps) = a ++ d ++ join d ps.
Proof. intros d a [|p ps] H; [congruence|reflexivity]. Qed.

Lemma pieces_join : forall d s ps, pieces d s ps -> join d ps = s.
Proof.
  intros d s ps H. induction H as [s Hn|a r ps Hf Hp IH]; [reflexivity|].
  rewrite join_cons by (apply (pieces_ne _ _ _ Hp)). rewrite IH. reflexivity.
Qed.

Lemma pieces_clean : forall d s ps, d <> [] -> pieces d s ps -> Forall (fun p => ~ within d p) ps.
Proof.
  intros d s ps Hd H. induction H as [s Hn|a r ps Hf Hp IH]; constructor; auto.
  intros [x [y E]]. assert (a ++ d ++ r = x ++ d ++ (y ++ d ++ r)) as E2.
  { rewrite E at 1. rewrite <- !app_assoc. reflexivity. }
  apply Hf in E2. rewrite E, !app_length in E2. destruct d; [congruence|]. cbn in E2. lia.
Qed.

Lemma join_split : forall d ps i, (0 < i < length ps)%nat ->
  join d ps = join d (firstn i ps) ++ d ++ join d (skipn i ps).
Proof.
  intros d ps. induction ps as [|p ps IH]; intros i Hi; [cbn in Hi; lia|].
  destruct i as [|i]; [lia|]. cbn [firstn skipn]. cbn in Hi.
  assert (ps <> []) as Hn by (destruct ps; [cbn in Hi; lia|discriminate]).
  rewrite join_cons by exact Hn.
  destruct i as [|i].
  - cbn. reflexivity.
  - rewrite (IH (S i)) by lia.
    rewrite (join_cons d p (firstn (S i) ps)).
    + rewrite <- !app_assoc. reflexivity.
    + destruct ps; [congruence|]. discriminate.
Qed.

(** * match_indices *)

Lemma matches_pieces : forall d s ps, d <> [] -> pieces d s ps ->
  forall fuel pre, (length s < fuel)%nat ->
  S (length (matches fuel d pre s)) = length ps /\
  forall i m, nth_error (matches fuel d pre s) i = Some m ->
    m = (pre ++ join d (firstn (S i) ps), join d (skipn (S i) ps)).
Proof.
  intros d s ps Hd H. induction H as [s Hn|a r ps Hf Hp IH]; intros fuel pre Hl.
  - destruct fuel as [|f]; [lia|]. cbn [matches]. rewrite (cut_not _ _ Hn). cbn.
    split; [reflexivity|]. intros [|i] m Hm; discriminate.
  - destruct fuel as [|f]; [lia|]. cbn [matches]. rewrite (cut_first _ _ _ Hf).
    destruct (IH f (pre ++ a ++ d)) as [L N].
    { rewrite !app_length in Hl. destruct d; [congruence|]. cbn in Hl. lia. }
    split; [cbn [length]; rewrite L; reflexivity|].
    intros [|i] m Hm.
    + cbn in Hm. injection Hm as <-. cbn [firstn skipn join]. f_equal.
      symmetry. apply (pieces_join _ _ _ Hp).
    + cbn in Hm. apply N in Hm. rewrite Hm. f_equal.
      change (firstn (S (S i)) (a :: ps)) with (a :: firstn (S i) ps).
      rewrite join_cons.
      * rewrite <- !app_assoc. reflexivity.
      * destruct ps; [|discriminate]. exfalso. apply (pieces_ne _ _ _ Hp). reflexivity.
Qed.

Lemma indices_pieces : forall d s ps, d <> [] -> pieces d s ps ->
  length (match_indices d s) = (length ps - 1)%nat /\
  forall i, (i < length ps - 1)%nat ->
    nth_error (match_indices d s) i = Some (join d (firstn (S i) ps), join d (skipn (S i) ps)).
Proof.
  intros d s ps Hd H. unfold match_indices.
  destruct (matches_pieces d s ps Hd H (S (length s)) []) as [L N]; [lia|].
  split; [lia|]. intros i Hi.
  destruct (nth_error (matches (S (length s)) d [] s) i) eqn:E.
  - rewrite (N _ _ E). reflexivity.
  - apply nth_error_None in E. lia.
Qed.

(** * SUBSTITUTE *)

Lemma replace_skip : forall s k p q, replace_go k p q s = replace_go 0 p q (skipn k s).
Proof.
  induction s as [|c s IH]; intros k p q.
  - rewrite skipn_nil. destruct k; reflexivity.
  - destruct k as [|k]; [reflexivity|]. cbn [replace_go skipn]. apply IH.
Qed.

Lemma replace_cut : forall s p q, p <> [] ->
  replace p q s = match cut p s with Some (a, b) => a ++ q ++ replace p q b | None => s end.
Proof.
  intros s p q Hp. unfold replace. induction s as [|c s IH].
  - destruct p; [congruence|]. reflexivity.
  - cbn [replace_go cut]. destruct (starts p (c :: s)) eqn:E.
    + cbn [app]. rewrite replace_skip. f_equal. f_equal.
      destruct p as [|x p]; [congruence|]. cbn. rewrite Nat.sub_0_r. reflexivity.
    + rewrite IH. destruct (cut p s) as [[a b]|]; reflexivity.
Qed.

Lemma replace_pieces : forall d q s ps, d <> [] -> pieces d s ps -> replace d q s = join q ps.
Proof.
  intros d q s ps Hd H. induction H as [s Hn|a r ps Hf Hp IH]; rewrite replace_cut by exact Hd.
  - rewrite (cut_not _ _ Hn). reflexivity.
  - rewrite (cut_first _ _ _ Hf), IH. rewrite join_cons by (apply (pieces_ne _ _ _ Hp)). reflexivity.
Qed.

Lemma nth_go_pieces : forall d q whole s ps, d <> [] -> pieces d s ps ->
  forall fuel out count k, (length s < fuel)%nat -> count < k ->
  nth_go fuel d q whole s out count k =
    (if k - count <? Z.of_nat (length ps)
     then out ++ join d (firstn (Z.to_nat (k - count)) ps) ++ q
              ++ join d (skipn (Z.to_nat (k - count)) ps)
     else whole).
Proof.
  intros d q whole s ps Hd H. induction H as [s Hn|a r ps Hf Hp IH]; intros fuel out count k Hl Hk.
  - destruct fuel as [|f]; [lia|]. cbn [nth_go]. rewrite (cut_not _ _ Hn). cbn [length].
    destruct (k - count <? Z.of_nat 1) eqn:E; [lia|reflexivity].
  - destruct fuel as [|f]; [lia|]. cbn [nth_go]. rewrite (cut_first _ _ _ Hf).
    pose proof (pieces_ne _ _ _ Hp) as Hne.
    destruct (count + 1 =? k) eqn:E.
    + apply Z.eqb_eq in E. subst k. replace (count + 1 - count) with 1 by lia.
      change (Z.to_nat 1) with 1%nat. cbn [firstn skipn join].
      match goal with |- context [if ?c then _ else _] => destruct c eqn:E2 end.
      * rewrite (pieces_join _ _ _ Hp). reflexivity.
      * destruct ps; [congruence|]. cbn in E2. lia.
    + rewrite IH; [| |lia].
      2:{ rewrite !app_length in Hl. destruct d; [congruence|]. cbn in Hl. lia. }
      replace (Z.to_nat (k - count)) with (S (Z.to_nat (k - (count + 1)))) by lia.
      cbn [firstn skipn length].
      match goal with |- (if ?c then _ else _) = (if ?e then _ else _) =>
        destruct c eqn:E2; destruct e eqn:E3 end; try lia; [|reflexivity].
      rewrite (join_cons d a).
      * rewrite <- !app_assoc. reflexivity.
      * destruct (Z.to_nat (k - (count + 1))) eqn:Ek; [lia|]. destruct ps; [congruence|discriminate].
Qed.

Lemma join_length : forall d q ps, ps <> [] ->
  len (join q ps) = len (join d ps) + (Z.of_nat (length ps) - 1) * (len q - len d).
Proof.
  intros d q ps. unfold len. induction ps as [|p ps IH]; intros Hn; [congruence|].
  destruct ps as [|p2 ps]; [cbn; lia|].
  rewrite !(join_cons _ p (p2 :: ps)) by discriminate.
  rewrite !app_length. assert (p2 :: ps <> []) as H2 by discriminate. apply IH in H2.
  cbn [length] in *. nia.
Qed.
