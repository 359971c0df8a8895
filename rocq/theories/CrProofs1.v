(** The wildcard matcher of criteria. *)
From Coq Require Import ZifyN ZifyNat ZifyBool QArith.
From Verif Require Import Base Maps WildModel WildSpec WildProofs CrModel CrSpec.
Close Scope Q_scope.

Lemma existsb_In : forall c s, has c s = true <-> In c s.
Proof.
  intros c s. unfold has. rewrite existsb_exists. split.
  - intros (x & H & E). apply N.eqb_eq in E. now subst.
  - intros H. exists c. split; [assumption | apply N.eqb_refl].
Qed.
Lemma has_false : forall c s, has c s = false <-> ~ In c s.
Proof. intros c s. rewrite <- existsb_In. destruct (has c s); split; intros; congruence. Qed.

Lemma teqb : forall a b, text_eqb a b = true <-> a = b.
Proof.
  intros a b. pose proof (text_eqb_spec a b) as H. destruct (text_eqb a b); split; intros; auto; try discriminate.
  - now apply H.
  - apply H in H0. discriminate.
Qed.

(** * One step of the matcher *)
Lemma helper_star : forall p t,
  helper (STAR :: p) t = true <-> exists pre u, t = pre ++ u /\ helper p u = true.
Proof.
  intros p t. cbn [helper]. rewrite N.eqb_refl. split.
  - induction t as [|a t IH]; intros H.
    + apply orb_true_iff in H. destruct H as [H|H]; [|discriminate]. exists [], []. auto.
    + apply orb_true_iff in H. destruct H as [H|H].
      * exists [], (a :: t). auto.
      * destruct (IH H) as (pre & u & -> & G). exists (a :: pre), u. auto.
  - intros (pre & u & -> & H). induction pre as [|a pre IH].
    + destruct u; cbn [app]; rewrite H; reflexivity.
    + cbn [app]. rewrite IH. apply orb_true_r.
Qed.

Lemma helper_char : forall c p t, c <> STAR -> c <> QUEST ->
  (helper (c :: p) t = true <-> exists u, t = c :: u /\ helper p u = true).
Proof.
  intros c p t H1 H2. cbn [helper]. apply N.eqb_neq in H1, H2. rewrite H1, H2. destruct t as [|d t].
  - split; [discriminate|]. intros (u & E & _). discriminate.
  - rewrite andb_true_iff, N.eqb_eq. split.
    + intros (-> & H). eauto.
    + intros (u & E & H). injection E as -> ->. auto.
Qed.
Lemma helper_quest : forall p t,
  helper (QUEST :: p) t = true <-> exists c u, t = c :: u /\ helper p u = true.
Proof.
  intros p t. cbn [helper]. change (N.eqb QUEST STAR) with false. cbn iota. rewrite N.eqb_refl.
  destruct t as [|d t]; split; intros H; try discriminate.
  - destruct H as (c & u & E & _). discriminate.
  - eauto.
  - destruct H as (c & u & E & H). now injection E as -> ->.
Qed.

Lemma helper_lit : forall l q t, (forall c, In c l -> c <> STAR /\ c <> QUEST) ->
  (helper (l ++ q) t = true <-> exists u, t = l ++ u /\ helper q u = true).
Proof.
  induction l as [|c l IH]; intros q t H.
  - cbn [app]. split; [eauto | intros (u & -> & G); exact G].
  - cbn [app]. destruct (H c (or_introl eq_refl)) as [H1 H2]. rewrite helper_char by assumption. split.
    + intros (u & -> & G). apply IH in G; [|intros; apply H; now right]. destruct G as (u' & -> & G). eauto.
    + intros (u & -> & G). exists (l ++ u). split; [reflexivity|]. apply IH; [intros; apply H; now right|]. eauto.
Qed.

(** On the characters themselves the matcher is the meaning of the pattern. *)
Lemma helper_glob : forall p t, ~ In TILDE p -> (helper p t = true <-> glob p t).
Proof.
  induction p as [|c p IH]; intros t H.
  - destruct t; cbn; split; intros G; try discriminate; try constructor; inversion G.
  - assert (Hp : ~ In TILDE p) by (intros X; apply H; now right).
    assert (Hc : c <> TILDE) by (intros ->; apply H; now left).
    destruct (N.eq_dec c STAR) as [->|H1]; [|destruct (N.eq_dec c QUEST) as [->|H2]].
    + rewrite helper_star. split.
      * intros (pre & u & -> & G). apply IH in G; [|assumption]. now constructor.
      * intros G. apply star_inv in G. destruct G as (pre & u & -> & G). exists pre, u. split; [reflexivity|]. now apply IH.
    + rewrite helper_quest. split.
      * intros (x & u & -> & G). apply IH in G; [|assumption]. now constructor.
      * intros G. apply quest_inv in G. destruct G as (x & u & -> & G). exists x, u. split; [reflexivity|]. now apply IH.
    + rewrite helper_char by assumption. split.
      * intros (u & -> & G). apply IH in G; [|assumption]. now constructor.
      * intros G. apply char_inv in G; [|assumption..]. destruct G as (u & -> & G). exists u. split; [reflexivity|]. now apply IH.
Qed.

(** * UTF-8 *)
Definition cont (b : N) : Prop := (128 <= b < 192)%N.

Lemma utf8_shape : forall c, (c < 1114112)%N ->
  exists b k, utf8 c = b :: k /\ ~ cont b /\ Forall cont k /\ ((b < 128 /\ b = c)%N \/ (192 <= b /\ 128 <= c)%N).
Proof.
  intros c H. unfold utf8, cont.
  destruct (N.ltb_spec c 128); [exists c, []; repeat split; try lia; auto|].
  destruct (N.ltb_spec c 2048).
  { eexists _, _. split; [reflexivity|]. repeat split; try lia.
    repeat constructor; pose proof (N.mod_lt c 64); lia. }
  destruct (N.ltb_spec c 65536).
  { eexists _, _. split; [reflexivity|]. repeat split; try lia.
    repeat constructor; pose proof (N.mod_lt c 64); pose proof (N.mod_lt (c / 64) 64); lia. }
  eexists _, _. split; [reflexivity|]. repeat split; try lia.
  repeat constructor; pose proof (N.mod_lt c 64); pose proof (N.mod_lt (c / 64) 64); pose proof (N.mod_lt (c / 4096) 64); lia.
Qed.

Definition decode (bs : list N) : N :=
  match bs with
  | [a] => a
  | [a; b] => (a - 192) * 64 + (b - 128)
  | [a; b; c] => (a - 224) * 4096 + (b - 128) * 64 + (c - 128)
  | [a; b; c; d] => (a - 240) * 262144 + (b - 128) * 4096 + (c - 128) * 64 + (d - 128)
  | _ => 0
  end%N.
Lemma div_split : forall c a b, (a <> 0 -> b <> 0 -> c / (a * b) = c / a / b)%N.
Proof. intros. symmetry. apply N.div_div; lia. Qed.
Lemma decode_utf8 : forall c, decode (utf8 c) = c.
Proof.
  intros c. unfold utf8.
  pose proof (N.div_mod' c 64) as E1. pose proof (N.mod_lt c 64) as L1.
  pose proof (N.div_mod' (c / 64) 64) as E2. pose proof (N.mod_lt (c / 64) 64) as L2.
  pose proof (N.div_mod' (c / 4096) 64) as E3. pose proof (N.mod_lt (c / 4096) 64) as L3.
  pose proof (div_split c 64 64 ltac:(lia) ltac:(lia)) as D1. change (64 * 64)%N with 4096%N in D1.
  pose proof (div_split c 4096 64 ltac:(lia) ltac:(lia)) as D2. change (4096 * 64)%N with 262144%N in D2.
  destruct (N.ltb_spec c 128); [reflexivity|].
  destruct (N.ltb_spec c 2048); [cbn [decode]; lia|].
  destruct (N.ltb_spec c 65536); cbn [decode]; lia.
Qed.

Definition width (b : N) : nat := if (b <? 192)%N then 1 else if (b <? 224)%N then 2 else if (b <? 240)%N then 3 else 4.
Lemma utf8_width : forall c, (c < 1114112)%N -> exists b k, utf8 c = b :: k /\ length (utf8 c) = width b.
Proof.
  intros c H. unfold utf8, width.
  destruct (N.ltb_spec c 128).
  { eexists _, _. split; [reflexivity|]. replace (c <? 192)%N with true by (symmetry; apply N.ltb_lt; lia). reflexivity. }
  destruct (N.ltb_spec c 2048).
  { eexists _, _. split; [reflexivity|].
    assert (c / 64 < 32)%N by (apply N.div_lt_upper_bound; lia).
    replace (192 + c / 64 <? 192)%N with false by (symmetry; apply N.ltb_ge; lia).
    replace (192 + c / 64 <? 224)%N with true by (symmetry; apply N.ltb_lt; lia). reflexivity. }
  destruct (N.ltb_spec c 65536).
  { eexists _, _. split; [reflexivity|].
    assert (c / 4096 < 16)%N by (apply N.div_lt_upper_bound; lia).
    replace (224 + c / 4096 <? 192)%N with false by (symmetry; apply N.ltb_ge; lia).
    replace (224 + c / 4096 <? 224)%N with false by (symmetry; apply N.ltb_ge; lia).
    replace (224 + c / 4096 <? 240)%N with true by (symmetry; apply N.ltb_lt; lia). reflexivity. }
  eexists _, _. split; [reflexivity|].
  replace (240 + c / 262144 <? 192)%N with false by (symmetry; apply N.ltb_ge; lia).
  replace (240 + c / 262144 <? 224)%N with false by (symmetry; apply N.ltb_ge; lia).
  replace (240 + c / 262144 <? 240)%N with false by (symmetry; apply N.ltb_ge; lia). reflexivity.
Qed.

Lemma app_same_length : forall A (a b x y : list A), length a = length b -> a ++ x = b ++ y -> a = b /\ x = y.
Proof.
  induction a as [|h a IH]; intros [|k b] x y L E; cbn in *; try discriminate; auto.
  injection E as -> E. injection L as L. destruct (IH b x y L E). subst. auto.
Qed.
Lemma utf8_prefix : forall c d x y, (c < 1114112)%N -> (d < 1114112)%N ->
  utf8 c ++ x = utf8 d ++ y -> c = d /\ x = y.
Proof.
  intros c d x y Hc Hd E.
  destruct (utf8_width c Hc) as (b & k & Ec & Lc). destruct (utf8_width d Hd) as (b' & k' & Ed & Ld).
  assert (b = b') by (rewrite Ec, Ed in E; now injection E).
  apply app_same_length in E; [|now rewrite Lc, Ld; subst]. destruct E as [E1 E2]. split; [|assumption].
  rewrite <- (decode_utf8 c), <- (decode_utf8 d). now rewrite E1.
Qed.

Lemma ascii_bytes : forall t, ascii t -> bytes t = t.
Proof.
  induction t as [|c t IH]; intros H; [reflexivity|]. inversion H; subst. unfold bytes. cbn [flat_map].
  unfold utf8 at 1. replace (c <? 128)%N with true by (symmetry; now apply N.ltb_lt). cbn [app]. f_equal. now apply IH.
Qed.

Lemma helper_ascii : forall p t, code_points p -> ascii t -> helper (bytes p) t = helper p t.
Proof.
  induction p as [|c p IH]; intros t Hp Ht; [reflexivity|]. inversion Hp; subst.
  unfold bytes. cbn [flat_map]. fold (bytes p).
  destruct (utf8_shape c H1) as (b & k & E & _ & _ & [[Hb ->]|[Hb Hc]]).
  - assert (k = []).
    { revert E. unfold utf8. replace (c <? 128)%N with true by (symmetry; now apply N.ltb_lt). congruence. }
    subst k. rewrite E. cbn [app].
    destruct (N.eq_dec c STAR) as [->|N1]; [|destruct (N.eq_dec c QUEST) as [->|N2]].
    + apply eq_true_iff_eq. rewrite !helper_star. split; intros (pre & u & -> & G); exists pre, u; split; auto;
        [rewrite <- IH | rewrite IH]; auto; apply Forall_app in Ht; tauto.
    + apply eq_true_iff_eq. rewrite !helper_quest. split; intros (x & u & -> & G); exists x, u; split; auto;
        [rewrite <- IH | rewrite IH]; auto; inversion Ht; auto.
    + apply eq_true_iff_eq. rewrite !helper_char by assumption. split; intros (u & -> & G); exists u; split; auto;
        [rewrite <- IH | rewrite IH]; auto; inversion Ht; auto.
  - rewrite E. cbn [app]. apply eq_true_iff_eq.
    rewrite !helper_char by (unfold STAR, QUEST; lia).
    split; intros (u & -> & _); inversion Ht; lia.
Qed.

(** A suffix of the bytes of a text: whole characters, after the rest of one. *)
Lemma bytes_suffix : forall t pre u, code_points t -> bytes t = pre ++ u ->
  exists k t1 t2, t = t1 ++ t2 /\ u = k ++ bytes t2 /\ Forall cont k.
Proof.
  induction t as [|c t IH]; intros pre u Ht E.
  - cbn in E. symmetry in E. apply app_eq_nil in E. destruct E as [-> ->]. exists [], [], []. auto.
  - inversion Ht; subst. unfold bytes in E. cbn [flat_map] in E. fold (bytes t) in E.
    destruct (utf8_shape c H1) as (b & k & Eu & _ & Hk & _). destruct pre as [|a pre].
    { cbn [app] in E. exists [], [], (c :: t). split; [reflexivity|]. split; [|constructor]. cbn [app]. now rewrite <- E. }
    rewrite Eu in E. cbn [app] in E. injection E as -> E.
    assert (X : (exists k2, u = k2 ++ bytes t /\ Forall cont k2) \/ exists pre2, bytes t = pre2 ++ u).
    { clear - E Hk. revert pre E. induction k as [|x k IHk]; intros pre E.
      - right. exists pre. exact E.
      - destruct pre as [|y pre].
        + left. exists (x :: k). auto.
        + cbn [app] in E. injection E as -> E. inversion Hk; subst. now apply (IHk H2 pre). }
    destruct X as [(k2 & -> & Hk2)|(pre2 & Ep)].
    + exists k2, [c], t. auto.
    + destruct (IH pre2 u H2 Ep) as (k2 & t1 & t2 & -> & -> & Hk2). exists k2, (c :: t1), t2. auto.
Qed.

(** After the rest of a character only ['*'] can go on, and can skip it. *)
Lemma helper_rest : forall p k t, code_points p -> ~ In QUEST p -> k <> [] -> Forall cont k ->
  helper (bytes p) (k ++ bytes t) = true -> helper (bytes p) (bytes t) = true.
Proof.
  induction p as [|c p IH]; intros k t Hp Hq Hk Fk H.
  - destruct k; [congruence | discriminate].
  - inversion Hp; subst. unfold bytes in *. cbn [flat_map] in *. fold (bytes p) (bytes t) in *.
    destruct (N.eq_dec c STAR) as [->|N1].
    + change (utf8 STAR) with [STAR] in *. cbn [app] in *. apply helper_star in H. destruct H as (pre & u & E & G).
      apply helper_star.
      assert (X : (exists k2, u = k2 ++ bytes t /\ Forall cont k2) \/ exists pre2, bytes t = pre2 ++ u).
      { clear - E Fk. revert pre E. induction k as [|x k IHk]; intros pre E.
        - right. exists pre. exact E.
        - destruct pre as [|y pre].
          + left. exists (x :: k). auto.
          + cbn [app] in E. injection E as -> E. inversion Fk; subst. now apply (IHk H2 pre). }
      destruct X as [(k2 & -> & F2)|(pre2 & E2)].
      * exists [], (bytes t). split; [reflexivity|]. destruct k2 as [|x k2]; [exact G|].
        apply IH with (k := x :: k2); auto; [intros X; apply Hq; now right | discriminate].
      * exists pre2, u. auto.
    + assert (N2 : c <> QUEST) by (intros ->; apply Hq; now left).
      destruct (utf8_shape c H2) as (b & k' & Eu & Hb & _ & Hr). rewrite Eu in H. cbn [app] in H.
      apply helper_char in H; [| |]; try (unfold STAR, QUEST in *; lia).
      destruct H as (u & E & _). destruct k as [|x k]; [congruence|]. cbn [app] in E. injection E as -> _.
      inversion Fk; subst. contradiction.
Qed.

Lemma utf8_lit : forall c, (c < 1114112)%N -> c <> STAR -> c <> QUEST ->
  forall b, In b (utf8 c) -> b <> STAR /\ b <> QUEST.
Proof.
  intros c H N1 N2 b Hb. destruct (utf8_shape c H) as (b0 & k & E & _ & Fk & Hr). rewrite E in Hb.
  destruct Hb as [<-|Hb]; [unfold STAR, QUEST in *; lia|].
  pose proof (proj1 (Forall_forall _ _) Fk b Hb) as Hc. unfold cont in Hc. unfold STAR, QUEST. lia.
Qed.

Lemma helper_bytes : forall p t, code_points p -> code_points t -> ~ In QUEST p ->
  (helper (bytes p) (bytes t) = true <-> helper p t = true).
Proof.
  induction p as [|c p IH]; intros t Hp Ht Hq.
  - destruct t as [|d t]; [split; auto|]. inversion Ht; subst. unfold bytes. cbn [flat_map].
    destruct (utf8_shape d H1) as (b & k & E & _). rewrite E. cbn [app helper]. split; discriminate.
  - inversion Hp; subst. assert (Hq' : ~ In QUEST p) by (intros X; apply Hq; now right).
    unfold bytes at 1. cbn [flat_map]. fold (bytes p).
    destruct (N.eq_dec c STAR) as [->|N1].
    + change (utf8 STAR) with [STAR]. cbn [app]. rewrite !helper_star. split.
      * intros (pre & u & E & G). destruct (bytes_suffix t pre u Ht E) as (k & t1 & t2 & -> & -> & Fk).
        exists t1, t2. split; [reflexivity|]. apply Forall_app in Ht. apply IH; try tauto.
        destruct k as [|x k]; [exact G|]. apply helper_rest with (k := x :: k); auto. discriminate.
      * intros (t1 & t2 & -> & G). apply Forall_app in Ht. exists (bytes t1), (bytes t2). split; [|apply IH; tauto].
        unfold bytes. apply flat_map_app.
    + assert (N2 : c <> QUEST) by (intros ->; apply Hq; now left).
      rewrite helper_lit by (now apply utf8_lit). rewrite helper_char by assumption. split.
      * intros (u & E & G). destruct t as [|d t].
        { destruct (utf8_shape c H1) as (b & k & Eu & _). rewrite Eu in E. discriminate. }
        inversion Ht; subst. unfold bytes in E. cbn [flat_map] in E. fold (bytes t) in E.
        apply utf8_prefix in E; [|assumption..]. destruct E as [-> <-]. exists t. split; [reflexivity|]. now apply IH.
      * intros (u & -> & G). inversion Ht; subst. exists (bytes u). split; [reflexivity|]. now apply IH.
Qed.

(** * The fast paths *)
Lemma strip_app : forall a t, (exists u, t = a ++ u) <-> starts_with a t = true.
Proof.
  unfold starts_with. induction a as [|x a IH]; intros t.
  - cbn [strip]. split; [reflexivity|]. intros _. exists t. reflexivity.
  - destruct t as [|y t]; cbn [strip].
    + split; [intros (u & E); discriminate | discriminate].
    + destruct (N.eqb_spec x y) as [->|Hn].
      * rewrite <- IH. split; intros (u & E); [injection E as ->; now exists u | exists u; cbn; now rewrite E].
      * split; [intros (u & E); injection E; congruence | discriminate].
Qed.
Lemma ends_app : forall a t, (exists u, t = u ++ a) <-> ends_with a t = true.
Proof.
  intros a t. unfold ends_with. rewrite <- strip_app. split.
  - intros (u & ->). exists (rev u). apply rev_app_distr.
  - intros (u & E). exists (rev u). rewrite <- (rev_involutive t), E, rev_app_distr. now rewrite rev_involutive.
Qed.
Lemma contains_app : forall a t, (exists x y, t = x ++ a ++ y) <-> contains a t = true.
Proof.
  intros a t. split.
  - intros (x & y & ->). induction x as [|h x IH].
    + cbn [app]. assert (H : starts_with a (a ++ y) = true) by (apply strip_app; eauto).
      destruct (a ++ y); cbn [contains]; rewrite H; reflexivity.
    + cbn [app contains]. rewrite IH. apply orb_true_r.
  - induction t as [|h t IH]; cbn [contains]; rewrite orb_true_iff; intros [H|H].
    + apply strip_app in H. destruct H as (u & E). exists [], u. exact E.
    + discriminate.
    + apply strip_app in H. destruct H as (u & E). exists [], u. exact E.
    + destruct (IH H) as (x & y & ->). now exists (h :: x), y.
Qed.

Lemma lits : forall q, ~ In STAR q -> ~ In QUEST q -> forall c, In c q -> c <> STAR /\ c <> QUEST.
Proof. intros q H1 H2 c Hc. split; intros ->; contradiction. Qed.
Lemma helper_all : forall t, helper [STAR] t = true.
Proof. intros t. apply helper_star. exists t, []. split; [now rewrite app_nil_r | reflexivity]. Qed.
Lemma helper_text : forall q t, ~ In STAR q -> ~ In QUEST q -> (helper q t = true <-> t = q).
Proof.
  intros q t H1 H2. rewrite <- (app_nil_r q) at 1. rewrite helper_lit by (now apply lits). split.
  - intros (u & -> & G). destruct u; [now rewrite app_nil_r | discriminate].
  - intros ->. exists []. now rewrite app_nil_r.
Qed.

Lemma removelast_last : forall (p : text) x, removelast (p ++ [x]) = p.
Proof. intros. rewrite removelast_app by discriminate. cbn. apply app_nil_r. Qed.

Lemma like_fast : forall p t, ~ In TILDE p -> ~ In QUEST p -> code_points p -> code_points t ->
  (like p t = true <-> helper p t = true).
Proof.
  intros p t Ht Hq Cp Ct. unfold like.
  replace (has QUEST p) with false by (symmetry; now apply has_false).
  assert (X : forall x, contains [TILDE; x] p = false).
  { intros x. destruct (contains [TILDE; x] p) eqn:E; [|reflexivity]. apply contains_app in E.
    destruct E as (a & b & ->). exfalso. apply Ht. apply in_or_app. right. now left. }
  rewrite !X. cbn [negb andb].
  destruct (ends_with [STAR] p && negb (has STAR (removelast p))) eqn:E1.
  { apply andb_true_iff in E1. destruct E1 as [E1 E2]. apply ends_app in E1. destruct E1 as (q & ->).
    rewrite removelast_last in *. apply negb_true_iff, has_false in E2.
    rewrite helper_lit by (apply lits; [assumption | intros Y; apply Hq; apply in_or_app; now left]).
    rewrite <- strip_app. split; [intros (u & ->); exists u; split; [reflexivity | apply helper_all] | intros (u & -> & _); eauto]. }
  destruct (starts_with [STAR] p && negb (has STAR (tl p))) eqn:E2.
  { apply andb_true_iff in E2. destruct E2 as [E2 E3]. apply strip_app in E2. destruct E2 as (q & ->).
    cbn [tl app] in *. apply negb_true_iff, has_false in E3. rewrite helper_star. rewrite <- ends_app.
    assert (Hq' : ~ In QUEST q) by (intros Y; apply Hq; now right). split.
    - intros (u & ->). exists u, q. split; [reflexivity|]. now apply helper_text.
    - intros (u & v & -> & G). apply helper_text in G; [|assumption..]. subst. eauto. }
  destruct (starts_with [STAR] p && ends_with [STAR] p && negb (has STAR (removelast (tl p)))) eqn:E3.
  { apply andb_true_iff in E3. destruct E3 as [E3 E5]. apply andb_true_iff in E3. destruct E3 as [E3 E4].
    apply strip_app in E3. destruct E3 as (r & ->). cbn [tl app] in *. apply negb_true_iff, has_false in E5.
    apply ends_app in E4. destruct E4 as (q & E4). destruct q as [|s q].
    { cbn in E4. injection E4 as ->. exfalso. revert E2. vm_compute. discriminate. }
    cbn [app] in E4. injection E4 as <- ->. rewrite removelast_last in *.
    rewrite helper_star. rewrite <- contains_app.
    assert (Hq' : ~ In QUEST q) by (intros Y; apply Hq; right; apply in_or_app; now left). split.
    - intros (x & y & ->). exists x, (q ++ y). split; [reflexivity|]. apply helper_lit; [now apply lits|].
      exists y. split; [reflexivity | apply helper_all].
    - intros (x & u & -> & G). apply helper_lit in G; [|now apply lits]. destruct G as (y & -> & _). eauto. }
  destruct (negb (has STAR p)) eqn:E4.
  { apply negb_true_iff, has_false in E4. rewrite helper_text by assumption. apply teqb. }
  unfold wildcard_match. now apply helper_bytes.
Qed.

Lemma like_glob : forall p t, ~ In TILDE p -> code_points p -> code_points t -> (~ In QUEST p \/ ascii t) ->
  (like p t = true <-> glob p t).
Proof.
  intros p t Hp Cp Ct Hq. rewrite <- helper_glob by assumption. destruct (has QUEST p) eqn:E.
  - apply existsb_In in E. destruct Hq as [Hq|Ha]; [contradiction|].
    unfold like. replace (has QUEST p) with true by (symmetry; now apply existsb_In). cbn [negb andb].
    unfold wildcard_match. rewrite (ascii_bytes t Ha). rewrite helper_ascii by assumption. reflexivity.
  - apply has_false in E. now apply like_fast.
Qed.

(** * LIKE *)
Lemma sql_star : forall p t,
  sql_like (37%N :: p) t = true <-> exists pre u, t = pre ++ u /\ sql_like p u = true.
Proof.
  intros p t. cbn [sql_like]. rewrite N.eqb_refl. split.
  - induction t as [|a t IH]; intros H.
    + apply orb_true_iff in H. destruct H as [H|H]; [|discriminate]. exists [], []. auto.
    + apply orb_true_iff in H. destruct H as [H|H].
      * exists [], (a :: t). auto.
      * destruct (IH H) as (pre & u & -> & G). exists (a :: pre), u. auto.
  - intros (pre & u & -> & H). induction pre as [|a pre IH].
    + destruct u; cbn [app]; rewrite H; reflexivity.
    + cbn [app]. rewrite IH. apply orb_true_r.
Qed.

Lemma sql_char : forall c p t, c <> 37%N -> c <> 95%N -> c <> 92%N ->
  (sql_like (c :: p) t = true <-> exists u, t = c :: u /\ sql_like p u = true).
Proof.
  intros c p t H1 H2 H3. cbn [sql_like]. apply N.eqb_neq in H1, H2, H3. rewrite H1, H2, H3. destruct t as [|d t].
  - split; [discriminate|]. intros (u & E & _). discriminate.
  - rewrite andb_true_iff, N.eqb_eq. split.
    + intros (-> & H). eauto.
    + intros (u & E & H). injection E as -> ->. auto.
Qed.

Lemma sql_helper : forall p t, sql_plain p -> sql_like (to_sql p) t = helper p t.
Proof.
  induction p as [|c p IH]; intros t (H1 & H2 & H3); [reflexivity|].
  assert (Hp : sql_plain p) by (repeat split; intros X; [apply H1 | apply H2 | apply H3]; now right).
  assert (C1 : c <> 37%N) by (intros ->; apply H1; now left).
  assert (C2 : c <> 95%N) by (intros ->; apply H2; now left).
  assert (C3 : c <> 92%N) by (intros ->; apply H3; now left).
  unfold to_sql. cbn [List.map]. fold (to_sql p). apply eq_true_iff_eq.
  destruct (N.eqb_spec c STAR) as [->|N1].
  - rewrite sql_star, helper_star. split; intros (a & b & E & G); exists a, b; split; auto; [now rewrite <- IH | now rewrite IH].
  - destruct (N.eqb_spec c QUEST) as [->|N2].
    + rewrite helper_quest. cbn [sql_like]. change (N.eqb 95 37) with false. cbn iota. rewrite N.eqb_refl.
      destruct t as [|d t].
      * split; [discriminate|]. intros (x & u & E & _). discriminate.
      * rewrite IH by assumption. split; [eauto | intros (x & u & E & G); now injection E as -> ->].
    + rewrite sql_char, helper_char by assumption. split; intros (u & E & G); exists u; split; auto; [now rewrite <- IH | now rewrite IH].
Qed.

(** A pattern without special characters only matches itself. *)
Lemma sql_text : forall p t, sql_plain p -> (sql_like p t = true <-> t = p).
Proof.
  induction p as [|c p IH]; intros t (H1 & H2 & H3).
  - destruct t; cbn; split; congruence.
  - assert (Hp : sql_plain p) by (repeat split; intros X; [apply H1 | apply H2 | apply H3]; now right).
    assert (C1 : c <> 37%N) by (intros ->; apply H1; now left).
    assert (C2 : c <> 95%N) by (intros ->; apply H2; now left).
    assert (C3 : c <> 92%N) by (intros ->; apply H3; now left).
    rewrite sql_char by assumption.
    split.
    + intros (u & -> & G). apply IH in G; [|assumption]. now subst.
    + intros ->. exists p. split; [reflexivity|]. now apply IH.
Qed.
