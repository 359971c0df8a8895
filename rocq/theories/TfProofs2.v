(** Lemmas about slices, FIND and SEARCH. *)
From Coq Require Import ZifyN ZifyNat ZifyBool.
From Verif Require Import Base Maps NuModel TfModel TfSpec TfProofs1.
Local Open Scope Z_scope.

Lemma slice_ok : forall s a b, 0 <= a -> a <= b -> b <= len s ->
  slice s a b = Some (firstn (Z.to_nat (b - a)) (skipn (Z.to_nat a) s)).
Proof.
  intros s a b H1 H2 H3. unfold slice.
  destruct ((0 <=? a) && (a <=? b) && (b <=? len s)) eqn:E; [reflexivity|lia].
Qed.

Lemma len_app : forall a b, len (a ++ b) = len a + len b.
Proof. intros a b. unfold len. rewrite app_length. lia. Qed.
Lemma len_nonneg : forall s, 0 <= len s.
Proof. intros s. unfold len. lia. Qed.
Lemma len_firstn : forall n s, len (firstn n s) = Z.min (Z.of_nat n) (len s).
Proof. intros n s. unfold len. rewrite firstn_length. lia. Qed.
Lemma len_skipn : forall n s, len (skipn n s) = Z.max 0 (len s - Z.of_nat n).
Proof. intros n s. unfold len. rewrite skipn_length. lia. Qed.

(** * FIND *)

Lemma stands_skipn : forall p s i, 0 <= i <= len s ->
  (stands p s i <-> exists b, skipn (Z.to_nat i) s = p ++ b).
Proof.
  intros p s i Hi. split.
  - intros [a [b [-> Ha]]]. exists b. replace (Z.to_nat i) with (length a) by lia.
    apply skipn_app_len.
  - intros [b Hb]. exists (firstn (Z.to_nat i) s), b. split.
    + rewrite <- Hb. symmetry. apply firstn_skipn.
    + rewrite firstn_length. unfold len in Hi. lia.
Qed.

Lemma stands_range : forall p s i, stands p s i -> 0 <= i /\ i + len p <= len s.
Proof. intros p s i [a [b [-> Ha]]]. rewrite !len_app. unfold len. lia. Qed.

Lemma prefix_eq : forall p s : text, (exists b, s = p ++ b) <-> firstn (length p) s = p.
Proof.
  intros p s. split.
  - intros [b ->]. apply firstn_app_len.
  - intros H. exists (skipn (length p) s). rewrite <- H at 1. symmetry. apply firstn_skipn.
Qed.

Lemma find_go_spec : forall fuel hay p i last,
  0 <= i -> last = len hay - len p -> last + 1 - i < Z.of_nat fuel ->
  match find_go fuel hay p i last with
  | Some j => first_from (stands p hay) i j
  | None => forall j, i <= j -> ~ stands p hay j
  end.
Proof.
  induction fuel as [|f IH]; intros hay p i last Hi Hl Hf.
  - cbn. intros j Hj Hs. apply stands_range in Hs. lia.
  - cbn [find_go]. destruct (i <=? last) eqn:E.
    + pose proof (len_nonneg p) as Hpp.
      destruct (text_eqb (firstn (length p) (skipn (Z.to_nat i) hay)) p) eqn:Et.
      * apply text_eqb_spec in Et. split; [lia|]. split; [|lia].
        apply stands_skipn; [lia|]. apply prefix_eq. exact Et.
      * assert (~ stands p hay i) as Hn.
        { intros Hs. apply stands_skipn in Hs; [|lia]. apply (proj1 (prefix_eq _ _)) in Hs.
          apply (proj2 (text_eqb_spec _ _)) in Hs. congruence. }
        pose proof (IH hay p (i + 1) last ltac:(lia) Hl ltac:(lia)) as HI.
        destruct (find_go f hay p (i + 1) last) as [j|].
        -- destruct HI as [A [B C]]. split; [lia|]. split; [exact B|].
           intros k Hk Hs. destruct (Z.eq_dec k i) as [->|]; [contradiction|]. apply C; [lia|exact Hs].
        -- intros k Hk Hs. destruct (Z.eq_dec k i) as [->|]; [contradiction|]. apply (HI k); [lia|exact Hs].
    + intros j Hj Hs. apply stands_range in Hs. lia.
Qed.

Lemma char_find_spec : forall hay p k, p <> [] -> 0 <= k ->
  match char_find hay p k with
  | Some j => first_from (stands p hay) k j
  | None => forall j, k <= j -> ~ stands p hay j
  end.
Proof.
  intros hay p k Hp Hk. unfold char_find. destruct p as [|c p]; [congruence|].
  destruct ((len hay <? len (c :: p)) || (len hay <? k)) eqn:E.
  - intros j Hj Hs. apply stands_range in Hs. pose proof (len_nonneg (c :: p)). lia.
  - apply find_go_spec; [lia|reflexivity|]. unfold len in *. cbn [length] in *. lia.
Qed.

(** * SEARCH *)

Lemma suffixes_in : forall t u, In u (suffixes t) <-> exists x, t = x ++ u.
Proof.
  induction t as [|c t IH]; intros u; cbn.
  - split.
    + intros [<-|[]]. exists []. reflexivity.
    + intros [x E]. left. symmetry in E. apply app_eq_nil in E. destruct E as [_ ->]. reflexivity.
  - split.
    + intros [<-|H]; [exists []; reflexivity|]. apply IH in H. destruct H as [x ->]. exists (c :: x). reflexivity.
    + intros [[|y x] E]; [left; exact E|]. cbn in E. injection E as _ E. right. apply IH. exists x. exact E.
Qed.

Lemma wild_spec : forall p t, wild p t = true <-> glob p t.
Proof.
  induction p as [|c p IH]; intros t; cbn [wild].
  - split; [constructor|reflexivity].
  - destruct (c =? 42)%N eqn:E1.
    + apply N.eqb_eq in E1. subst c. split.
      * intros H. apply existsb_exists in H. destruct H as [u [Hu Hw]].
        apply suffixes_in in Hu. destruct Hu as [x ->]. apply g_star. apply IH. exact Hw.
      * intros H. inversion H as [|p0 x t0 Hg E2 E3| |p0 c0 t0 N1 N2 Hg E2 E3]; subst; [|congruence].
        apply existsb_exists. exists t0. split; [|apply IH; exact Hg].
        apply suffixes_in. exists x. reflexivity.
    + destruct t as [|x t].
      * split; [discriminate|]. intros H. inversion H; subst. discriminate.
      * destruct (c =? 63)%N eqn:E2.
        -- apply N.eqb_eq in E2. subst c. cbn. rewrite IH. split.
           ++ apply g_one.
           ++ intros H. inversion H; subst; [assumption|congruence].
        -- cbn [orb]. apply N.eqb_neq in E1. apply N.eqb_neq in E2. split.
           ++ intros H. apply andb_prop in H. destruct H as [H1 H2]. apply N.eqb_eq in H1. subst x.
              apply g_char; [assumption|assumption|]. apply IH. exact H2.
           ++ intros H. inversion H; subst; [congruence|congruence|].
              rewrite N.eqb_refl. cbn. apply IH. assumption.
Qed.

Definition globs (p hay : text) (i : Z) : Prop :=
  0 <= i <= len hay /\ glob p (skipn (Z.to_nat i) hay).

Lemma wild_go_spec : forall fuel hay p i,
  0 <= i -> len hay + 1 - i < Z.of_nat fuel + 1 ->
  match wild_go fuel p hay i with
  | Some j => first_from (globs p hay) i j
  | None => forall j, i <= j -> ~ globs p hay j
  end.
Proof.
  induction fuel as [|f IH]; intros hay p i Hi Hf.
  - cbn. intros j Hj [Hr _]. lia.
  - cbn [wild_go]. destruct (i <=? len hay) eqn:E.
    + destruct (wild p (skipn (Z.to_nat i) hay)) eqn:Et.
      * apply wild_spec in Et. split; [lia|]. split; [|lia]. split; [lia|exact Et].
      * assert (~ globs p hay i) as Hn.
        { intros [_ Hg]. apply wild_spec in Hg. congruence. }
        pose proof (IH hay p (i + 1) ltac:(lia) ltac:(lia)) as HI.
        destruct (wild_go f p hay (i + 1)) as [j|].
        -- destruct HI as [A [B C]]. split; [lia|]. split; [exact B|].
           intros k Hk Hs. destruct (Z.eq_dec k i) as [->|]; [contradiction|]. apply C; [lia|exact Hs].
        -- intros k Hk Hs. destruct (Z.eq_dec k i) as [->|]; [contradiction|]. apply (HI k); [lia|exact Hs].
    + intros j Hj [Hr _]. lia.
Qed.

(** Without wildcards the glob is a prefix. *)
Lemma glob_plain : forall p t, existsb (fun c => (c =? 42) || (c =? 63))%N p = false ->
  (glob p t <-> exists b, t = p ++ b).
Proof.
  induction p as [|c p IH]; intros t H.
  - split; [exists t; reflexivity|constructor].
  - cbn in H. apply orb_false_iff in H. destruct H as [H1 H2].
    apply orb_false_iff in H1. destruct H1 as [Ha Hb]. apply N.eqb_neq in Ha. apply N.eqb_neq in Hb.
    split.
    + intros Hg. inversion Hg; subst; [congruence|congruence|].
      destruct (proj1 (IH _ H2) ltac:(eassumption)) as [b ->]. exists b. reflexivity.
    + intros [b ->]. cbn. apply g_char; [assumption|assumption|]. apply IH; [exact H2|]. exists b. reflexivity.
Qed.

Lemma first_from_ext : forall (P Q : Z -> Prop) k i,
  (forall j, k <= j -> (P j <-> Q j)) -> first_from P k i -> first_from Q k i.
Proof.
  intros P Q k i H [A [B C]]. split; [exact A|]. split; [apply H; assumption|].
  intros j Hj Hq. apply C; [exact Hj|]. apply H; assumption.
Qed.

Lemma search_plain : forall hay p k j, 0 <= k ->
  existsb (fun c => (c =? 42) || (c =? 63))%N p = false -> k <= j ->
  (stands p hay j <-> globs p hay j).
Proof.
  intros hay p k j Hk Hp Hj. unfold globs. split.
  - intros Hs. pose proof (stands_range _ _ _ Hs) as Hr. pose proof (len_nonneg p).
    split; [lia|]. apply glob_plain; [exact Hp|]. apply stands_skipn; [lia|exact Hs].
  - intros [Hr Hg]. apply stands_skipn; [lia|]. apply glob_plain; [exact Hp|exact Hg].
Qed.
