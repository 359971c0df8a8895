(** Lemmas about byte positions and TEXTSPLIT. *)
From Coq Require Import ZifyN ZifyNat ZifyBool.
From Verif Require Import Base Maps NuModel TfModel TfSpec TfProofs1.
Local Open Scope Z_scope.

Lemma ulen_pos : forall c, 0 < ulen c.
Proof. intros c. unfold ulen. repeat match goal with |- context [if ?b then _ else _] => destruct b end; lia. Qed.
Lemma blen_nonneg : forall s, 0 <= blen s.
Proof. induction s as [|c s IH]; cbn; [lia|]. pose proof (ulen_pos c). lia. Qed.
Lemma blen_app : forall a b, blen (a ++ b) = blen a + blen b.
Proof. induction a as [|c a IH]; intros b; cbn; [lia|]. rewrite IH. lia. Qed.
Lemma blen_pos : forall s, s <> [] -> 0 < blen s.
Proof. intros [|c s] H; [congruence|]. cbn. pose proof (ulen_pos c). pose proof (blen_nonneg s). lia. Qed.
Lemma len_blen : forall s, Z.of_nat (length s) <= blen s.
Proof. induction s as [|c s IH]; cbn [length blen]; [lia|]. pose proof (ulen_pos c). lia. Qed.

Lemma byte_cut_app : forall a b, byte_cut (a ++ b) (blen a) = Some (a, b).
Proof.
  induction a as [|c a IH]; intros b.
  - cbn [app blen]. destruct b; reflexivity.
  - cbn [app blen byte_cut]. pose proof (ulen_pos c). pose proof (blen_nonneg a).
    destruct (ulen c + blen a =? 0) eqn:E; [lia|].
    replace (ulen c + blen a - ulen c) with (blen a) by lia. rewrite IH. reflexivity.
Qed.

Lemma byte_from_app : forall a b k, k = blen a -> byte_from (a ++ b) k = Some b.
Proof. intros a b k ->. unfold byte_from. rewrite byte_cut_app. reflexivity. Qed.
Lemma byte_slice_app : forall a m b i j, i = blen a -> j = blen a + blen m ->
  byte_slice (a ++ m ++ b) i j = Some m.
Proof.
  intros a m b i j -> ->. unfold byte_slice. rewrite byte_cut_app.
  replace (blen a + blen m - blen a) with (blen m) by lia. rewrite byte_cut_app. reflexivity.
Qed.

Lemma prefix_bytes : forall a x b y, a ++ x = b ++ y -> (length a <= length b)%nat -> blen a <= blen b.
Proof.
  induction a as [|c a IH]; intros x [|e b] y E L; cbn in *; try lia.
  - pose proof (ulen_pos e). pose proof (blen_nonneg b). lia.
  - injection E as -> E. assert (length a <= length b)%nat as L' by lia.
    pose proof (IH _ _ _ E L'). lia.
Qed.
Lemma prefix_bytes_lt : forall a x b y, a ++ x = b ++ y -> (length a < length b)%nat -> blen a < blen b.
Proof.
  induction a as [|c a IH]; intros x [|e b] y E L; cbn in *; try lia.
  - pose proof (ulen_pos e). pose proof (blen_nonneg b). lia.
  - injection E as -> E. assert (length a < length b)%nat as L' by lia.
    pose proof (IH _ _ _ E L'). lia.
Qed.

(** * The earliest delimiter *)

Definition good (w : text) (cs : Z) (done : list text) (best : option (Z * Z)) : Prop :=
  match best with
  | None => forall d, In d done -> ~ within d w
  | Some (p, l) =>
      exists l1 d l2 a b,
        done = l1 ++ d :: l2 /\ w = a ++ d ++ b /\ p = cs + blen a /\ l = blen d /\
        (forall d' a' b', In d' done -> w = a' ++ d' ++ b' -> (length a <= length a')%nat) /\
        (forall d' a' b', In d' l1 -> w = a' ++ d' ++ b' -> (length a < length a')%nat)
  end.

Lemma good_skip : forall w cs done best d,
  ~ within d w -> good w cs done best -> good w cs (done ++ [d]) best.
Proof.
  intros w cs done [[p l]|] d Hd H; cbn in *.
  - destruct H as (l1 & d0 & l2 & a & b & E1 & E2 & E3 & E4 & E5 & E6).
    exists l1, d0, (l2 ++ [d]), a, b. split; [rewrite E1, <- app_assoc; reflexivity|].
    repeat (split; [assumption|]). split; [|exact E6].
    intros d' a' b' Hi Hw. apply in_app_or in Hi. destruct Hi as [Hi|[<-|[]]].
    + apply (E5 d' a' b' Hi Hw).
    + exfalso. apply Hd. exists a', b'. exact Hw.
  - intros d' Hi. apply in_app_or in Hi. destruct Hi as [Hi|[<-|[]]]; auto.
Qed.

Lemma good_step : forall w cs done best d a b,
  cut d w = Some (a, b) -> good w cs done best ->
  good w cs (done ++ [d])
    (match best with
     | None => Some (cs + blen a, blen d)
     | Some (q, l) => if cs + blen a <? q then Some (cs + blen a, blen d) else Some (q, l)
     end).
Proof.
  intros w cs done best d a b Hc H. destruct (cut_some _ _ _ _ Hc) as [Hw Hf].
  destruct best as [[q l]|].
  - destruct H as (l1 & d0 & l2 & a0 & b0 & E1 & E2 & E3 & E4 & E5 & E6).
    assert (a ++ (d ++ b) = a0 ++ (d0 ++ b0)) as Eaa by (rewrite <- Hw, <- E2; reflexivity).
    destruct (cs + blen a <? q) eqn:Ep.
    + assert (length a < length a0)%nat as Hlt.
      { destruct (Nat.lt_ge_cases (length a) (length a0)) as [L|L]; [exact L|].
        pose proof (prefix_bytes _ _ _ _ (eq_sym Eaa) L). lia. }
      exists done, d, [], a, b. split; [reflexivity|]. split; [exact Hw|].
      split; [reflexivity|]. split; [reflexivity|].
      assert (forall d' a' b', In d' done -> w = a' ++ d' ++ b' -> (length a < length a')%nat) as Hs.
      { intros d' a' b' Hi Ew. pose proof (E5 _ _ _ Hi Ew). lia. }
      split; [|exact Hs].
      intros d' a' b' Hi Ew. apply in_app_or in Hi. destruct Hi as [Hi|[<-|[]]].
      * pose proof (Hs _ _ _ Hi Ew). lia.
      * apply (Hf _ _ Ew).
    + assert (length a0 <= length a)%nat as Hle.
      { destruct (Nat.le_gt_cases (length a0) (length a)) as [L|L]; [exact L|].
        pose proof (prefix_bytes_lt _ _ _ _ Eaa L). lia. }
      exists l1, d0, (l2 ++ [d]), a0, b0. split; [rewrite E1, <- app_assoc; reflexivity|].
      repeat (split; [assumption|]). split; [|exact E6].
      intros d' a' b' Hi Ew. apply in_app_or in Hi. destruct Hi as [Hi|[<-|[]]].
      * apply (E5 _ _ _ Hi Ew).
      * pose proof (Hf _ _ Ew). lia.
  - exists done, d, [], a, b. split; [reflexivity|]. split; [exact Hw|].
    split; [reflexivity|]. split; [reflexivity|]. cbn in H. split.
    + intros d' a' b' Hi Ew. apply in_app_or in Hi. destruct Hi as [Hi|[<-|[]]].
      * exfalso. apply (H _ Hi). exists a', b'. exact Ew.
      * apply (Hf _ _ Ew).
    + intros d' a' b' Hi Ew. exfalso. apply (H _ Hi). exists a', b'. exact Ew.
Qed.

Lemma earliest_good : forall w cs ds done best,
  Forall (fun d => d <> []) ds -> good w cs done best ->
  good w cs (done ++ ds) (earliest w cs ds best).
Proof.
  intros w cs ds. induction ds as [|d ds IH]; intros done best Hn H.
  - cbn. rewrite app_nil_r. exact H.
  - inversion Hn as [|d0 ds0 Hd Hds]; subst.
    replace (done ++ d :: ds) with ((done ++ [d]) ++ ds) by (rewrite <- app_assoc; reflexivity).
    cbn [earliest]. destruct d as [|c d]; [congruence|].
    destruct (cut (c :: d) w) as [[a b]|] eqn:E.
    + cbv zeta. pose proof (good_step w cs done best (c :: d) a b E H) as G.
      destruct best as [[q l]|].
      * destruct (cs + blen a <? q); apply IH; assumption.
      * apply IH; assumption.
    + apply IH; [assumption|]. apply good_skip; [apply cut_none; exact E|exact H].
Qed.

Lemma earliest_spec : forall w cs ds, Forall (fun d => d <> []) ds ->
  good w cs ds (earliest w cs ds None).
Proof. intros w cs ds H. apply (earliest_good w cs ds [] None H). intros d []. Qed.

(** * Cuts *)

Lemma cuts_unique : forall ds s ps us, cuts ds s ps us ->
  forall qs vs, cuts ds s qs vs -> ps = qs /\ us = vs.
Proof.
  intros ds s ps us H. induction H as [s Hn|a d r ps us l1 l2 E1 Hf Hs Hc IH]; intros qs vs Hq.
  - inversion Hq as [s' Hn' X1 X2|a d r ps us l1 l2 E1 Hf Hs Hc X1 X2]; subst; [auto|].
    exfalso. apply (Hn d); [apply in_elt|]. exists a, r. reflexivity.
  - inversion Hq as [s' Hn' X1 X2|a' d' r' ps' us' l1' l2' E1' Hf' Hs' Hc' X1 X2].
    + exfalso. apply (Hn' d); [rewrite E1; apply in_elt|]. exists a, r. congruence.
    + assert (In d ds) as Hd by (rewrite E1; apply in_elt).
      assert (In d' ds) as Hd' by (rewrite E1'; apply in_elt).
      pose proof (Hf' _ _ _ Hd X1) as L1. pose proof (Hf _ _ _ Hd' (eq_sym X1)) as L2.
      assert (d = d') as Edd.
      { rewrite E1' in E1. destruct (Nat.lt_trichotomy (length l1) (length l1')) as [L|[L|L]].
        - assert (In d l1') as Hi.
          { apply (f_equal (fun l => nth_error l (length l1))) in E1.
            rewrite (nth_error_app1 l1') in E1 by exact L.
            rewrite (nth_error_app2 l1) in E1 by lia. rewrite Nat.sub_diag in E1. cbn in E1.
            apply nth_error_In in E1. exact E1. }
          pose proof (Hs' _ _ _ Hi X1). lia.
        - apply (f_equal (fun l => nth_error l (length l1))) in E1.
          rewrite !nth_error_app2 in E1 by lia. rewrite L, Nat.sub_diag in E1. cbn in E1. congruence.
        - assert (In d' l1) as Hi.
          { apply (f_equal (fun l => nth_error l (length l1'))) in E1.
            rewrite (nth_error_app1 l1) in E1 by exact L.
            rewrite (nth_error_app2 l1') in E1 by lia. rewrite Nat.sub_diag in E1. cbn in E1.
            symmetry in E1. apply nth_error_In in E1. exact E1. }
          pose proof (Hs _ _ _ Hi (eq_sym X1)). lia. }
      subst d'. destruct (app_len_inj _ _ _ _ X1) as [Ea X2']; [lia|]. subst a'.
      apply app_inv_head in X2'. subst r'. destruct (IH _ _ Hc') as [-> ->]. auto.
Qed.

Lemma cuts_pieces : forall d s ps us, cuts [d] s ps us -> pieces d s ps.
Proof.
  intros d s ps us H. induction H as [s Hn|a d0 r ps us l1 l2 E1 Hf Hs Hc IH].
  - apply p_last. apply Hn. left. reflexivity.
  - assert (d0 = d) as ->.
    { destruct l1 as [|x l1]; cbn in E1; [congruence|]. injection E1 as _ E1. destruct l1; discriminate. }
    apply p_more; [|exact IH]. intros a' r' E. apply (Hf d a' r'); [left; reflexivity|exact E].
Qed.

Lemma cuts_ne : forall ds s ps us, cuts ds s ps us -> ps <> [].
Proof. intros ds s ps us H. destruct H; discriminate. Qed.

Lemma cuts_weave : forall ds s ps us, cuts ds s ps us ->
  s = weave ps us /\ length ps = S (length us) /\ Forall (fun u => In u ds) us.
Proof.
  intros ds s ps us H. induction H as [s Hn|a d r ps us l1 l2 E1 Hf Hs Hc IH].
  - cbn. auto.
  - destruct IH as (A & B & C). cbn [weave length]. rewrite A at 1. split; [reflexivity|].
    split; [lia|]. constructor; [rewrite E1; apply in_elt|exact C].
Qed.

(** * split_go on a string and a copy of it whose characters have the same lengths *)

Section Split.
Variable lc : N -> N.

Lemma blen_map : forall s, Forall (fun c => ulen (lc c) = ulen c) s -> blen (map lc s) = blen s.
Proof. intros s H. induction H as [|c s Hc H IH]; cbn; [reflexivity|]. rewrite Hc, IH. reflexivity. Qed.

Lemma map_app_inv : forall (s x y : text), map lc s = x ++ y ->
  exists a b, s = a ++ b /\ map lc a = x /\ map lc b = y.
Proof.
  intros s x. revert s. induction x as [|c x IH]; intros s y H.
  - exists [], s. auto.
  - destruct s as [|e s]; [discriminate|]. cbn in H. injection H as <- H.
    destruct (IH _ _ H) as (a & b & -> & <- & <-). exists (e :: a), b. auto.
Qed.

Lemma split_go_spec : forall fuel ds pre rest,
  Forall (fun d => d <> []) ds ->
  Forall (fun c => ulen (lc c) = ulen c) (pre ++ rest) ->
  blen rest < Z.of_nat fuel ->
  exists ps e qs us vs,
    split_go fuel (pre ++ rest) (map lc (pre ++ rest)) ds (blen pre) = Some (ps, e) /\
    cuts ds (map lc rest) (map (map lc) qs) us /\
    rest = weave qs vs /\ map (map lc) vs = us /\
    ((e = blen (pre ++ rest) /\ qs = ps ++ [[]] /\
      (rest = [] \/ exists d x, In d ds /\ map lc rest = x ++ d))
     \/ (e <> blen (pre ++ rest) /\ qs = ps)).
Proof.
  induction fuel as [|f IH]; intros ds pre rest Hn Hu Hf.
  - pose proof (blen_nonneg rest). lia.
  - cbn [split_go]. rewrite (blen_app pre rest).
    destruct (blen pre <? blen pre + blen rest) eqn:E.
    + assert (Forall (fun c => ulen (lc c) = ulen c) pre /\ Forall (fun c => ulen (lc c) = ulen c) rest)
        as [Hu1 Hu2] by (apply Forall_app; exact Hu).
      rewrite map_app. rewrite byte_from_app by (symmetry; apply blen_map; exact Hu1).
      pose proof (earliest_spec (map lc rest) (blen pre) ds Hn) as G.
      destruct (earliest (map lc rest) (blen pre) ds None) as [[p l]|].
      * destruct G as (l1 & d & l2 & a & b & E1 & E2 & E3 & E4 & E5 & E6).
        destruct (map_app_inv _ _ _ E2) as (a0 & x & Er & Ea & Ex).
        destruct (map_app_inv _ _ _ Ex) as (d0 & r0 & Ex2 & Ed & Eb).
        subst x rest.
        assert (Forall (fun c => ulen (lc c) = ulen c) a0 /\
                Forall (fun c => ulen (lc c) = ulen c) d0 /\
                Forall (fun c => ulen (lc c) = ulen c) r0) as (Ha0 & Hd0 & Hr0).
        { apply Forall_app in Hu2. destruct Hu2 as [? Hu2]. apply Forall_app in Hu2. destruct Hu2. auto. }
        assert (blen a = blen a0) as Ba by (rewrite <- Ea; apply blen_map; exact Ha0).
        assert (blen d = blen d0) as Bd by (rewrite <- Ed; apply blen_map; exact Hd0).
        rewrite (byte_slice_app pre a0 (d0 ++ r0) (blen pre) p) by lia.
        assert (In d ds) as Hd by (rewrite E1; apply in_elt).
        assert (d <> []) as Hdn by (rewrite Forall_forall in Hn; apply Hn; exact Hd).
        pose proof (blen_pos d Hdn) as Hdp.
        destruct (IH ds (pre ++ a0 ++ d0) r0 Hn) as (ps & e & qs & us & vs & H1 & H2 & H3 & H4 & H5).
        { rewrite <- !app_assoc. exact Hu. }
        { rewrite !blen_app in Hf. pose proof (blen_nonneg a0). lia. }
        replace ((pre ++ a0 ++ d0) ++ r0) with (pre ++ a0 ++ d0 ++ r0) in H1, H5
          by (rewrite <- !app_assoc; reflexivity).
        replace (blen (pre ++ a0 ++ d0)) with (p + l) in H1 by (rewrite !blen_app; lia).
        rewrite <- map_app. rewrite H1.
        exists (a0 :: ps), e, (a0 :: qs), (d :: us), (d0 :: vs).
        split; [reflexivity|]. split.
        { rewrite E2. cbn [map]. rewrite Ea. apply (c_more ds a d b _ _ l1 l2); auto.
          - intros d' a' r' Hi Ew. apply (E5 d' a' r' Hi). rewrite E2. exact Ew.
          - intros d' a' r' Hi Ew. apply (E6 d' a' r' Hi). rewrite E2. exact Ew.
          - rewrite <- Eb. exact H2. }
        split; [cbn [weave]; rewrite <- H3; reflexivity|].
        split; [cbn [map]; rewrite Ed, H4; reflexivity|].
        rewrite <- (blen_app pre).
        destruct H5 as [(H5 & H6 & H7)|(H5 & H6)].
        -- left. split; [exact H5|]. split; [rewrite H6; reflexivity|]. right.
           destruct H7 as [->|(d1 & y & Hi & Hy)].
           ++ exists d, a. split; [exact Hd|]. rewrite E2, <- Eb. cbn. rewrite app_nil_r. reflexivity.
           ++ exists d1, (a ++ d ++ y). split; [exact Hi|].
              rewrite E2, <- Eb, Hy, <- !app_assoc. reflexivity.
        -- right. split; [exact H5|]. rewrite H6. reflexivity.
      * cbn in G. rewrite byte_from_app by reflexivity.
        exists [rest], (blen pre), [rest], [], []. split; [reflexivity|]. split.
        { cbn [map]. apply c_last. exact G. }
        split; [reflexivity|]. split; [reflexivity|]. right. split; [lia|reflexivity].
    + assert (rest = []) as ->.
      { destruct rest as [|c rest]; [reflexivity|]. pose proof (blen_pos (c :: rest) ltac:(discriminate)). lia. }
      exists [], (blen pre), [[]], [], []. split; [reflexivity|]. split.
      { cbn. apply c_last. intros d Hd [x [y Exy]]. rewrite Forall_forall in Hn. apply (Hn d Hd).
        symmetry in Exy. apply app_eq_nil in Exy. destruct Exy as [_ Exy].
        apply app_eq_nil in Exy. tauto. }
      split; [reflexivity|]. split; [reflexivity|]. left. cbn. split; [lia|]. split; [reflexivity|]. auto.
Qed.

Lemma ends_with_app : forall d x, ends_with d (x ++ d) = true.
Proof. intros d x. unfold ends_with. rewrite rev_app_distr. apply starts_app. Qed.

Lemma split_parts : forall ds s,
  ds <> [] -> Forall (fun d => d <> []) ds -> s <> [] ->
  Forall (fun c => ulen (lc c) = ulen c) s ->
  exists qs us vs,
    match split_go (S (Z.to_nat (blen s))) s (map lc s) ds 0 with
    | None => None
    | Some (ps, e) =>
        if (e =? blen s) && negb (match s with [] => true | _ => false end)
           && existsb (fun d => match d with [] => false | _ => ends_with d (map lc s) end) ds
        then Some (ps ++ [[]]) else Some ps
    end = Some qs /\
    cuts ds (map lc s) (map (map lc) qs) us /\ s = weave qs vs /\ map (map lc) vs = us.
Proof.
  intros ds s Hds Hn Hs Hu.
  destruct (split_go_spec (S (Z.to_nat (blen s))) ds [] s Hn Hu) as (ps & e & qs & us & vs & H1 & H2 & H3 & H4 & H5).
  { pose proof (blen_nonneg s). lia. }
  cbn [app blen] in H1, H5. rewrite H1. exists qs, us, vs. split; [|auto].
  destruct s as [|c s]; [congruence|].
  destruct H5 as [(-> & -> & [H7|(d & x & Hd & Hx)])|(He & ->)].
  - discriminate.
  - rewrite Z.eqb_refl.
    assert (existsb (fun d => match d with [] => false | _ => ends_with d (map lc (c :: s)) end) ds = true) as ->.
    { apply existsb_exists. exists d. split; [exact Hd|]. destruct d as [|y d].
      - rewrite Forall_forall in Hn. exfalso. apply (Hn [] Hd). reflexivity.
      - rewrite Hx. apply ends_with_app. }
    reflexivity.
  - apply Z.eqb_neq in He. rewrite He. reflexivity.
Qed.
End Split.

Lemma split_by_cs : forall lower ds s,
  ds <> [] -> Forall (fun d => d <> []) ds -> s <> [] ->
  exists ps us, split_by lower s ds false = Some ps /\ cuts ds s ps us.
Proof.
  intros lower ds s Hds Hn Hs.
  assert (Forall (fun c => ulen ((fun x : N => x) c) = ulen c) s) as Hu
    by (apply Forall_forall; reflexivity).
  destruct (split_parts (fun x => x) ds s Hds Hn Hs Hu) as (qs & us & vs & H1 & H2 & H3 & H4).
  rewrite map_id in H1. rewrite map_id in H2.
  replace (map (map (fun x : N => x)) qs) with qs in H2.
  2:{ symmetry. rewrite <- (map_id qs) at 2. apply map_ext. intros t. apply map_id. }
  exists qs, us. split; [|exact H2]. unfold split_by. destruct ds as [|d ds]; [congruence|]. exact H1.
Qed.

Lemma split_by_empty : forall lower ds ci, ds <> [] -> split_by lower [] ds ci = Some [].
Proof.
  intros lower ds ci Hds. unfold split_by. destruct ds as [|d ds]; [congruence|].
  cbn. reflexivity.
Qed.

Lemma split_by_ci : forall lower lc ds s,
  (forall t, In t (s :: ds) -> lower t = map lc t) ->
  ds <> [] -> Forall (fun d => d <> []) ds -> s <> [] ->
  Forall (fun c => ulen (lc c) = ulen c) s ->
  exists ps vs, split_by lower s ds true = Some ps /\
    s = weave ps vs /\
    cuts (map lower ds) (lower s) (map (map lc) ps) (map (map lc) vs).
Proof.
  intros lower lc ds s Hl Hds Hn Hs Hu.
  destruct (split_parts lc (map (map lc) ds) s) as (qs & us & vs & H1 & H2 & H3 & H4); auto.
  { destruct ds; [congruence|discriminate]. }
  { apply Forall_forall. intros d Hd. apply in_map_iff in Hd. destruct Hd as [d0 [<- Hd]].
    rewrite Forall_forall in Hn. apply Hn in Hd. destruct d0; [congruence|discriminate]. }
  assert (map lower ds = map (map lc) ds) as Ed.
  { apply map_ext_in. intros t Ht. apply Hl. right. exact Ht. }
  exists qs, vs. rewrite Ed, (Hl s) by (left; reflexivity). subst us.
  split; [|split; [exact H3|exact H2]].
  unfold split_by. destruct ds as [|d ds]; [congruence|].
  cbv zeta iota. change (lower d :: map lower ds) with (map lower (d :: ds)).
  unfold text in *. rewrite Ed, (Hl s) by (left; reflexivity). exact H1.
Qed.
