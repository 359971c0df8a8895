(** Proofs for the date functions. *)
From Coq Require Import ZifyBool Znumtheory.
From Verif Require Import Base DateModel DateSpec DateProofs DateProofs2.
Local Open Scope Z_scope.
Ltac Zify.zify_post_hook ::= Z.div_mod_to_equations.

Lemma last_day_month_days : forall y m, 1 <= m <= 12 -> MIN_YEAR <= y <= MAX_YEAR ->
  last_day_of_month y m = month_days (is_leap y) m.
Proof.
  intros y m Hm Hy. unfold last_day_of_month.
  assert (K : forall d, 1 <= d -> from_ymd_opt y m d =
     if d <=? month_days (is_leap y) m then Some (mkDate y m d) else None).
  { intros d Hd. destruct (d <=? _) eqn:E.
    - apply from_ymd_opt_some. split; auto. split; cbn; auto. split; cbn; lia.
    - apply from_ymd_opt_none. intros [_ [_ V]]. cbn in V. lia. }
  rewrite !K by lia. clear K.
  destruct (is_leap y); month_split m Hm; reflexivity.
Qed.

Lemma target_month_index : forall d k t, 1 <= mo t <= 12 ->
  (target_month d k = (yr t, mo t) <-> month_index t = month_index d + k).
Proof.
  intros d k t Ht. unfold target_month, month_index. split.
  - intros H. inversion H. lia.
  - intros H. f_equal; lia.
Qed.

Lemma target_month_range : forall d k, 1 <= snd (target_month d k) <= 12.
Proof. intros d k. cbn. lia. Qed.

Lemma edate_spec : forall s x d k t, try_serial_to_date s x = Ok d ->
  valid_date t -> month_index t = month_index d + k ->
  dy t = Z.min (dy d) (month_days (is_leap (yr t)) (mo t)) ->
  edate s x k = Ok (date_to_serial s t).
Proof.
  intros s x d k t E [Vy [Vm Vd]] I D. unfold edate. rewrite E. cbn [rbind].
  apply target_month_index in I; auto. rewrite I. rewrite last_day_month_days by auto.
  rewrite <- D.
  assert (F : from_ymd_opt (yr t) (mo t) (dy t) = Some t).
  { apply from_ymd_opt_some. destruct t. split; auto. split; auto. split; auto. }
  now rewrite F.
Qed.

Lemma edate_fails : forall s x d k, try_serial_to_date s x = Ok d ->
  (forall t, valid_date t -> month_index t <> month_index d + k) -> edate s x k = Err DNum.
Proof.
  intros s x d k E H. unfold edate. rewrite E. cbn [rbind].
  destruct (target_month d k) as [ty tm] eqn:T.
  destruct (from_ymd_opt _ _ _) eqn:F; auto. exfalso.
  apply from_ymd_opt_some in F. destruct F as [-> V]. apply (H _ V).
  apply target_month_index; [destruct V as [_ [V _]]; exact V|]. exact T.
Qed.

Lemma edate_inv : forall s x k r, edate s x k = Ok r ->
  exists d t, try_serial_to_date s x = Ok d /\ valid_date t /\ month_index t = month_index d + k /\
     dy t = Z.min (dy d) (month_days (is_leap (yr t)) (mo t)) /\ r = date_to_serial s t.
Proof.
  intros s x k r H. unfold edate in H.
  destruct (try_serial_to_date s x) as [d| |] eqn:E; try discriminate. cbn [rbind] in H.
  destruct (target_month d k) as [ty tm] eqn:T.
  destruct (from_ymd_opt _ _ _) eqn:F; try discriminate. cbn in H. inversion H; subst.
  apply from_ymd_opt_some in F. destruct F as [-> V].
  exists d, (mkDate ty tm (Z.min (dy d) (last_day_of_month ty tm))).
  pose proof V as [Vy [Vm Vd]]. cbn [yr mo dy] in *.
  split; auto. split; auto. split; [apply target_month_index; auto|]. split; auto.
  now rewrite last_day_month_days by auto.
Qed.

Lemma last_of_month_iff : forall t, valid_ymd t -> (last_of_month t <-> dy t = month_days (is_leap (yr t)) (mo t)).
Proof.
  intros t [Vm Vd]. unfold last_of_month, next_day.
  destruct (dy t <? month_days (is_leap (yr t)) (mo t)) eqn:E; cbn [dy]; [lia|].
  destruct (mo t <? 12); cbn [dy]; lia.
Qed.

Lemma eomonth_spec : forall s x d k t, try_serial_to_date s x = Ok d ->
  valid_date t -> month_index t = month_index d + k -> last_of_month t ->
  eomonth s x k = Ok (date_to_serial s t).
Proof.
  intros s x d k t E [Vy V] I D. apply last_of_month_iff in D; auto. destruct V as [Vm Vd].
  unfold eomonth. rewrite E. cbn [rbind].
  apply target_month_index in I; auto. rewrite I. rewrite last_day_month_days by auto.
  rewrite <- D.
  assert (F : from_ymd_opt (yr t) (mo t) (dy t) = Some t).
  { apply from_ymd_opt_some. destruct t. split; auto. split; auto. split; auto. }
  now rewrite F.
Qed.

Lemma eomonth_inv : forall s x k r, eomonth s x k = Ok r ->
  exists d t, try_serial_to_date s x = Ok d /\ valid_date t /\ month_index t = month_index d + k /\
     last_of_month t /\ r = date_to_serial s t.
Proof.
  intros s x k r H. unfold eomonth in H.
  destruct (try_serial_to_date s x) as [d| |] eqn:E; try discriminate. cbn [rbind] in H.
  destruct (target_month d k) as [ty tm] eqn:T.
  destruct (from_ymd_opt _ _ _) eqn:F; try discriminate. cbn in H. inversion H; subst.
  apply from_ymd_opt_some in F. destruct F as [-> V].
  exists d, (mkDate ty tm (last_day_of_month ty tm)).
  pose proof V as [Vy [Vm Vd]]. cbn [yr mo dy] in *.
  split; auto. split; auto. split; [apply target_month_index; auto|]. split; auto.
  apply last_of_month_iff; [apply V|]. cbn [yr mo dy]. now rewrite last_day_month_days by auto.
Qed.

Lemma eomonth_fails : forall s x d k, try_serial_to_date s x = Ok d ->
  (forall t, valid_date t -> month_index t <> month_index d + k) -> eomonth s x k = Err DNum.
Proof.
  intros s x d k E H. unfold eomonth. rewrite E. cbn [rbind].
  destruct (target_month d k) as [ty tm] eqn:T.
  destruct (from_ymd_opt _ _ _) eqn:F; auto. exfalso.
  apply from_ymd_opt_some in F. destruct F as [-> V]. apply (H _ V).
  apply target_month_index; [destruct V as [_ [V _]]; exact V|]. exact T.
Qed.

Lemma serial_inj : forall s a b, valid_ymd a -> valid_ymd b ->
  date_to_serial s a = date_to_serial s b -> a = b.
Proof.
  intros s a b Va Vb E. apply day_number_inj; auto. rewrite !serial_number in E.
  destruct s; [destruct (693654 <=? day_number a) eqn:E1; destruct (693654 <=? day_number b) eqn:E2|]; lia.
Qed.

(** A real date's serial, if legal, decodes to the date. *)
Lemma legal_serial_roundtrip : forall s t, valid_date t ->
  validate_excel_serial s (whole (date_to_serial s t)) = Ok tt ->
  try_serial_to_date s (whole (date_to_serial s t)) = Ok t.
Proof.
  intros s t V L. apply validate_ok in L. destruct L as (n & p & E & B). inversion E; subst n p.
  destruct (whole_serial_date s (date_to_serial s t) ltac:(lia)) as (d & Ed & C & _ & Sd).
  assert (N : s = Excel1904 \/ date_to_serial s t <> 60)
    by (destruct s; [right; apply phantom_unused|now left]).
  specialize (Sd N). pose proof (calendar_number s d C) as [Vd _].
  apply serial_inj in Sd; auto; [congruence|apply V].
Qed.

Lemma same_month_last : forall a b, valid_ymd a -> valid_ymd b -> month_index a = month_index b ->
  last_of_month a -> last_of_month b -> a = b.
Proof.
  intros [y m d] [y' m' d'] Va Vb I La Lb. apply last_of_month_iff in La, Lb; auto.
  destruct Va as [? ?], Vb as [? ?]. unfold month_index in I. cbn [yr mo dy] in *.
  assert (y = y' /\ m = m') as [-> ->] by lia. f_equal. lia.
Qed.

Lemma eomonth_compose : forall s x a b r, eomonth s x a = Ok r ->
  validate_excel_serial s (whole r) = Ok tt ->
  eomonth s (whole r) b = eomonth s x (a + b).
Proof.
  intros s x a b r H L. apply eomonth_inv in H. destruct H as (d & t & E & V & I & D & ->).
  pose proof (legal_serial_roundtrip s t V L) as E2.
  unfold eomonth. rewrite E, E2. cbn [rbind].
  replace (target_month t b) with (target_month d (a + b)); [reflexivity|].
  unfold target_month. unfold month_index in I. f_equal; f_equal; f_equal; lia.
Qed.

Lemma edate_two_steps_month : forall s x a b r r1 r2 t1 t2, edate s x a = Ok r ->
  validate_excel_serial s (whole r) = Ok tt ->
  edate s (whole r) b = Ok r1 -> edate s x (a + b) = Ok r2 ->
  valid_date t1 -> valid_date t2 -> date_to_serial s t1 = r1 -> date_to_serial s t2 = r2 ->
  month_index t1 = month_index t2.
Proof.
  intros s x a b r r1 r2 t1 t2 H L H1 H2 V1 V2 S1 S2.
  apply edate_inv in H. destruct H as (d & t & E & V & I & D & ->).
  pose proof (legal_serial_roundtrip s t V L) as E2.
  apply edate_inv in H1. destruct H1 as (d1 & u1 & E1 & W1 & I1 & D1 & R1).
  apply edate_inv in H2. destruct H2 as (d2 & u2 & E3 & W2 & I2 & D2 & R2).
  assert (t1 = u1) by (apply (serial_inj s); [apply V1|apply W1|congruence]).
  assert (t2 = u2) by (apply (serial_inj s); [apply V2|apply W2|congruence]).
  assert (d1 = t) by congruence. assert (d2 = d) by congruence. subst. lia.
Qed.

(** DATE. *)
Definition no_overflow (y m d : Z) : Prop :=
  in_i32 (y * 12) = true /\ in_i32 (y * 12 + m) = true /\ in_i32 (y * 12 + m - 1) = true /\ in_i32 (d - 1) = true.

(** [t] is [n] (possibly negative) days after [a]. *)
Definition signed_days_later (n : Z) (a t : date) : Prop :=
  (0 <= n -> days_later (Z.to_nat n) a t) /\ (n < 0 -> days_later (Z.to_nat (- n)) t a).

Lemma signed_number : forall n a t, valid_ymd a -> valid_ymd t ->
  (signed_days_later n a t <-> day_number t = day_number a + n).
Proof.
  intros n a t Va Vt. unfold signed_days_later. split.
  - intros [P Q]. destruct (Z_lt_le_dec n 0) as [L|L].
    + specialize (Q L). apply days_later_number in Q; auto. lia.
    + specialize (P L). apply days_later_number in P; auto. lia.
  - intros E. split; intros L; apply days_later_number; auto; split; auto; lia.
Qed.

Lemma create_unfold : forall y m d, no_overflow y m d ->
  create_date_normalized y m d =
  rbind (ok_or_num (from_ymd_opt (Z.quot (y * 12 + m - 1) 12) (Z.rem (y * 12 + m - 1) 12 + 1) 1)) (fun first =>
  ok_or_num (checked_add_days first (d - 1))).
Proof. intros y m d (A & B & C & D). unfold create_date_normalized. now rewrite A, B, C, D. Qed.

Lemma create_date_spec : forall y m d first t, no_overflow y m d -> 0 <= y * 12 + m - 1 ->
  valid_date first -> dy first = 1 -> month_index first = 12 * y + m - 1 ->
  valid_date t -> signed_days_later (d - 1) first t ->
  create_date_normalized y m d = Ok t.
Proof.
  intros y m d first t O P Vf Df If Vt S. rewrite create_unfold by auto.
  rewrite Z.quot_div_nonneg, Z.rem_mod_nonneg by lia.
  assert (F : from_ymd_opt ((y * 12 + m - 1) / 12) ((y * 12 + m - 1) mod 12 + 1) 1 = Some first).
  { apply from_ymd_opt_some. split; auto. destruct first as [fy fm fd]. unfold month_index in If.
    destruct Vf as [_ [Vm _]]. cbn [yr mo dy] in *. f_equal; lia. }
  rewrite F. cbn [ok_or_num rbind].
  assert (C : checked_add_days first (d - 1) = Some t).
  { apply checked_add_days_some. split; auto. apply (signed_number (d - 1) first t (proj2 Vf) (proj2 Vt)) in S. lia. }
  now rewrite C.
Qed.

Lemma ok_or_num_ok : forall A (o : option A) a, ok_or_num o = Ok a -> o = Some a.
Proof. intros A [x|] a H; cbn in H; congruence. Qed.

Lemma create_date_inv : forall y m d t, no_overflow y m d -> create_date_normalized y m d = Ok t ->
  exists first, valid_date first /\ dy first = 1 /\ month_index first = 12 * y + m - 1 /\
    valid_date t /\ signed_days_later (d - 1) first t.
Proof.
  intros y m d t O H. rewrite create_unfold in H by auto.
  apply rbind_ok in H. destruct H as (first & F & C). apply ok_or_num_ok in F, C.
  apply from_ymd_opt_some in F. destruct F as [F V]. apply checked_add_days_some in C. destruct C as [Vt N].
  exists first. split; [exact V|].
  assert (G: dy first = 1 /\ month_index first = 12 * y + m - 1).
  { rewrite F. split; [reflexivity|]. unfold month_index. cbn [yr mo].
   replace (y * 12 + m - 1) with (12 * y + m - 1) by ring.
   rewrite Z.add_simpl_r, <- Z.quot_rem'. reflexivity. }
  destruct G as [G1 G2]. split; [exact G1|]. split; [exact G2|]. split; [exact Vt|].
  apply signed_number; [apply V|apply Vt|exact N].
Qed.

(** TIME. *)
Lemma hms : forall n, 0 <= n < 86400 ->
  ((0 <=? n / 3600) && (n / 3600 <? 24) && (0 <=? n mod 3600 / 60) && (n mod 3600 / 60 <? 60)
     && (0 <=? n mod 60) && (n mod 60 <? 60)) = true /\
  n / 3600 * 3600 + n mod 3600 / 60 * 60 + n mod 60 = n.
Proof.
  intros n Hn.
  assert (A : n = 3600 * (n / 3600) + n mod 3600) by (apply Z.div_mod; lia).
  assert (B : 0 <= n mod 3600 < 3600) by (apply Z.mod_pos_bound; lia).
  assert (C : n mod 60 = (n mod 3600) mod 60).
  { rewrite A at 1. replace (3600 * (n / 3600) + n mod 3600) with (n mod 3600 + (60 * (n / 3600)) * 60) by ring.
    apply Z.mod_add; lia. }
  rewrite C. revert A B. clear C. generalize (n / 3600) as h. generalize (n mod 3600) as r. intros r h A B.
  assert (D : r = 60 * (r / 60) + r mod 60) by (apply Z.div_mod; lia).
  assert (E : 0 <= r mod 60 < 60) by (apply Z.mod_pos_bound; lia).
  revert D E. generalize (r / 60) as m. generalize (r mod 60) as t. intros t m D E. clear -A B D E Hn.
  split; [|lia]. rewrite !andb_true_iff, !Z.leb_le, !Z.ltb_lt. lia.
Qed.

Lemma time_spec : forall h m s,
  Z.abs h * 3600 + Z.abs m * 60 + Z.abs s <= 2147397247 ->
  time_fn h m s = Ok ((3600 * h + 60 * m + s) mod 86400).
Proof.
  intros h m s B. unfold time_fn.
  assert (I1 : in_i32 (h * 3600) = true) by (unfold in_i32; lia).
  assert (I2 : in_i32 (m * 60) = true) by (unfold in_i32; lia).
  assert (I3 : in_i32 (h * 3600 + m * 60) = true) by (unfold in_i32; lia).
  assert (I4 : in_i32 (h * 3600 + m * 60 + s) = true) by (unfold in_i32; lia).
  rewrite I1, I2, I3, I4. cbn [negb orb].
  replace (3600 * h + 60 * m + s) with (h * 3600 + m * 60 + s) by lia.
  assert (Bt : Z.abs (h * 3600 + m * 60 + s) <= 2147397247) by lia. clear I1 I2 I3 I4 B.
  revert Bt. generalize (h * 3600 + m * 60 + s) as t. clear h m s. intros t Bt.
  assert (G : forall n, 0 <= n -> n mod 86400 = t mod 86400 ->
    (let t0 := Z.rem n 86400 in
     let h := Z.quot t0 3600 in let m := Z.quot (Z.rem t0 3600) 60 in let sec := Z.rem t0 60 in
     if (0 <=? h) && (h <? 24) && (0 <=? m) && (m <? 60) && (0 <=? sec) && (sec <? 60)
     then @Ok derr Z (h * 3600 + m * 60 + sec) else Err DNum) = Ok (t mod 86400)).
  { intros n Hn E. cbv zeta. rewrite (Z.rem_mod_nonneg n 86400) by lia. rewrite E.
    pose proof (Z.mod_pos_bound t 86400 ltac:(lia)) as R. revert R. generalize (t mod 86400) as k. intros k R.
    rewrite !(Z.rem_mod_nonneg k) by lia. rewrite !Z.quot_div_nonneg; try lia.
    destruct (hms k R) as [H1 H2]. now rewrite H1, H2. }
  destruct (t <? 0) eqn:E.
  - assert (Q : Z.quot (- t - 1) 86400 = (- t - 1) / 86400) by (apply Z.quot_div_nonneg; lia).
    rewrite Q. clear Q.
    assert (I5 : in_i32 (- t) = true) by (unfold in_i32; lia).
    assert (I6 : in_i32 (((- t - 1) / 86400 + 1) * 86400) = true) by (unfold in_i32; lia).
    rewrite I5, I6. cbn [negb orb andb]. apply G; [lia|].
    apply Z.mod_add; lia.
  - cbn [andb]. apply G; [lia|reflexivity].
Qed.
