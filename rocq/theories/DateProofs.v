(** Calendar lemmas: day numbers against day-by-day stepping. *)
From Coq Require Import ZifyBool Znumtheory.
From Verif Require Import Base DateModel DateSpec.
Local Open Scope Z_scope.
Ltac Zify.zify_post_hook ::= Z.div_mod_to_equations.

Lemma mod0_divide : forall a b, 0 < b -> (a mod b =? 0) = true <-> (b | a).
Proof.
  intros a b Hb. rewrite Z.eqb_eq. split; intros H.
  - apply Z.mod_divide; lia.
  - apply Z.mod_divide in H; lia.
Qed.

Lemma is_leap_iff : forall y, is_leap y = true <-> leap_year y.
Proof.
  intros y. unfold is_leap, leap_year.
  rewrite andb_true_iff, orb_true_iff, negb_true_iff.
  rewrite mod0_divide by lia. rewrite (mod0_divide y 400) by lia.
  rewrite <- not_true_iff_false, mod0_divide by lia. tauto.
Qed.

Lemma month_cases : forall m, 1 <= m <= 12 ->
  m = 1 \/ m = 2 \/ m = 3 \/ m = 4 \/ m = 5 \/ m = 6 \/ m = 7 \/ m = 8 \/ m = 9 \/ m = 10 \/ m = 11 \/ m = 12.
Proof. intros; lia. Qed.

Ltac month_split m H :=
  destruct (month_cases m H) as [?|[?|[?|[?|[?|[?|[?|[?|[?|[?|[?|?]]]]]]]]]]]; subst m.

Lemma month_len_days : forall y m, 1 <= m <= 12 -> month_len y m = month_days (is_leap y) m.
Proof.
  intros y m H. unfold month_len, month_days. destruct (is_leap y); month_split m H; reflexivity.
Qed.

Lemma month_days_bounds : forall b m, 1 <= m <= 12 -> 28 <= month_days b m <= 31.
Proof. intros b m H. destruct b; month_split m H; split; vm_compute; intros; discriminate. Qed.

Lemma year_step : forall y,
  days_before_year (y + 1) = days_before_year y + 365 + (if is_leap y then 1 else 0).
Proof.
  intros y. unfold days_before_year, is_leap.
  replace (y + 1 - 1) with y by lia.
  assert (H4 : y / 4 - (y - 1) / 4 = if y mod 4 =? 0 then 1 else 0) by (destruct (y mod 4 =? 0) eqn:E; lia).
  assert (H100 : y / 100 - (y - 1) / 100 = if y mod 100 =? 0 then 1 else 0) by (destruct (y mod 100 =? 0) eqn:E; lia).
  assert (H400 : y / 400 - (y - 1) / 400 = if y mod 400 =? 0 then 1 else 0) by (destruct (y mod 400 =? 0) eqn:E; lia).
  assert (D1 : y mod 400 = 0 -> y mod 100 = 0) by lia.
  assert (D2 : y mod 100 = 0 -> y mod 4 = 0) by lia.
  destruct (y mod 4 =? 0) eqn:E4; destruct (y mod 100 =? 0) eqn:E100; destruct (y mod 400 =? 0) eqn:E400;
    cbn [andb orb negb]; lia.
Qed.

Lemma year_mono_nat : forall n y, days_before_year y + 365 * Z.of_nat n <= days_before_year (y + Z.of_nat n).
Proof.
  induction n as [|n IH]; intros y.
  - replace (y + Z.of_nat 0) with y by lia. lia.
  - replace (y + Z.of_nat (S n)) with ((y + Z.of_nat n) + 1) by lia. rewrite year_step.
    specialize (IH y). destruct (is_leap _); lia.
Qed.

Lemma year_mono : forall a b, a <= b -> days_before_year a + 365 * (b - a) <= days_before_year b.
Proof.
  intros a b H. pose proof (year_mono_nat (Z.to_nat (b - a)) a) as Y.
  replace (a + Z.of_nat (Z.to_nat (b - a))) with b in Y by lia. lia.
Qed.

Lemma dby_bounds : forall y,
  146097 * (y - 1) - 800 < 400 * days_before_year y /\ 400 * days_before_year y < 146097 * (y - 1) + 800.
Proof. intros y. unfold days_before_year. lia. Qed.

Lemma year_of_day_spec : forall n,
  days_before_year (year_of_day n) <= n < days_before_year (year_of_day n + 1).
Proof.
  intros n. unfold year_of_day. cbv zeta.
  set (y := 400 * n / 146097 + 1).
  assert (Hy : 146097 * (y - 1) <= 400 * n < 146097 * y) by (unfold y; lia).
  clearbody y.
  pose proof (dby_bounds (y - 1)) as B0. pose proof (dby_bounds y) as B1.
  pose proof (dby_bounds (y + 1)) as B2. pose proof (dby_bounds (y + 1 + 1)) as B3.
  destruct (days_before_year (y + 1) <=? n) eqn:E1.
  - apply Z.leb_le in E1. lia.
  - apply Z.leb_gt in E1. destruct (n <? days_before_year y) eqn:E2.
    + apply Z.ltb_lt in E2. replace (y - 1 + 1) with y by lia. lia.
    + apply Z.ltb_ge in E2. lia.
Qed.

Lemma year_of_day_unique : forall n y,
  days_before_year y <= n < days_before_year (y + 1) -> year_of_day n = y.
Proof.
  intros n y H. pose proof (year_of_day_spec n) as S.
  destruct (Z.lt_trichotomy (year_of_day n) y) as [L|[E|G]]; auto.
  - pose proof (year_mono (year_of_day n + 1) y). lia.
  - pose proof (year_mono (y + 1) (year_of_day n)). lia.
Qed.

(** Month boundaries. *)
Lemma dbm_step : forall y m, 1 <= m < 12 ->
  days_before_month y (m + 1) = days_before_month y m + month_len y m.
Proof.
  intros y m H. assert (H' : 1 <= m <= 12) by lia. unfold days_before_month, month_len.
  destruct (is_leap y); month_split m H'; try lia; reflexivity.
Qed.

Lemma dbm_last : forall y, days_before_month y 12 + month_len y 12 = 365 + (if is_leap y then 1 else 0).
Proof. intros y. unfold days_before_month, month_len. destruct (is_leap y); reflexivity. Qed.

Lemma dbm_1 : forall y, days_before_month y 1 = 0.
Proof. reflexivity. Qed.

Lemma month_of_ordinal_spec : forall y o, 0 <= o < 365 + (if is_leap y then 1 else 0) ->
  let m := month_of_ordinal y o in
  1 <= m <= 12 /\ days_before_month y m <= o < days_before_month y m + month_len y m.
Proof.
  intros y o H. unfold month_of_ordinal, days_before_month, month_len.
  destruct (is_leap y); cbn [Z.leb Z.eqb Z.compare Pos.compare Pos.compare_cont Pos.eqb orb Z.add Pos.add];
  cbn -[Z.ltb];
  repeat match goal with |- context [o <? ?k] => destruct (o <? k) eqn:?E end; cbn; lia.
Qed.

Lemma dbm_mono : forall y m m', 1 <= m -> m < m' -> m' <= 12 ->
  days_before_month y m + month_len y m <= days_before_month y m'.
Proof.
  intros y m m' H1 H2 H3.
  assert (Hm : 1 <= m <= 12) by lia. assert (Hm' : 1 <= m' <= 12) by lia.
  unfold days_before_month, month_len. destruct (is_leap y);
  month_split m Hm; month_split m' Hm'; cbn; lia.
Qed.

Lemma dbm_range : forall y m, 1 <= m <= 12 ->
  0 <= days_before_month y m /\ days_before_month y m + month_len y m <= 365 + (if is_leap y then 1 else 0).
Proof.
  intros y m H. unfold days_before_month, month_len. destruct (is_leap y); month_split m H; cbn; lia.
Qed.

Lemma month_of_ordinal_unique : forall y o m, 1 <= m <= 12 ->
  days_before_month y m <= o < days_before_month y m + month_len y m -> month_of_ordinal y o = m.
Proof.
  intros y o m Hm H. pose proof (dbm_range y m Hm) as R.
  destruct (month_of_ordinal_spec y o ltac:(lia)) as [Q1 Q2].
  destruct (Z.lt_trichotomy (month_of_ordinal y o) m) as [L|[E|G]]; auto.
  - pose proof (dbm_mono y (month_of_ordinal y o) m). lia.
  - pose proof (dbm_mono y m (month_of_ordinal y o)). lia.
Qed.

(** Round trips between dates and day numbers. *)
Lemma date_of_day_number_valid : forall n, valid_ymd (date_of_day_number n).
Proof.
  intros n. unfold date_of_day_number, valid_ymd. cbv zeta. cbn [yr mo dy].
  pose proof (year_of_day_spec n) as S. rewrite year_step in S.
  destruct (month_of_ordinal_spec (year_of_day n) (n - days_before_year (year_of_day n)) ltac:(lia)) as [Q1 Q2].
  rewrite <- month_len_days by lia. lia.
Qed.

Lemma day_number_of_date : forall n, day_number (date_of_day_number n) = n.
Proof. intros n. unfold day_number, date_of_day_number. cbv zeta. cbn [yr mo dy]. lia. Qed.

Lemma date_of_day_number_inv : forall d, valid_ymd d -> date_of_day_number (day_number d) = d.
Proof.
  intros [y m d] [Hm Hd]. unfold date_of_day_number, day_number in *. cbn [yr mo dy] in *.
  rewrite <- month_len_days in Hd by lia.
  pose proof (dbm_range y m Hm) as R.
  assert (Y : year_of_day (days_before_year y + days_before_month y m + (d - 1)) = y).
  { apply year_of_day_unique. rewrite year_step. lia. }
  rewrite Y.
  assert (M : month_of_ordinal y (days_before_year y + days_before_month y m + (d - 1) - days_before_year y) = m).
  { apply month_of_ordinal_unique; lia. }
  rewrite M. f_equal. lia.
Qed.

Lemma day_number_inj : forall a b, valid_ymd a -> valid_ymd b -> day_number a = day_number b -> a = b.
Proof.
  intros a b Ha Hb E. rewrite <- (date_of_day_number_inv a), <- (date_of_day_number_inv b) by auto. now rewrite E.
Qed.

(** Stepping. *)
Lemma next_day_valid : forall d, valid_ymd d -> valid_ymd (next_day d).
Proof.
  intros [y m d] [Hm Hd]. unfold next_day, valid_ymd in *. cbn [yr mo dy] in *.
  destruct (d <? month_days (is_leap y) m) eqn:E; cbn [yr mo dy]; [lia|].
  destruct (m <? 12) eqn:E2; cbn [yr mo dy].
  - pose proof (month_days_bounds (is_leap y) (m + 1)). lia.
  - pose proof (month_days_bounds (is_leap (y + 1)) 1). lia.
Qed.

Lemma day_number_next : forall d, valid_ymd d -> day_number (next_day d) = day_number d + 1.
Proof.
  intros [y m d] [Hm Hd]. unfold next_day, day_number, valid_ymd in *. cbn [yr mo dy] in *.
  destruct (d <? month_days (is_leap y) m) eqn:E; cbn [yr mo dy]; [lia|].
  destruct (m <? 12) eqn:E2; cbn [yr mo dy].
  - rewrite dbm_step by lia. rewrite month_len_days by lia. lia.
  - assert (m = 12) by lia. subst m. rewrite year_step, dbm_1.
    pose proof (dbm_last y). rewrite month_len_days in * by lia. lia.
Qed.

Lemma next_day_of_number : forall n, next_day (date_of_day_number n) = date_of_day_number (n + 1).
Proof.
  intros n. apply day_number_inj.
  - apply next_day_valid, date_of_day_number_valid.
  - apply date_of_day_number_valid.
  - rewrite day_number_next by apply date_of_day_number_valid. rewrite !day_number_of_date. reflexivity.
Qed.

Lemma days_later_valid : forall n a b, days_later n a b -> valid_ymd a -> valid_ymd b.
Proof. induction 1; auto using next_day_valid. Qed.

Lemma days_later_number : forall n a b, valid_ymd a ->
  days_later n a b <-> (valid_ymd b /\ day_number b = day_number a + Z.of_nat n).
Proof.
  induction n as [|n IH]; intros a b Va.
  - split.
    + inversion 1; subst. split; [auto|lia].
    + intros [Vb E]. replace b with a; [constructor|]. apply day_number_inj; auto; lia.
  - split.
    + inversion 1; subst. apply IH in H1; auto. destruct H1 as [V E].
      split; [now apply next_day_valid|]. rewrite day_number_next by auto. lia.
    + intros [Vb E].
      assert (Hb : b = next_day (date_of_day_number (day_number b - 1))).
      { rewrite next_day_of_number. replace (day_number b - 1 + 1) with (day_number b) by lia.
        symmetry. now apply date_of_day_number_inv. }
      rewrite Hb. constructor. apply IH; auto. split; [apply date_of_day_number_valid|].
      rewrite day_number_of_date. lia.
Qed.

(** Order. *)
Lemma date_lt_number : forall a b, valid_ymd a -> valid_ymd b ->
  (date_lt a b <-> day_number a < day_number b).
Proof.
  intros [y m d] [y' m' d'] [Hm Hd] [Hm' Hd']. unfold date_lt, day_number in *. cbn [yr mo dy] in *.
  rewrite <- month_len_days in Hd, Hd' by lia.
  pose proof (dbm_range y m Hm) as R. pose proof (dbm_range y' m' Hm') as R'.
  assert (A : forall y y' x x', y < y' -> 0 <= x' -> x < 365 + (if is_leap y then 1 else 0) ->
     days_before_year y + x < days_before_year y' + x').
  { intros u u' x x' Hu Hx Hx'. pose proof (year_mono (u + 1) u'). rewrite year_step in H. lia. }
  assert (B : forall m m' y, 1 <= m -> m < m' -> m' <= 12 ->
     days_before_month y m + month_len y m <= days_before_month y m') by (intros; apply dbm_mono; lia).
  split.
  - intros [H|[-> [H|[-> H]]]].
    + specialize (A y y' (days_before_month y m + (d - 1)) (days_before_month y' m' + (d' - 1))). lia.
    + specialize (B m m' y'). lia.
    + lia.
  - intros H. destruct (Z.lt_trichotomy y y') as [L|[E|G]]; [auto| |].
    + subst y'. right. split; auto. destruct (Z.lt_trichotomy m m') as [L|[E|G]]; [auto| |].
      * subst m'. right. split; auto. lia.
      * specialize (B m' m y). lia.
    + specialize (A y' y (days_before_month y' m' + (d' - 1)) (days_before_month y m + (d - 1))). lia.
Qed.

Lemma from_ymd_opt_some : forall y m d x, from_ymd_opt y m d = Some x <->
  x = mkDate y m d /\ valid_date x.
Proof.
  intros y m d x. unfold from_ymd_opt, valid_date, valid_ymd. split.
  - destruct (_ && _) eqn:E; intros H; inversion H; subst. cbn [yr mo dy].
    rewrite !andb_true_iff in E. rewrite <- month_len_days by lia. split; auto. lia.
  - intros [-> [Hy [Hm Hd]]]. cbn [yr mo dy] in *. rewrite <- month_len_days in Hd by lia.
    assert (E : ((MIN_YEAR <=? y) && (y <=? MAX_YEAR) && (1 <=? m) && (m <=? 12)
     && (1 <=? d) && (d <=? month_len y m)) = true) by (rewrite !andb_true_iff; lia).
    now rewrite E.
Qed.

Lemma from_ymd_opt_none : forall y m d, from_ymd_opt y m d = None <-> ~ valid_date (mkDate y m d).
Proof.
  intros y m d. destruct (from_ymd_opt y m d) eqn:E.
  - apply from_ymd_opt_some in E. destruct E as [-> V]. split; [discriminate|tauto].
  - split; auto. intros _ V. assert (X : from_ymd_opt y m d = Some (mkDate y m d)) by (apply from_ymd_opt_some; auto).
    congruence.
Qed.

Lemma checked_add_days_some : forall d n r,
  checked_add_days d n = Some r <-> (valid_date r /\ day_number r = day_number d + n).
Proof.
  intros d n r. unfold checked_add_days. cbv zeta.
  destruct (_ && _) eqn:E.
  - apply andb_true_iff in E. split.
    + intros H; inversion H; subst. split.
      * split; [lia|]. apply date_of_day_number_valid.
      * apply day_number_of_date.
    + intros [[V1 V2] N]. rewrite <- N, date_of_day_number_inv by auto. reflexivity.
  - split; [discriminate|]. intros [[V1 V2] N]. exfalso.
    rewrite <- N, date_of_day_number_inv in E by auto. apply andb_false_iff in E. lia.
Qed.

Lemma year_of_date_bounds : forall n lo hi,
  days_before_year lo <= n < days_before_year (hi + 1) ->
  lo <= yr (date_of_day_number n) <= hi.
Proof.
  intros n lo hi H. cbn. pose proof (year_of_day_spec n) as S.
  split; apply Z.nlt_ge; intros C.
  - pose proof (year_mono (year_of_day n + 1) lo). lia.
  - pose proof (year_mono (hi + 1) (year_of_day n)). lia.
Qed.
