(** Proofs for serial conversion, EDATE/EOMONTH, DATE and TIME. *)
From Coq Require Import ZifyBool Znumtheory.
From Verif Require Import Base DateModel DateSpec DateProofs.
Local Open Scope Z_scope.
Ltac Zify.zify_post_hook ::= Z.div_mod_to_equations.

Lemma dn_epoch1900 : day_number EPOCH_1900 = 693594. Proof. reflexivity. Qed.
Lemma dn_epoch1904 : day_number EPOCH_1904 = 695055. Proof. reflexivity. Qed.
Lemma dn_max : day_number MAX_DATE = 3652058. Proof. reflexivity. Qed.
Lemma dn_cutoff : day_number PHANTOM_CUTOFF = 693654. Proof. reflexivity. Qed.
Lemma max1900 : max_excel_serial Excel1900 = 2958465. Proof. reflexivity. Qed.
Lemma max1904 : max_excel_serial Excel1904 = 2957003. Proof. reflexivity. Qed.

Lemma serial_number : forall s d, date_to_serial s d =
  match s with
  | Excel1900 => day_number d - 693594 + (if 693654 <=? day_number d then 1 else 0)
  | Excel1904 => day_number d - 695055
  end.
Proof.
  intros [|] d; unfold date_to_serial, num_days_between, date_leb.
  - rewrite dn_epoch1900, dn_cutoff. destruct (693654 <=? day_number d); lia.
  - rewrite dn_epoch1904. lia.
Qed.

Lemma whole_trunc : forall n, s_trunc n 1 = n.
Proof. intros n. unfold s_trunc. apply Z.quot_1_r. Qed.

Lemma validate_ok : forall s x,
  validate_excel_serial s x = Ok tt <->
  exists num den, x = SFin num den /\ 0 <= num < (max_excel_serial s + 1) * Zpos den.
Proof.
  intros s x. unfold validate_excel_serial. destruct x as [| |num den].
  - split; [discriminate|intros (n & d & H & _); discriminate].
  - split; [discriminate|intros (n & d & H & _); discriminate].
  - assert (M : 0 <= max_excel_serial s) by (destruct s; vm_compute; discriminate).
    destruct ((num <? 0) || (max_excel_serial s <? s_trunc num den)) eqn:E.
    + split; [discriminate|]. intros (n & d & H & B). inversion H; subst n d.
      apply orb_true_iff in E. exfalso. destruct E as [E|E]; [lia|].
      apply Z.ltb_lt in E. unfold s_trunc in E. rewrite Z.quot_div_nonneg in E by lia.
      assert (num / Zpos den < max_excel_serial s + 1) by (apply Z.div_lt_upper_bound; lia). lia.
    + split; auto. intros _. exists num, den. split; auto.
      apply orb_false_iff in E. destruct E as [E1 E2].
      apply Z.ltb_ge in E1. apply Z.ltb_ge in E2. split; auto.
      unfold s_trunc in E2. rewrite Z.quot_div_nonneg in E2 by lia.
      pose proof (Z.mul_succ_div_gt num (Zpos den) ltac:(lia)). nia.
Qed.

Lemma validate_unit : forall s x, validate_excel_serial s x = Ok tt \/ validate_excel_serial s x = Err DNum.
Proof.
  intros s [| |n d]; cbn; auto. destruct (_ || _); auto.
Qed.

Lemma validate_whole : forall s w, 0 <= w <= max_excel_serial s -> validate_excel_serial s (whole w) = Ok tt.
Proof. intros s w H. apply validate_ok. exists w, 1%positive. split; auto. lia. Qed.

Lemma calendar_number : forall s d, in_calendar s d ->
  valid_ymd d /\ match s with Excel1900 => 693594 | Excel1904 => 695055 end <= day_number d <= 3652058.
Proof.
  intros s d [[Vy V] [Y E]]. split; auto.
  assert (L : forall y0 n, y0 <= yr d -> days_before_year y0 = n -> n <= day_number d).
  { intros y0 n Hy Hn. destruct V as [Hm Hd]. unfold day_number.
    pose proof (year_mono y0 (yr d) Hy). pose proof (dbm_range (yr d) (mo d) Hm). lia. }
  assert (U : day_number d < days_before_year 10000).
  { destruct V as [Hm Hd]. rewrite <- month_len_days in Hd by lia. unfold day_number.
    pose proof (year_mono (yr d + 1) 10000 ltac:(lia)). rewrite year_step in H.
    pose proof (dbm_range (yr d) (mo d) Hm). lia. }
  change (days_before_year 10000) with 3652059 in U.
  destruct s.
  - destruct E as [E|E].
    + specialize (L 1900 693595 E eq_refl). lia.
    + subst d. vm_compute. split; discriminate.
  - specialize (L 1904 695055 E eq_refl). lia.
Qed.

Lemma number_valid_date : forall d, valid_ymd d -> 0 <= day_number d <= 3652058 -> valid_date d.
Proof.
  intros d V N. split; auto.
  rewrite <- (date_of_day_number_inv d V).
  pose proof (year_of_date_bounds (day_number d) 1 9999) as B.
  change (days_before_year 1) with 0 in B. change (days_before_year (9999 + 1)) with 3652059 in B.
  unfold MIN_YEAR, MAX_YEAR. lia.
Qed.

Lemma serial_roundtrip : forall s d, in_calendar s d ->
  try_serial_to_date s (whole (date_to_serial s d)) = Ok d.
Proof.
  intros s d H. pose proof (calendar_number s d H) as [V N]. destruct H as [Vd _].
  assert (R : 0 <= date_to_serial s d <= max_excel_serial s).
  { rewrite serial_number. destruct s; [rewrite max1900|rewrite max1904]; destruct (693654 <=? day_number d) eqn:E; lia. }
  unfold try_serial_to_date. rewrite (validate_whole s _ R). cbn [rbind whole].
  rewrite whole_trunc. rewrite serial_number. unfold date_for_whole_serial. destruct s.
  - destruct (693654 <=? day_number d) eqn:E.
    + replace (day_number d - 693594 + 1 =? 60) with false by lia.
      replace (day_number d - 693594 + 1 <? 60) with false by lia.
      assert (C : checked_add_days EPOCH_1900 (day_number d - 693594 + 1 - 1) = Some d).
      { apply checked_add_days_some. rewrite dn_epoch1900. split; auto; lia. }
      now rewrite C.
    + replace (day_number d - 693594 + 0 =? 60) with false by lia.
      replace (day_number d - 693594 + 0 <? 60) with true by lia.
      assert (C : checked_add_days EPOCH_1900 (day_number d - 693594 + 0) = Some d).
      { apply checked_add_days_some. rewrite dn_epoch1900. split; auto; lia. }
      now rewrite C.
  - assert (C : checked_add_days EPOCH_1904 (day_number d - 695055) = Some d).
    { apply checked_add_days_some. rewrite dn_epoch1904. split; auto; lia. }
    now rewrite C.
Qed.

Lemma serial_increasing : forall s a b, valid_ymd a -> valid_ymd b ->
  (date_lt a b <-> date_to_serial s a < date_to_serial s b).
Proof.
  intros s a b Va Vb. rewrite date_lt_number by auto. rewrite !serial_number.
  destruct s; [destruct (693654 <=? day_number a) eqn:E1; destruct (693654 <=? day_number b) eqn:E2|]; lia.
Qed.

Lemma serial_step : forall s d, valid_ymd d ->
  date_to_serial s (next_day d) = date_to_serial s d +
    match s with
    | Excel1900 => if (yr d =? 1900) && (mo d =? 2) && (dy d =? 28) then 2 else 1
    | Excel1904 => 1
    end.
Proof.
  intros s d V. rewrite !serial_number. rewrite day_number_next by auto. destruct s; [|lia].
  destruct ((yr d =? 1900) && (mo d =? 2) && (dy d =? 28)) eqn:P.
  - assert (d = PHANTOM_PREVIOUS) by (destruct d; cbn in P; unfold PHANTOM_PREVIOUS; f_equal; lia).
    subst d. reflexivity.
  - assert (day_number d <> 693653).
    { intros E. assert (d = PHANTOM_PREVIOUS).
      { apply day_number_inj; auto. vm_compute. repeat split; discriminate. }
      subst d. discriminate. }
    destruct (693654 <=? day_number d) eqn:E1; destruct (693654 <=? day_number d + 1) eqn:E2; lia.
Qed.

Lemma phantom_unused : forall d, date_to_serial Excel1900 d <> 60.
Proof. intros d. rewrite serial_number. destruct (693654 <=? day_number d) eqn:E; lia. Qed.

Lemma phantom_prev_calendar : in_calendar Excel1900 PHANTOM_PREVIOUS.
Proof.
  split; [split; [split|split; split]; vm_compute; discriminate|].
  split; [vm_compute; discriminate|left; vm_compute; discriminate].
Qed.

(** Converting a legal whole serial always succeeds, inside the calendar. *)
Lemma whole_serial_date : forall s w, 0 <= w <= max_excel_serial s ->
  exists d, try_serial_to_date s (whole w) = Ok d /\ in_calendar s d /\
            (s = Excel1900 -> w = 60 -> d = PHANTOM_PREVIOUS) /\
            (s = Excel1904 \/ w <> 60 -> date_to_serial s d = w).
Proof.
  intros s w R.
  assert (K : forall n, match s with Excel1900 => 693594 | Excel1904 => 695055 end <= n <= 3652058 ->
     in_calendar s (date_of_day_number n)).
  { intros n Hn. assert (V : valid_date (date_of_day_number n)).
    { apply number_valid_date; [apply date_of_day_number_valid|]. rewrite day_number_of_date. destruct s; lia. }
    split; auto. split.
    - pose proof (year_of_date_bounds n 1 9999). change (days_before_year 1) with 0 in *.
      change (days_before_year (9999 + 1)) with 3652059 in *. destruct s; lia.
    - destruct s.
      + destruct (Z.eq_dec n 693594) as [->|Hne]; [right; reflexivity|left].
        pose proof (year_of_date_bounds n 1900 9999). change (days_before_year 1900) with 693595 in *.
        change (days_before_year (9999 + 1)) with 3652059 in *. lia.
      + pose proof (year_of_date_bounds n 1904 9999). change (days_before_year 1904) with 695055 in *.
        change (days_before_year (9999 + 1)) with 3652059 in *. lia. }
  unfold try_serial_to_date. rewrite (validate_whole s w R). cbn [rbind whole]. rewrite whole_trunc.
  unfold date_for_whole_serial. destruct s.
  - rewrite max1900 in R. destruct (w =? 60) eqn:E60.
    + exists PHANTOM_PREVIOUS. split; [reflexivity|]. split; [apply phantom_prev_calendar|]. split; [reflexivity|].
      intros [?|?]; [discriminate|lia].
    + set (n := 693594 + (if w <? 60 then w else w - 1)).
      assert (C : checked_add_days EPOCH_1900 (if w <? 60 then w else w - 1) = Some (date_of_day_number n)).
      { apply checked_add_days_some. rewrite dn_epoch1900, day_number_of_date. split; [|reflexivity].
        apply (K n). unfold n. destruct (w <? 60) eqn:E; lia. }
      rewrite C. exists (date_of_day_number n). split; [reflexivity|]. split; [|split].
      * apply K. unfold n. destruct (w <? 60) eqn:E; lia.
      * lia.
      * intros _. rewrite serial_number, day_number_of_date. unfold n.
        destruct (w <? 60) eqn:E.
        -- replace (693654 <=? 693594 + w) with false by lia. lia.
        -- replace (693654 <=? 693594 + (w - 1)) with true by lia. lia.
  - rewrite max1904 in R.
    assert (C : checked_add_days EPOCH_1904 w = Some (date_of_day_number (695055 + w))).
    { apply checked_add_days_some. rewrite dn_epoch1904, day_number_of_date. split; [|reflexivity].
      apply (K (695055 + w)). lia. }
    rewrite C. exists (date_of_day_number (695055 + w)). split; [reflexivity|]. split; [|split].
    + apply K; lia.
    + discriminate.
    + intros _. rewrite serial_number, day_number_of_date. lia.
Qed.

(** A fractional serial shows the date of its whole part. *)
Lemma serial_date_trunc : forall s num den, validate_excel_serial s (SFin num den) = Ok tt ->
  try_serial_to_date s (SFin num den) = try_serial_to_date s (whole (s_trunc num den)) /\
  0 <= s_trunc num den <= max_excel_serial s.
Proof.
  intros s num den V.
  assert (R : 0 <= s_trunc num den <= max_excel_serial s).
  { unfold validate_excel_serial in V. destruct (_ || _) eqn:E; [discriminate|].
    apply orb_false_iff in E. destruct E as [E1 E2]. apply Z.ltb_ge in E1, E2. split; auto.
    unfold s_trunc. apply Z.quot_pos; lia. }
  split; auto. unfold try_serial_to_date. rewrite V, (validate_whole _ _ R). cbn [rbind whole].
  now rewrite whole_trunc.
Qed.

Lemma try_date_ok_calendar : forall s x d, try_serial_to_date s x = Ok d -> in_calendar s d.
Proof.
  intros s x d H. destruct (validate_unit s x) as [V|V].
  - pose proof V as V'. apply validate_ok in V. destruct V as (num & den & -> & B).
    pose proof (serial_date_trunc s num den V') as [E R]. rewrite E in H.
    destruct (whole_serial_date s _ R) as (d' & E' & C & _). rewrite E' in H. congruence.
  - unfold try_serial_to_date in H. rewrite V in H. discriminate.
Qed.

Lemma try_date_accepts : forall s x, (exists d, try_serial_to_date s x = Ok d) <-> validate_excel_serial s x = Ok tt.
Proof.
  intros s x. split.
  - intros [d H]. destruct (validate_unit s x) as [V|V]; auto.
    unfold try_serial_to_date in H. rewrite V in H. discriminate.
  - intros V. pose proof V as V'. apply validate_ok in V. destruct V as (num & den & -> & B).
    pose proof (serial_date_trunc s num den V') as [E R]. rewrite E.
    destruct (whole_serial_date s _ R) as (d' & E' & _). eauto.
Qed.

Lemma try_date_rejects : forall s x, validate_excel_serial s x <> Ok tt -> try_serial_to_date s x = Err DNum.
Proof.
  intros s x H. destruct (validate_unit s x) as [V|V]; [contradiction|].
  unfold try_serial_to_date. now rewrite V.
Qed.

(** Date and time together, through any serial within half a second of the exact one. *)
Lemma datetime_roundtrip : forall s d t num den, in_calendar s d -> 0 <= t < 86400 ->
  0 <= num ->
  2 * Z.abs (86400 * num - Zpos den * (86400 * date_to_serial s d + t)) < Zpos den ->
  try_serial_to_datetime s (SFin num den) = Ok (d, t).
Proof.
  intros s d t num den C Ht Hn Happ.
  assert (RT : try_serial_to_date s (whole (date_to_serial s d)) = Ok d) by now apply serial_roundtrip.
  assert (V0 : 0 <= date_to_serial s d <= max_excel_serial s).
  { destruct (proj1 (try_date_accepts s _) (ex_intro _ d RT)).
    assert (validate_excel_serial s (whole (date_to_serial s d)) = Ok tt) by (apply try_date_accepts; eauto).
    apply validate_ok in H. destruct H as (n & p & E & B). inversion E; subst. lia. }
  set (w0 := date_to_serial s d) in *.
  assert (DW : date_for_whole_serial s w0 = Ok d).
  { unfold try_serial_to_date in RT. rewrite (validate_whole s w0 V0) in RT. cbn [rbind whole] in RT.
    now rewrite whole_trunc in RT. }
  clearbody w0. clear RT C.
  assert (Q : s_trunc num den = num / Zpos den) by (unfold s_trunc; apply Z.quot_div_nonneg; lia).
  assert (Rm : Z.rem num (Zpos den) = num mod Zpos den) by (apply Z.rem_mod_nonneg; lia).
  set (w := num / Zpos den) in *. set (r := num mod Zpos den) in *.
  assert (DM : num = Zpos den * w + r /\ 0 <= r < Zpos den).
  { split; [apply Z.div_mod; lia| apply Z.mod_pos_bound; lia]. }
  destruct DM as [DM Hr].
  assert (Hw : w = w0 \/ (w = w0 - 1 /\ t = 0)).
  { assert (Zpos den * (86400 * w + 86400) > Zpos den * (86400 * w0 + t) - Zpos den) by nia.
    assert (w0 - 1 <= w) by nia.
    assert (Zpos den * (86400 * w) < Zpos den * (86400 * w0 + t) + Zpos den) by nia.
    assert (w <= w0) by nia.
    destruct (Z.eq_dec w w0); auto. right. split; [lia|]. assert (w = w0 - 1) by lia. nia. }
  unfold try_serial_to_datetime, normalized_serial_parts.
  assert (VV : validate_excel_serial s (SFin num den) = Ok tt).
  { apply validate_ok. exists num, den. split; auto. split; auto. nia. }
  rewrite VV. cbn [rbind]. unfold s_secs. rewrite Q, Rm. fold r.
  destruct Hw as [->|[Hw ->]].
  - assert (S : (2 * (86400 * r) + Zpos den) / (2 * Zpos den) = t).
    { symmetry. apply Z.div_unique with (r := 2 * (86400 * r) + Zpos den - 2 * Zpos den * t); [left|]; nia. }
    rewrite S. replace (t =? 86400) with false by lia. cbn [rbind fst snd]. now rewrite DW.
  - assert (S : (2 * (86400 * r) + Zpos den) / (2 * Zpos den) = 86400).
    { symmetry. apply Z.div_unique with (r := 2 * (86400 * r) + Zpos den - 2 * Zpos den * 86400); [left|]; nia. }
    rewrite S, Hw. replace (86400 =? 86400) with true by reflexivity.
    replace (w0 - 1 + 1) with w0 by lia. replace (max_excel_serial s <? w0) with false by lia.
    cbn [rbind fst snd]. now rewrite DW.
Qed.

(** Decoding to a datetime never leaves the clock or the calendar. *)
Lemma datetime_in_range : forall s x d t, try_serial_to_datetime s x = Ok (d, t) ->
  in_calendar s d /\ 0 <= t < 86400.
Proof.
  intros s x d t H. unfold try_serial_to_datetime, normalized_serial_parts in H.
  destruct (validate_unit s x) as [V|V]; rewrite V in H; [|discriminate].
  cbn [rbind] in H. destruct x as [| |num den]; try discriminate.
  pose proof (serial_date_trunc s num den V) as [_ R].
  assert (B : 0 <= s_secs num den <= 86400).
  { apply validate_ok in V. destruct V as (n & p & E & B). inversion E; subst n p. unfold s_secs.
    rewrite Z.rem_mod_nonneg by lia. pose proof (Z.mod_pos_bound num (Zpos den) ltac:(lia)).
    split; [apply Z.div_pos; lia|]. apply Z.lt_succ_r. apply Z.div_lt_upper_bound; lia. }
  assert (G : forall w, 0 <= w <= max_excel_serial s -> forall d', date_for_whole_serial s w = Ok d' -> in_calendar s d').
  { intros w Rw d' E. apply (try_date_ok_calendar s (whole w)). unfold try_serial_to_date.
    rewrite (validate_whole s w Rw). cbn [rbind whole]. now rewrite whole_trunc. }
  destruct (s_secs num den =? 86400) eqn:E.
  - destruct (max_excel_serial s <? s_trunc num den + 1) eqn:E2; [discriminate|]. cbn [rbind fst snd] in H.
    destruct (date_for_whole_serial s (s_trunc num den + 1)) eqn:E3; try discriminate. cbn [rbind] in H. inversion H; subst.
    split; [|lia]. apply Z.ltb_ge in E2. apply (G (s_trunc num den + 1)); auto. lia.
  - cbn [rbind fst snd] in H.
    destruct (date_for_whole_serial s (s_trunc num den)) eqn:E3; try discriminate. cbn [rbind] in H. inversion H; subst.
    split; [|lia]. apply (G _ R _ E3).
Qed.

(** Display. *)
Definition display (s : system) (w : Z) : option (Z * Z * Z) :=
  match try_serial_to_display s (whole w) with Ok p => Some p | _ => None end.

Lemma display_eq : forall s w d, 0 <= w <= max_excel_serial s ->
  (s = Excel1904 \/ (w <> 0 /\ w <> 60)) ->
  try_serial_to_date s (whole w) = Ok d -> try_serial_to_display s (whole w) = Ok (yr d, mo d, dy d).
Proof.
  intros s w d R H E. unfold try_serial_to_display. rewrite (validate_whole s w R). cbn [rbind whole].
  rewrite whole_trunc. destruct s.
  - replace (w =? 0) with false by (destruct H; [discriminate|lia]).
    replace (w =? 60) with false by (destruct H; [discriminate|lia]). rewrite E. reflexivity.
  - rewrite E. reflexivity.
Qed.

Lemma next_day_fields : forall d, yr (next_day d) = fst (fst (next_display Excel1904 (yr d, mo d, dy d))) /\
  mo (next_day d) = snd (fst (next_display Excel1904 (yr d, mo d, dy d))) /\
  dy (next_day d) = snd (next_display Excel1904 (yr d, mo d, dy d)).
Proof.
  intros d. unfold next_day, next_display, excel_leap.
  destruct (dy d <? month_days (is_leap (yr d)) (mo d)); [cbn; auto|]. destruct (mo d <? 12); cbn; auto.
Qed.

Fixpoint up_to (n : nat) : list Z := match n with O => [] | S k => up_to k ++ [Z.of_nat k] end.
Lemma up_to_In : forall n z, 0 <= z < Z.of_nat n -> In z (up_to n).
Proof.
  induction n as [|n IH]; intros z H; [lia|]. cbn [up_to]. apply in_or_app.
  destruct (Z.eq_dec z (Z.of_nat n)) as [->|]; [right; now left|left; apply IH; lia].
Qed.

Definition disp_eqb (a b : option (Z * Z * Z)) : bool :=
  match a, b with
  | Some (x1, x2, x3), Some (y1, y2, y3) => (x1 =? y1) && (x2 =? y2) && (x3 =? y3)
  | _, _ => false
  end.

Lemma early_display : forallb (fun w =>
    disp_eqb (display Excel1900 (w + 1))
             (match display Excel1900 w with Some p => Some (next_display Excel1900 p) | None => None end))
    (up_to 61) = true.
Proof. vm_compute. reflexivity. Qed.

Lemma display_steps : forall s w, 0 <= w < max_excel_serial s ->
  exists p, try_serial_to_display s (whole w) = Ok p /\
            try_serial_to_display s (whole (w + 1)) = Ok (next_display s p).
Proof.
  intros s w R.
  assert (G : (s = Excel1904 \/ 61 <= w) -> exists p, try_serial_to_display s (whole w) = Ok p /\
            try_serial_to_display s (whole (w + 1)) = Ok (next_display s p)).
  { intros Hw.
    assert (Hw0 : s = Excel1904 \/ (w <> 0 /\ w <> 60)) by (destruct Hw; [now left|right; lia]).
    assert (Hw1 : s = Excel1904 \/ (w + 1 <> 0 /\ w + 1 <> 60)) by (destruct Hw; [now left|right; lia]).
    assert (Hw2 : s = Excel1904 \/ w <> 60) by tauto.
    assert (Hw3 : s = Excel1904 \/ w + 1 <> 60) by tauto.
    destruct (whole_serial_date s w ltac:(lia)) as (d & E & C & _ & Sd).
    destruct (whole_serial_date s (w + 1) ltac:(lia)) as (d' & E' & C' & _ & Sd').
    assert (N : d' = next_day d).
    { specialize (Sd Hw2). specialize (Sd' Hw3).
      pose proof (calendar_number s d C) as [V _]. pose proof (calendar_number s d' C') as [V' _].
      apply day_number_inj; auto using next_day_valid. rewrite day_number_next by auto.
      rewrite serial_number in Sd, Sd'. destruct s; [|lia].
      destruct (693654 <=? day_number d) eqn:E1; destruct (693654 <=? day_number d') eqn:E2; lia. }
    exists (yr d, mo d, dy d). split.
    - apply display_eq; auto; lia.
    - rewrite (display_eq s (w + 1) d' ltac:(lia) Hw1 E'). f_equal.
      pose proof (next_day_fields d) as (F1 & F2 & F3). rewrite N, F1, F2, F3.
      assert (X : next_display s (yr d, mo d, dy d) = next_display Excel1904 (yr d, mo d, dy d)).
      { destruct s; auto. unfold next_display, excel_leap.
        destruct (yr d =? 1900) eqn:Y; [|now rewrite orb_false_r].
        assert (Hm : 3 <= mo d <= 12).
        { destruct Hw as [?|Hw]; [discriminate|]. specialize (Sd Hw2).
          pose proof (calendar_number Excel1900 d C) as [V _].
          assert (Q : day_number PHANTOM_CUTOFF <= day_number d).
          { rewrite dn_cutoff. rewrite serial_number in Sd. destruct (693654 <=? day_number d) eqn:E1; lia. }
          destruct (Z_lt_le_dec (mo d) 3) as [L|]; [|destruct V; lia].
          assert (date_lt d PHANTOM_CUTOFF) by (right; split; [cbn; lia|left; cbn; lia]).
          apply date_lt_number in H; auto; [lia|]. vm_compute; repeat split; discriminate. }
        assert (ME : forall b b', month_days b (mo d) = month_days b' (mo d)).
        { revert Hm. clear. generalize (mo d). intros m Hm b b'. assert (Hm' : 1 <= m <= 12) by lia.
          month_split m Hm'; try lia; reflexivity. }
        now rewrite (ME (is_leap (yr d) || true) (is_leap (yr d))). }
      rewrite X. now destruct (next_display Excel1904 (yr d, mo d, dy d)) as [[? ?] ?]. }
  destruct s; [|apply G; auto].
  destruct (Z_lt_le_dec w 61) as [L|]; [|apply G; auto].
  pose proof early_display as ED. rewrite forallb_forall in ED.
  specialize (ED w (up_to_In 61 w ltac:(lia))). unfold display in ED.
  destruct (try_serial_to_display Excel1900 (whole w)) as [p| |]; [|destruct (try_serial_to_display Excel1900 (whole (w+1))) as [[[? ?] ?]| |]; discriminate|destruct (try_serial_to_display Excel1900 (whole (w+1))) as [[[? ?] ?]| |]; discriminate].
  exists p. split; auto.
  destruct (try_serial_to_display Excel1900 (whole (w + 1))) as [[[a b] c]| |]; [|discriminate|discriminate].
  destruct (next_display Excel1900 p) as [[a' b'] c'] eqn:X. cbn in ED.
  rewrite !andb_true_iff, !Z.eqb_eq in ED. destruct ED as [[-> ->] ->]. reflexivity.
Qed.

Definition display_lt (p q : Z * Z * Z) : Prop :=
  let '(y, m, d) := p in let '(y', m', d') := q in
  y < y' \/ (y = y' /\ (m < m' \/ (m = m' /\ d < d'))).

Lemma display_lt_trans : forall p q r, display_lt p q -> display_lt q r -> display_lt p r.
Proof. intros [[a b] c] [[a' b'] c'] [[a'' b''] c'']. cbn. lia. Qed.

Lemma next_display_lt : forall s p, display_lt p (next_display s p).
Proof.
  intros s [[y m] d]. unfold next_display. destruct (d <? _); [cbn; lia|]. destruct (m <? 12) eqn:E; cbn; lia.
Qed.

Lemma display_increasing : forall s v w p q, 0 <= v < w -> w <= max_excel_serial s ->
  try_serial_to_display s (whole v) = Ok p -> try_serial_to_display s (whole w) = Ok q -> display_lt p q.
Proof.
  intros s v w p q Hv Hw Ev Ew.
  remember (Z.to_nat (w - v - 1)) as n eqn:Hn. revert w q Hv Hw Ew Hn.
  induction n as [|n IH]; intros w q Hv Hw Ew Hn.
  - assert (w = v + 1) by lia. subst w. destruct (display_steps s v ltac:(lia)) as (p' & E1 & E2).
    assert (p' = p) by congruence. assert (q = next_display s p) by congruence. subst. apply next_display_lt.
  - destruct (display_steps s (w - 1) ltac:(lia)) as (p' & E1 & E2).
    replace (w - 1 + 1) with w in E2 by lia. assert (q = next_display s p') by congruence. subst q.
    eapply display_lt_trans; [|apply next_display_lt]. apply (IH (w - 1)); auto; lia.
Qed.

Lemma display_total : forall s x,
  (validate_excel_serial s x = Ok tt -> exists p num den, x = SFin num den /\
      try_serial_to_display s x = Ok p /\ try_serial_to_display s (whole (s_trunc num den)) = Ok p) /\
  (validate_excel_serial s x <> Ok tt -> try_serial_to_display s x = Err DNum).
Proof.
  intros s x. split.
  - intros V. pose proof V as V'. apply validate_ok in V'. destruct V' as (num & den & -> & B).
    pose proof (serial_date_trunc s num den V) as [E R].
    assert (Q : try_serial_to_display s (SFin num den) = try_serial_to_display s (whole (s_trunc num den))).
    { unfold try_serial_to_display. rewrite V, (validate_whole s _ R). cbn [rbind whole]. now rewrite whole_trunc. }
    destruct (Z.eq_dec (s_trunc num den) (max_excel_serial s)) as [EM|NM].
    + exists (9999, 12, 31), num, den. rewrite Q, EM. split; auto. destruct s; split; vm_compute; reflexivity.
    + destruct (display_steps s (s_trunc num den) ltac:(lia)) as (p & E1 & _).
      exists p, num, den. rewrite Q. auto.
  - intros H. destruct (validate_unit s x) as [V|V]; [contradiction|].
    unfold try_serial_to_display. now rewrite V.
Qed.
