(** C08-C11 and C47-C50: dates, serials and the date functions. *)
From Verif Require Import Base DateModel DateSpec DateProofs DateProofs2 DateProofs3 DateProofs4.
Local Open Scope Z_scope.

(** *** C08 *)
Theorem C08_leap_rule : forall y, is_leap y = true <-> leap_year y.
Proof. exact is_leap_iff. Qed.
Print Assumptions C08_leap_rule.

Theorem C08_date_serial_date : forall s d, in_calendar s d ->
  try_serial_to_date s (whole (date_to_serial s d)) = Ok d.
Proof. exact serial_roundtrip. Qed.
Print Assumptions C08_date_serial_date.
Example C08_date_serial_date_ex : in_calendar Excel1900 (mkDate 2024 2 29) /\
  date_to_serial Excel1900 (mkDate 2024 2 29) = 45351.
Proof. split; [|reflexivity]. split; [split; [split|split; split]; vm_compute; discriminate|]. split; [vm_compute; discriminate|left; vm_compute; discriminate]. Qed.

Theorem C08_later_dates_larger_serials : forall s a b, valid_ymd a -> valid_ymd b ->
  (date_lt a b <-> date_to_serial s a < date_to_serial s b).
Proof. exact serial_increasing. Qed.
Print Assumptions C08_later_dates_larger_serials.

Theorem C08_next_day_next_serial : forall s d, valid_ymd d ->
  date_to_serial s (next_day d) = date_to_serial s d +
    match s with
    | Excel1900 => if (yr d =? 1900) && (mo d =? 2) && (dy d =? 28) then 2 else 1
    | Excel1904 => 1
    end.
Proof. exact serial_step. Qed.
Print Assumptions C08_next_day_next_serial.
Example C08_next_day_next_serial_ex : valid_ymd (mkDate 1999 12 31) /\ next_day (mkDate 1999 12 31) = mkDate 2000 1 1
  /\ next_day (mkDate 1900 2 28) = mkDate 1900 3 1 /\ next_day (mkDate 2000 2 28) = mkDate 2000 2 29.
Proof. split; [split; split; vm_compute; discriminate|]. repeat split. Qed.

Theorem C08_phantom_serial_unused : forall d, date_to_serial Excel1900 d <> 60.
Proof. exact phantom_unused. Qed.
Print Assumptions C08_phantom_serial_unused.

(** Any serial within half a second of the exact value decodes to the same date and time. *)
Theorem C08_datetime_roundtrip : forall s d t num den, in_calendar s d -> 0 <= t < 86400 ->
  0 <= num ->
  2 * Z.abs (86400 * num - Zpos den * (86400 * date_to_serial s d + t)) < Zpos den ->
  try_serial_to_datetime s (SFin num den) = Ok (d, t).
Proof. exact datetime_roundtrip. Qed.
Print Assumptions C08_datetime_roundtrip.
Example C08_datetime_roundtrip_ex :
  2 * Z.abs (86400 * 453514999999999 - 10000000000 * (86400 * date_to_serial Excel1900 (mkDate 2024 2 29) + 43200)) < 10000000000.
Proof. reflexivity. Qed.

Theorem C08_datetime_in_range : forall s x d t, try_serial_to_datetime s x = Ok (d, t) ->
  in_calendar s d /\ 0 <= t < 86400.
Proof. exact datetime_in_range. Qed.
Print Assumptions C08_datetime_in_range.

(** *** C09 *)
Theorem C09_serial_accepted_iff : forall s x,
  validate_excel_serial s x = Ok tt <->
  exists num den, x = SFin num den /\ 0 <= num < (date_to_serial s (mkDate 9999 12 31) + 1) * Zpos den.
Proof. exact validate_ok. Qed.
Print Assumptions C09_serial_accepted_iff.

Theorem C09_date_iff_accepted : forall s x,
  (exists d, try_serial_to_date s x = Ok d) <-> validate_excel_serial s x = Ok tt.
Proof. exact try_date_accepts. Qed.
Print Assumptions C09_date_iff_accepted.

Theorem C09_display_starts : forall s, try_serial_to_display s (whole 0) = Ok (first_display s).
Proof. intros []; reflexivity. Qed.
Print Assumptions C09_display_starts.

Theorem C09_display_steps : forall s w, 0 <= w < max_excel_serial s ->
  exists p, try_serial_to_display s (whole w) = Ok p /\
            try_serial_to_display s (whole (w + 1)) = Ok (next_display s p).
Proof. exact display_steps. Qed.
Print Assumptions C09_display_steps.
Example C09_display_steps_ex : try_serial_to_display Excel1900 (whole 59) = Ok (1900, 2, 28) /\
  try_serial_to_display Excel1900 (whole 60) = Ok (1900, 2, 29) /\
  try_serial_to_display Excel1900 (whole 61) = Ok (1900, 3, 1) /\ 2000000 < max_excel_serial Excel1900.
Proof. repeat split; reflexivity. Qed.

Theorem C09_display_order : forall s v w p q, 0 <= v < w -> w <= max_excel_serial s ->
  try_serial_to_display s (whole v) = Ok p -> try_serial_to_display s (whole w) = Ok q -> display_lt p q.
Proof. exact display_increasing. Qed.
Print Assumptions C09_display_order.

Theorem C09_display_total : forall s x,
  (validate_excel_serial s x = Ok tt -> exists p num den, x = SFin num den /\
      try_serial_to_display s x = Ok p /\ try_serial_to_display s (whole (s_trunc num den)) = Ok p) /\
  (validate_excel_serial s x <> Ok tt -> try_serial_to_display s x = Err DNum).
Proof. exact display_total. Qed.
Print Assumptions C09_display_total.

(** *** C10 *)
Theorem C10_edate : forall s x d k t, try_serial_to_date s x = Ok d ->
  valid_date t -> month_index t = month_index d + k ->
  dy t = Z.min (dy d) (month_days (is_leap (yr t)) (mo t)) ->
  edate s x k = Ok (date_to_serial s t).
Proof. exact edate_spec. Qed.
Print Assumptions C10_edate.
Example C10_edate_ex : try_serial_to_date Excel1900 (whole 45322) = Ok (mkDate 2024 1 31) /\
  month_index (mkDate 2023 2 28) = month_index (mkDate 2024 1 31) + (-11) /\
  edate Excel1900 (whole 45322) (-11) = Ok (date_to_serial Excel1900 (mkDate 2023 2 28)).
Proof. repeat split; vm_compute; reflexivity. Qed.

Theorem C10_edate_only : forall s x k r, edate s x k = Ok r ->
  exists d t, try_serial_to_date s x = Ok d /\ valid_date t /\ month_index t = month_index d + k /\
     dy t = Z.min (dy d) (month_days (is_leap (yr t)) (mo t)) /\ r = date_to_serial s t.
Proof. exact edate_inv. Qed.
Print Assumptions C10_edate_only.

Theorem C10_edate_error : forall s x d k, try_serial_to_date s x = Ok d ->
  (forall t, valid_date t -> month_index t <> month_index d + k) -> edate s x k = Err DNum.
Proof. exact edate_fails. Qed.
Print Assumptions C10_edate_error.

Theorem C10_eomonth : forall s x d k t, try_serial_to_date s x = Ok d ->
  valid_date t -> month_index t = month_index d + k -> last_of_month t ->
  eomonth s x k = Ok (date_to_serial s t).
Proof. exact eomonth_spec. Qed.
Print Assumptions C10_eomonth.
Example C10_eomonth_ex : last_of_month (mkDate 2024 2 29) /\ ~ last_of_month (mkDate 2024 2 28) /\
  eomonth Excel1900 (whole 45322) 1 = Ok (date_to_serial Excel1900 (mkDate 2024 2 29)).
Proof. repeat split; vm_compute; congruence. Qed.

Theorem C10_eomonth_only : forall s x k r, eomonth s x k = Ok r ->
  exists d t, try_serial_to_date s x = Ok d /\ valid_date t /\ month_index t = month_index d + k /\
     last_of_month t /\ r = date_to_serial s t.
Proof. exact eomonth_inv. Qed.
Print Assumptions C10_eomonth_only.

Theorem C10_eomonth_two_steps : forall s x a b r, eomonth s x a = Ok r ->
  validate_excel_serial s (whole r) = Ok tt ->
  eomonth s (whole r) b = eomonth s x (a + b).
Proof. exact eomonth_compose. Qed.
Print Assumptions C10_eomonth_two_steps.

Theorem C10_edate_two_steps_month : forall s x a b r r1 r2 t1 t2, edate s x a = Ok r ->
  validate_excel_serial s (whole r) = Ok tt ->
  edate s (whole r) b = Ok r1 -> edate s x (a + b) = Ok r2 ->
  valid_date t1 -> valid_date t2 -> date_to_serial s t1 = r1 -> date_to_serial s t2 = r2 ->
  month_index t1 = month_index t2.
Proof. exact edate_two_steps_month. Qed.
Print Assumptions C10_edate_two_steps_month.
Example C10_edate_two_steps_month_ex : edate Excel1900 (whole 45322) 1 = Ok 45351 /\
  edate Excel1900 (whole 45351) 1 = Ok 45380 /\ edate Excel1900 (whole 45322) 2 = Ok 45382.
Proof. repeat split; vm_compute; reflexivity. Qed.

(** *** C11: true from year 0 on; the truncating division breaks earlier years. *)
Theorem C11_date_normalises : forall y m d first t, no_overflow y m d -> 0 <= y * 12 + m - 1 ->
  valid_date first -> dy first = 1 -> month_index first = 12 * y + m - 1 ->
  valid_date t -> signed_days_later (d - 1) first t ->
  create_date_normalized y m d = Ok t.
Proof. exact create_date_spec. Qed.
Print Assumptions C11_date_normalises.
Example C11_date_normalises_ex : no_overflow 2024 (-10) 400 /\
  month_index (mkDate 2023 2 1) = 12 * 2024 + (-10) - 1 /\
  create_date_normalized 2024 (-10) 400 = Ok (mkDate 2024 3 6) /\
  signed_days_later 399 (mkDate 2023 2 1) (mkDate 2024 3 6).
Proof.
  repeat split; try (vm_compute; reflexivity); try (intros; discriminate).
  intros _. apply days_later_number; [split; split; vm_compute; discriminate|].
  split; [split; split; vm_compute; discriminate|reflexivity].
Qed.

Theorem C11_date_only : forall y m d t, no_overflow y m d -> create_date_normalized y m d = Ok t ->
  exists first, valid_date first /\ dy first = 1 /\ month_index first = 12 * y + m - 1 /\
    valid_date t /\ signed_days_later (d - 1) first t.
Proof. exact create_date_inv. Qed.
Print Assumptions C11_date_only.

(** The first day of February of year -1 exists, but is reported as #NUM!. *)
Theorem C11_date_normalises_all_years_refuted : exists y m d first t, no_overflow y m d /\
  valid_date first /\ dy first = 1 /\ month_index first = 12 * y + m - 1 /\
  valid_date t /\ signed_days_later (d - 1) first t /\ create_date_normalized y m d = Err DNum.
Proof.
  exists (-1), 2, 1, (mkDate (-1) 2 1), (mkDate (-1) 2 1). repeat split; try (vm_compute; congruence).
  intros _. constructor.
Qed.
Print Assumptions C11_date_normalises_all_years_refuted.

(** *** C47: what the date functions return is not always a legal date serial. *)
Theorem C47_edate_returns_illegal_serial_refuted : exists s x k r,
  edate s x k = Ok r /\ validate_excel_serial s (whole r) = Err DNum.
Proof. exists Excel1900, (whole 1), (-1), (-30). split; vm_compute; reflexivity. Qed.
Print Assumptions C47_edate_returns_illegal_serial_refuted.

Theorem C47_eomonth_past_9999_refuted : exists s x k r,
  eomonth s x k = Ok r /\ validate_excel_serial s (whole r) = Err DNum /\ 0 < r.
Proof. exists Excel1900, (whole 2958465), 1, 2958496. repeat split; vm_compute; reflexivity. Qed.
Print Assumptions C47_eomonth_past_9999_refuted.

Theorem C47_date_returns_illegal_serial_refuted : exists s y m d r,
  date_fn s y m d = Ok r /\ validate_excel_serial s (whole r) = Err DNum.
Proof. exists Excel1900, 1900, 0, 1, (-30). split; vm_compute; reflexivity. Qed.
Print Assumptions C47_date_returns_illegal_serial_refuted.

Theorem C47_workday_returns_illegal_serial_refuted : exists s fuel x n r,
  workday s default_mask [] fuel x n = Some (Ok r) /\ validate_excel_serial s (whole r) = Err DNum.
Proof. exists Excel1900, 10%nat, (whole 1), (-1), (-2). split; vm_compute; reflexivity. Qed.
Print Assumptions C47_workday_returns_illegal_serial_refuted.

(** The legal results are exactly those inside the calendar, and those decode to the date meant. *)
Theorem C47_legal_result_decodes : forall s t, valid_date t ->
  validate_excel_serial s (whole (date_to_serial s t)) = Ok tt ->
  try_serial_to_date s (whole (date_to_serial s t)) = Ok t.
Proof. exact legal_serial_roundtrip. Qed.
Print Assumptions C47_legal_result_decodes.

(** *** C48 DATEDIF *)
Theorem C48_years_complete : forall a b k, valid_ymd a -> valid_ymd b ->
  datedif_dates UY a b = Ok k -> forall j, triple_le (plus_months a (12 * j)) b <-> j <= k.
Proof. exact datedif_years_spec. Qed.
Print Assumptions C48_years_complete.

Theorem C48_months_complete : forall a b k, valid_ymd a -> valid_ymd b ->
  datedif_dates UM a b = Ok k -> forall j, triple_le (plus_months a j) b <-> j <= k.
Proof. exact datedif_months_spec. Qed.
Print Assumptions C48_months_complete.
Example C48_months_complete_ex : datedif_dates UM (mkDate 2020 1 31) (mkDate 2021 3 30) = Ok 13 /\
  datedif_dates UY (mkDate 2020 1 31) (mkDate 2021 3 30) = Ok 1 /\
  datedif_dates UYM (mkDate 2020 1 31) (mkDate 2021 3 30) = Ok 1.
Proof. repeat split. Qed.

Theorem C48_months_split : forall a b y m ym, valid_ymd a -> valid_ymd b ->
  datedif_dates UY a b = Ok y -> datedif_dates UM a b = Ok m -> datedif_dates UYM a b = Ok ym ->
  m = 12 * y + ym /\ 0 <= ym < 12.
Proof. exact datedif_months_years. Qed.
Print Assumptions C48_months_split.

Theorem C48_days : forall a b n, valid_ymd a -> valid_ymd b ->
  (datedif_dates UD a b = Ok (Z.of_nat n) <-> days_later n a b).
Proof. exact datedif_days_spec. Qed.
Print Assumptions C48_days.

(** Accepted arguments are in order, so the counts above are never negative. *)
Theorem C48_accepted_in_order : forall s x y da db, serial_gt x y = false ->
  try_serial_to_date s x = Ok da -> try_serial_to_date s y = Ok db ->
  day_number da <= day_number db.
Proof. exact datedif_order. Qed.
Print Assumptions C48_accepted_in_order.

(** The "MD" unit can be negative: from 31 January to 1 March 2023. *)
Theorem C48_md_negative_refuted : exists s a b k, datedif s UMD a b = Ok k /\ k < 0.
Proof. exists Excel1900, (whole 44957), (whole 44986), (-2). split; vm_compute; reflexivity. Qed.
Print Assumptions C48_md_negative_refuted.

(** The "D" unit is not the difference of the serials across the phantom day. *)
Theorem C48_days_not_serial_difference_refuted : exists a b k,
  datedif Excel1900 UD (whole a) (whole b) = Ok k /\ k <> b - a.
Proof. exists 59, 61, 1. split; [vm_compute; reflexivity|discriminate]. Qed.
Print Assumptions C48_days_not_serial_difference_refuted.

(** *** C49 NETWORKDAYS and WORKDAY *)
Theorem C49_networkdays_counts : forall w hol a b, valid_ymd a -> valid_ymd b -> Forall valid_ymd hol ->
  ~ date_lt b a ->
  exists l, NoDup l /\ (forall d, In d l <-> valid_ymd d /\ between a b d /\ works w hol d) /\
            networkdays_dates w hol a b = Z.of_nat (length l) /\
            (a <> b -> networkdays_dates w hol b a = - Z.of_nat (length l)).
Proof. exact networkdays_counts. Qed.
Print Assumptions C49_networkdays_counts.
Example C49_networkdays_counts_ex : networkdays_dates default_mask [mkDate 2024 1 1] (mkDate 2024 1 1) (mkDate 2024 1 14) = 9.
Proof. vm_compute. reflexivity. Qed.

Theorem C49_networkdays_additive : forall w hol a b c, valid_ymd a -> valid_ymd b -> valid_ymd c ->
  ~ date_lt b a -> date_lt b c ->
  networkdays_dates w hol a c = networkdays_dates w hol a b + networkdays_dates w hol (next_day b) c.
Proof. exact networkdays_additive. Qed.
Print Assumptions C49_networkdays_additive.

Theorem C49_five_a_week : forall a k b, valid_ymd a -> days_later (7 * S k - 1) a b ->
  networkdays_dates default_mask [] a b = 5 * Z.of_nat (S k).
Proof. exact networkdays_weeks. Qed.
Print Assumptions C49_five_a_week.

Theorem C49_workday_forward : forall s w hol fuel x n r, Forall valid_ymd hol -> 0 < n ->
  workday s w hol fuel x n = Some (Ok r) ->
  exists d t, try_serial_to_date s x = Ok d /\ r = date_to_serial s t /\ valid_ymd t /\
    works w hol t /\ date_lt d t /\ networkdays_dates w hol (next_day d) t = n.
Proof. exact workday_forward. Qed.
Print Assumptions C49_workday_forward.
Example C49_workday_forward_ex :
  workday Excel1900 default_mask [mkDate 2024 1 1] 30 (whole 45289) 6 = Some (Ok 45300) /\
  try_serial_to_date Excel1900 (whole 45300) = Ok (mkDate 2024 1 9).
Proof. split; vm_compute; reflexivity. Qed.

Theorem C49_workday_backward : forall s w hol fuel x n r, Forall valid_ymd hol -> n < 0 ->
  workday s w hol fuel x n = Some (Ok r) ->
  exists d t, try_serial_to_date s x = Ok d /\ r = date_to_serial s t /\ valid_ymd t /\
    works w hol t /\ date_lt t d /\
    forall e, valid_ymd e -> next_day e = d -> networkdays_dates w hol t e = - n.
Proof. exact workday_backward. Qed.
Print Assumptions C49_workday_backward.

Theorem C49_workday_zero : forall s w hol fuel x d, try_serial_to_date s x = Ok d ->
  workday s w hol fuel x 0 = Some (Ok (date_to_serial s d)).
Proof. exact workday_zero. Qed.
Print Assumptions C49_workday_zero.

Theorem C49_workday_terminates : forall s w hol x n, exists fuel res,
  workday s w hol fuel x n = Some res /\ forall more, workday s w hol (fuel + more) x n = Some res.
Proof. exact workday_ends. Qed.
Print Assumptions C49_workday_terminates.

Theorem C49_weekend_code_leaves_workday : forall code l, weekend_mask_from_code code = Some l ->
  length l = 7%nat /\ exists i, 0 <= i < 7 /\ mask_of_list l i = false.
Proof. exact mask_code_has_workday. Qed.
Print Assumptions C49_weekend_code_leaves_workday.

Theorem C49_weekend_text_leaves_workday : forall bl s l, weekend_mask_from_string bl s = Some l -> (length s <= 7)%nat ->
  length l = 7%nat /\ exists i, 0 <= i < 7 /\ mask_of_list l i = false.
Proof. exact mask_string_has_workday. Qed.
Print Assumptions C49_weekend_text_leaves_workday.

(** *** C50 WEEKDAY and the weekend rule *)
Theorem C50_weekday : forall s d rt first base, valid_date d -> 0 <= date_to_serial s d ->
  s = Excel1904 \/ ~ date_lt d (mkDate 1900 3 1) ->
  weekday_rule rt = Some (first, base) ->
  weekday_fn s (date_to_serial s d) rt = Ok ((weekday_from_monday d - first) mod 7 + base).
Proof. exact weekday_real. Qed.
Print Assumptions C50_weekday.
Example C50_weekday_ex : weekday_fn Excel1900 (date_to_serial Excel1900 (mkDate 2024 1 1)) 1 = Ok 2 /\
  weekday_from_monday (mkDate 2024 1 1) = 0.
Proof. split; vm_compute; reflexivity. Qed.

Theorem C50_weekdays_cycle : forall d, valid_ymd d ->
  weekday_from_monday (next_day d) = (weekday_from_monday d + 1) mod 7.
Proof. exact weekday_next. Qed.
Print Assumptions C50_weekdays_cycle.

(** Serial 1: WEEKDAY says Sunday, NETWORKDAYS counts it as a working day. *)
Theorem C50_weekday_weekend_agree_refuted : exists n,
  weekday_fn Excel1900 n 1 = Ok 1 /\
  networkdays Excel1900 default_mask [] (whole n) (whole n) = Ok 1.
Proof. exists 1. split; vm_compute; reflexivity. Qed.
Print Assumptions C50_weekday_weekend_agree_refuted.

(** WEEKDAY answers for serials past the end of the calendar. *)
Theorem C50_weekday_accepts_illegal_refuted : exists s n k,
  weekday_fn s n 1 = Ok k /\ validate_excel_serial s (whole n) = Err DNum.
Proof. exists Excel1900, 2958466, 7. split; vm_compute; reflexivity. Qed.
Print Assumptions C50_weekday_accepts_illegal_refuted.

(** *** C51 TIME *)
Theorem C51_time_wraps : forall h m s,
  Z.abs h * 3600 + Z.abs m * 60 + Z.abs s <= 2147397247 ->
  time_fn h m s = Ok ((3600 * h + 60 * m + s) mod 86400).
Proof. exact time_spec. Qed.
Print Assumptions C51_time_wraps.
Example C51_time_wraps_ex : time_fn 25 (-61) 3600 = Ok ((3600 * 25 - 3660 + 3600) mod 86400).
Proof. vm_compute. reflexivity. Qed.

(** Large arguments overflow i32 (a debug-build panic). *)
Theorem C51_time_overflow_refuted : exists h m s, in_i32 h = true /\ in_i32 m = true /\ in_i32 s = true /\
  time_fn h m s = Panic.
Proof. exists 1000000, 0, 0. repeat split; vm_compute; reflexivity. Qed.
Print Assumptions C51_time_overflow_refuted.
