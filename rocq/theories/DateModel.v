(** Calendar dates, Excel serials and the date functions built on them.

    Sources (all under /repo/crates):
      formualizer-common/src/date_serial.rs
      formualizer-eval/src/builtins/datetime/{serial,date_time,edate_eomonth,weekday_workday}.rs

    [chrono] is a third-party crate.  Its [NaiveDate] is modelled by its
    documented contract: a proleptic Gregorian (year, month, day) whose year lies
    in chrono's range, [a - b].num_days() is the difference of day numbers and
    [checked_add_signed(days n)] is the date [n] days later or [None] outside
    the range. *)
From Verif Require Import Base.
Local Open Scope Z_scope.

(** Numeric error kinds used here; [ExcelError::new_num] and [new_value]. *)
Inductive derr := DNum | DValue.

(** ** chrono::NaiveDate *)

Record date := mkDate { yr : Z; mo : Z; dy : Z }.

(** chrono: Gregorian leap year rule. *)
Definition is_leap (y : Z) : bool :=
  (y mod 4 =? 0) && (negb (y mod 100 =? 0) || (y mod 400 =? 0)).

(** Length of month [m] (1..12) of year [y]. *)
Definition month_len (y m : Z) : Z :=
  if m =? 2 then (if is_leap y then 29 else 28)
  else if (m =? 4) || (m =? 6) || (m =? 9) || (m =? 11) then 30 else 31.

(** chrono 0.4: [NaiveDate::MIN] is -262143-01-01, [MAX] is 262142-12-31. *)
Definition MIN_YEAR : Z := -262143.
Definition MAX_YEAR : Z := 262142.

(** [NaiveDate::from_ymd_opt(y, m, d)]. *)
Definition from_ymd_opt (y m d : Z) : option date :=
  if (MIN_YEAR <=? y) && (y <=? MAX_YEAR) && (1 <=? m) && (m <=? 12)
     && (1 <=? d) && (d <=? month_len y m)
  then Some (mkDate y m d) else None.

(** Days before month [m] within a year. *)
Definition days_before_month (y m : Z) : Z :=
  (if m <=? 1 then 0 else if m <=? 2 then 31 else
   (if is_leap y then 1 else 0) +
   (if m <=? 3 then 59 else if m <=? 4 then 90 else if m <=? 5 then 120
    else if m <=? 6 then 151 else if m <=? 7 then 181 else if m <=? 8 then 212
    else if m <=? 9 then 243 else if m <=? 10 then 273 else if m <=? 11 then 304 else 334)).

(** Days from 0001-01-01 to January 1st of [y]. *)
Definition days_before_year (y : Z) : Z :=
  let k := y - 1 in 365 * k + k / 4 - k / 100 + k / 400.

(** [NaiveDate::num_days_from_ce], less one. *)
Definition day_number (d : date) : Z :=
  days_before_year (yr d) + days_before_month (yr d) (mo d) + (dy d - 1).

(** Year containing day [n]: an estimate from the mean year length, corrected by one. *)
Definition year_of_day (n : Z) : Z :=
  let y := (400 * n) / 146097 + 1 in
  if days_before_year (y + 1) <=? n then y + 1
  else if n <? days_before_year y then y - 1 else y.

Definition month_of_ordinal (y o : Z) : Z :=
  if o <? days_before_month y 2 then 1 else if o <? days_before_month y 3 then 2
  else if o <? days_before_month y 4 then 3 else if o <? days_before_month y 5 then 4
  else if o <? days_before_month y 6 then 5 else if o <? days_before_month y 7 then 6
  else if o <? days_before_month y 8 then 7 else if o <? days_before_month y 9 then 8
  else if o <? days_before_month y 10 then 9 else if o <? days_before_month y 11 then 10
  else if o <? days_before_month y 12 then 11 else 12.

Definition date_of_day_number (n : Z) : date :=
  let y := year_of_day n in
  let o := n - days_before_year y in
  let m := month_of_ordinal y o in
  mkDate y m (o - days_before_month y m + 1).

(** [date.checked_add_signed(TimeDelta::days(n))].  [TimeDelta::days] itself panics
    beyond about 1.06e11 days; every caller modelled here passes an i32 or a
    validated serial, far below that. *)
Definition checked_add_days (d : date) (n : Z) : option date :=
  let k := day_number d + n in
  let r := date_of_day_number k in
  if (MIN_YEAR <=? yr r) && (yr r <=? MAX_YEAR) then Some r else None.

(** [(a - b).num_days()] *)
Definition num_days_between (a b : date) : Z := day_number a - day_number b.

(** Derived [Ord] of NaiveDate: chronological. *)
Definition date_leb (a b : date) : bool := day_number a <=? day_number b.

(** [date.weekday().num_days_from_monday()]; 0001-01-01 is a Monday. *)
Definition weekday_from_monday (d : date) : Z := day_number d mod 7.

(** ** date_serial.rs *)

Inductive system := Excel1900 | Excel1904.

(** date_serial.rs:13-17 *)
Definition EPOCH_1900 := mkDate 1899 12 31.
Definition EPOCH_1904 := mkDate 1904 1 1.
Definition MAX_DATE := mkDate 9999 12 31.
Definition PHANTOM_CUTOFF := mkDate 1900 3 1.
Definition PHANTOM_PREVIOUS := mkDate 1900 2 28.

(** date_serial.rs:33-45 [date_to_serial_for].  The result is a whole f64 below
    2^53 and is kept as an integer. *)
Definition date_to_serial (s : system) (d : date) : Z :=
  match s with
  | Excel1900 =>
      let days := num_days_between d EPOCH_1900 in
      if date_leb PHANTOM_CUTOFF d then days + 1 else days
  | Excel1904 => num_days_between d EPOCH_1904
  end.

(** An f64 serial.  A finite one is an exact fraction [num/den]; the code only
    takes its integer part, fraction and the rounded number of seconds of the
    fraction.  Simplification: the product [fract * 86400.0] is taken exactly
    before rounding to whole seconds. *)
Inductive serial :=
| SNaN
| SInf
| SFin (num : Z) (den : positive).

Definition whole (n : Z) : serial := SFin n 1.

(** [serial.trunc()] *)
Definition s_trunc (num : Z) (den : positive) : Z := Z.quot num (Zpos den).
(** [(serial.fract() * 86400.0).round()] for a non-negative serial: round half up. *)
Definition s_secs (num : Z) (den : positive) : Z :=
  (2 * (86400 * Z.rem num (Zpos den)) + Zpos den) / (2 * Zpos den).

(** date_serial.rs:193-195 *)
Definition max_excel_serial (s : system) : Z := date_to_serial s MAX_DATE.

(** date_serial.rs:198-203 *)
Definition validate_excel_serial (s : system) (x : serial) : res derr unit :=
  match x with
  | SNaN | SInf => Err DNum
  | SFin num den =>
      if (num <? 0) || (max_excel_serial s <? s_trunc num den) then Err DNum else Ok tt
  end.

(** date_serial.rs:205-224 [normalized_serial_parts]; the time is seconds after midnight. *)
Definition normalized_serial_parts (s : system) (x : serial) : res derr (Z * Z) :=
  rbind (validate_excel_serial s x) (fun _ =>
  match x with
  | SFin num den =>
      let w := s_trunc num den in
      let secs := s_secs num den in
      if secs =? 86400 then
        if max_excel_serial s <? w + 1 then Err DNum else Ok (w + 1, 0)
      else Ok (w, secs)
  | _ => Err DNum
  end).

Definition ok_or_num {A} (o : option A) : res derr A :=
  match o with Some a => Ok a | None => Err DNum end.

(** date_serial.rs:226-245 [date_for_whole_serial] *)
Definition date_for_whole_serial (s : system) (w : Z) : res derr date :=
  match s with
  | Excel1900 =>
      if w =? 60 then Ok PHANTOM_PREVIOUS
      else ok_or_num (checked_add_days EPOCH_1900 (if w <? 60 then w else w - 1))
  | Excel1904 => ok_or_num (checked_add_days EPOCH_1904 w)
  end.

(** date_serial.rs:252-255 *)
Definition try_serial_to_date (s : system) (x : serial) : res derr date :=
  rbind (validate_excel_serial s x) (fun _ =>
  match x with
  | SFin num den => date_for_whole_serial s (s_trunc num den)
  | _ => Err DNum
  end).

(** date_serial.rs:263-270 *)
Definition try_serial_to_datetime (s : system) (x : serial) : res derr (date * Z) :=
  rbind (normalized_serial_parts s x) (fun p =>
  rbind (date_for_whole_serial s (fst p)) (fun d => Ok (d, snd p))).

(** date_serial.rs:277-306; the result is the displayed (year, month, day). *)
Definition try_serial_to_display (s : system) (x : serial) : res derr (Z * Z * Z) :=
  rbind (validate_excel_serial s x) (fun _ =>
  match x with
  | SFin num den =>
      let w := s_trunc num den in
      match s with
      | Excel1900 =>
          if w =? 0 then Ok (1900, 1, 0)
          else if w =? 60 then Ok (1900, 2, 29)
          else rbind (try_serial_to_date s (whole w)) (fun d => Ok (yr d, mo d, dy d))
      | Excel1904 => rbind (try_serial_to_date s (whole w)) (fun d => Ok (yr d, mo d, dy d))
      end
  | _ => Err DNum
  end).

(** ** builtins/datetime *)

(** [as i32] of an in-range i64 is the identity; these helpers state the ranges. *)
Definition in_i32 (z : Z) : bool := (-2147483648 <=? z) && (z <=? 2147483647).

(** serial.rs:126-135 [create_date_normalized].  i32 overflow of
    [(year * 12) + month - 1] or [day - 1] panics (wraps in release builds).
    [/] and [%] truncate toward zero; [normalized_month as u32] turns a
    non-positive month into a value above 12 (or 0), which from_ymd_opt rejects
    just as the negative number is rejected here. *)
Definition create_date_normalized (year month day : Z) : res derr date :=
  if negb (in_i32 (year * 12)) || negb (in_i32 (year * 12 + month))
     || negb (in_i32 (year * 12 + month - 1)) || negb (in_i32 (day - 1)) then Panic else
  let total := year * 12 + month - 1 in
  let ny := Z.quot total 12 in
  let nm := Z.rem total 12 + 1 in
  rbind (ok_or_num (from_ymd_opt ny nm 1)) (fun first =>
  ok_or_num (checked_add_days first (day - 1))).

(** date_time.rs:102-124 [DateFn::eval] on already coerced i32 arguments. *)
Definition date_fn (s : system) (year month day : Z) : res derr Z :=
  let adjusted := if (0 <=? year) && (year <=? 1899) then year + 1900 else year in
  rbind (create_date_normalized adjusted month day) (fun d => Ok (date_to_serial s d)).

(** date_time.rs:202-237 [TimeFn::eval] on coerced i32 arguments; the result is the
    number of seconds whose 86400th part is returned. *)
Definition time_fn (hour minute second : Z) : res derr Z :=
  if negb (in_i32 (hour * 3600)) || negb (in_i32 (minute * 60))
     || negb (in_i32 (hour * 3600 + minute * 60))
     || negb (in_i32 (hour * 3600 + minute * 60 + second)) then Panic else
  let total := hour * 3600 + minute * 60 + second in
  if (total <? 0) && (negb (in_i32 (- total))
       || negb (in_i32 ((Z.quot (- total - 1) 86400 + 1) * 86400))) then Panic else
  let norm := if total <? 0 then
                let back := Z.quot (- total - 1) 86400 + 1 in total + back * 86400
              else total in
  let t := Z.rem norm 86400 in
  let h := Z.quot t 3600 in
  let m := Z.quot (Z.rem t 3600) 60 in
  let sec := Z.rem t 60 in
  if (0 <=? h) && (h <? 24) && (0 <=? m) && (m <? 60) && (0 <=? sec) && (sec <? 60)
  then Ok (h * 3600 + m * 60 + sec) else Err DNum.

(** edate_eomonth.rs:228-236 [last_day_of_month] *)
Definition last_day_of_month (y m : Z) : Z :=
  match from_ymd_opt y m 31 with
  | Some _ => 31
  | None => match from_ymd_opt y m 30 with
            | Some _ => 30
            | None => match from_ymd_opt y m 29 with
                      | Some _ => 29
                      | None => 28
                      end
            end
  end.

(** edate_eomonth.rs:114-118 target month; [as i32] cannot truncate because
    [months] is an i32 and the year a chrono year. *)
Definition target_month (d : date) (months : Z) : Z * Z :=
  let tm := yr d * 12 + mo d + months - 1 in (tm / 12, tm mod 12 + 1).

(** edate_eomonth.rs:102-130 [EdateFn::eval] after coercion. *)
Definition edate (s : system) (start : serial) (months : Z) : res derr Z :=
  rbind (try_serial_to_date s start) (fun d =>
  let '(ty, tm) := target_month d months in
  let td := Z.min (dy d) (last_day_of_month ty tm) in
  rbind (ok_or_num (from_ymd_opt ty tm td)) (fun t => Ok (date_to_serial s t))).

(** edate_eomonth.rs:197-224 [EomonthFn::eval] after coercion. *)
Definition eomonth (s : system) (start : serial) (months : Z) : res derr Z :=
  rbind (try_serial_to_date s start) (fun d =>
  let '(ty, tm) := target_month d months in
  rbind (ok_or_num (from_ymd_opt ty tm (last_day_of_month ty tm))) (fun t =>
  Ok (date_to_serial s t))).

(** weekday_workday.rs: [weekday_index_from_serial]; 0 = Saturday. *)
Definition weekday_index (s : system) (n : Z) : Z :=
  match s with Excel1900 => n mod 7 | Excel1904 => (n + 1462) mod 7 end.

(** weekday_workday.rs: [WeekdayFn::eval] after coercion; [x] is the serial's
    integer part, [rt] the return type. *)
Definition weekday_fn (s : system) (x : Z) (rt : Z) : res derr Z :=
  if x <? 0 then Err DNum else
  let d := weekday_index s x in
  let res st (zb : bool) := Ok (if zb then Z.rem (d - st + 7) 7 else Z.rem (d - st + 7) 7 + 1) in
  if (rt =? 1) || (rt =? 17) then res 1 false
  else if (rt =? 2) || (rt =? 11) then res 2 false
  else if rt =? 3 then res 2 true
  else if rt =? 12 then res 3 false
  else if rt =? 13 then res 4 false
  else if rt =? 14 then res 5 false
  else if rt =? 15 then res 6 false
  else if rt =? 16 then res 0 false
  else Err DNum.

(** weekday_workday.rs: [DatedifFn::eval], units after upper-casing. *)
Inductive dif_unit := UY | UM | UD | UMD | UYM | UYD | UOther.

Definition md_lt (a b : date) : bool :=
  (mo a <? mo b) || ((mo a =? mo b) && (dy a <? dy b)).

(** [non_leap_day_of_year] *)
Definition non_leap_doy (m d : Z) : Z :=
  days_before_month 1 m + Z.min d (month_len 1 m).

Definition datedif_dates (u : dif_unit) (a b : date) : res derr Z :=
  match u with
  | UY => Ok (yr b - yr a - (if md_lt b a then 1 else 0))
  | UM => Ok ((yr b - yr a) * 12 + (mo b - mo a) - (if dy b <? dy a then 1 else 0))
  | UD => Ok (num_days_between b a)
  | UMD =>
      let days := dy b - dy a in
      if days <? 0 then
        let '(py, pm) := if mo b =? 1 then (yr b - 1, 12) else (yr b, mo b - 1) in
        let '(ny, nm) := if pm =? 12 then (py + 1, 1) else (py, pm + 1) in
        Ok (days + (num_days_between (mkDate ny nm 1) (mkDate py pm 1)))
      else Ok days
  | UYM =>
      let m := mo b - mo a - (if dy b <? dy a then 1 else 0) in
      Ok (if m <? 0 then m + 12 else m)
  | UYD =>
      let sa := non_leap_doy (mo a) (dy a) in
      let sb := non_leap_doy (mo b) (dy b) in
      Ok (if sa <=? sb then sb - sa else 365 - sa + sb)
  | UOther => Err DNum
  end.

(** [start_serial > end_serial] is the f64 comparison; NaN never reaches it in
    practice and both conversions reject it, so only finite serials are compared. *)
Definition serial_gt (a b : serial) : bool :=
  match a, b with
  | SFin n1 d1, SFin n2 d2 => n2 * Zpos d1 <? n1 * Zpos d2
  | _, _ => false
  end.

Definition datedif (s : system) (u : dif_unit) (a b : serial) : res derr Z :=
  if serial_gt a b then Err DNum else
  rbind (try_serial_to_date s a) (fun da =>
  rbind (try_serial_to_date s b) (fun db => datedif_dates u da db)).

(** weekday_workday.rs: [weekend_mask_from_code], Monday first. *)
Definition weekend_mask_from_code (code : Z) : option (list bool) :=
  let m a b := map (fun i => (i =? a) || (i =? b)) [0; 1; 2; 3; 4; 5; 6] in
  if code =? 1 then Some (m 5 6) else if code =? 2 then Some (m 0 6)
  else if code =? 3 then Some (m 0 1) else if code =? 4 then Some (m 1 2)
  else if code =? 5 then Some (m 2 3) else if code =? 6 then Some (m 3 4)
  else if code =? 7 then Some (m 4 5) else if code =? 11 then Some (m 6 6)
  else if code =? 12 then Some (m 0 0) else if code =? 13 then Some (m 1 1)
  else if code =? 14 then Some (m 2 2) else if code =? 15 then Some (m 3 3)
  else if code =? 16 then Some (m 4 4) else if code =? 17 then Some (m 5 5)
  else None.

(** weekday_workday.rs: [weekend_mask_from_string]; [s] are the characters and
    [byte_len] the string's byte length ([s.len()]).  More than 7 characters cannot
    occur with 7 bytes, so [mask[i]] never indexes out of range. *)
Fixpoint mask_chars (s : list N) : option (list bool) :=
  match s with
  | [] => Some []
  | c :: r =>
      if (c =? 49)%N then option_map (cons true) (mask_chars r)
      else if (c =? 48)%N then option_map (cons false) (mask_chars r)
      else None
  end.
Definition weekend_mask_from_string (byte_len : N) (s : list N) : option (list bool) :=
  if negb (byte_len =? 7)%N then None else
  match mask_chars s with
  | Some m => if forallb (fun b => b) m then None
              else Some (m ++ repeat false (7 - length m))
  | None => None
  end.

(** weekday_workday.rs: a weekend mask is indexed from Monday; the default has
    Saturday and Sunday.  [is_weekend] is [is_weekend_masked] with that mask. *)
Definition mask := Z -> bool.
Definition mask_of_list (l : list bool) : mask := fun i => nth (Z.to_nat i) l false.
Definition default_mask : mask := fun i => (i =? 5) || (i =? 6).
(** Days counted by the loops: not masked and not found among the sorted holidays
    ([binary_search] on a sorted deduplicated list is membership). *)
Definition is_workday (w : mask) (hol : list date) (d : date) : bool :=
  negb (w (weekday_from_monday d))
  && negb (existsb (fun h => day_number h =? day_number d) hol).

(** [NetworkdaysFn::eval] / [NetworkdaysIntlFn::eval]: the loop over
    [current <= end]; [fuel] is the number of days in the interval.  Simplification:
    [succ_opt] does not fail, the dates being at most 9999-12-31. *)
Fixpoint count_workdays (w : mask) (hol : list date) (fuel : nat) (cur : Z) : Z :=
  match fuel with
  | O => 0
  | S f => (if is_workday w hol (date_of_day_number cur) then 1 else 0)
           + count_workdays w hol f (cur + 1)
  end.

Definition networkdays_dates (w : mask) (hol : list date) (a b : date) : Z :=
  let '(st, en, sign) := if date_leb a b then (a, b, 1) else (b, a, -1) in
  count_workdays w hol (Z.to_nat (day_number en - day_number st + 1)) (day_number st) * sign.

Definition networkdays (s : system) (w : mask) (hol : list date) (a b : serial) : res derr Z :=
  rbind (try_serial_to_date s a) (fun da =>
  rbind (try_serial_to_date s b) (fun db => Ok (networkdays_dates w hol da db))).

(** [WorkdayFn::eval] / [WorkdayIntlFn::eval]: step day by day until [remaining]
    workdays were passed; [None] from succ_opt/pred_opt is #NUM!.  [fuel] bounds the
    number of steps; running out is the explicit [None] below. *)
Fixpoint workday_loop (w : mask) (hol : list date) (dir : Z) (fuel : nat)
    (cur : date) (remaining : Z) : option (res derr date) :=
  if remaining <=? 0 then Some (Ok cur) else
  match fuel with
  | O => None
  | S f =>
      match checked_add_days cur dir with
      | None => Some (Err DNum)
      | Some c =>
          workday_loop w hol dir f c (if is_workday w hol c then remaining - 1 else remaining)
      end
  end.

Definition workday (s : system) (w : mask) (hol : list date) (fuel : nat)
    (start : serial) (days : Z) : option (res derr Z) :=
  match try_serial_to_date s start with
  | Ok d =>
      match workday_loop w hol (if 0 <=? days then 1 else -1) fuel d (Z.abs days) with
      | Some (Ok r) => Some (Ok (date_to_serial s r))
      | Some (Err e) => Some (Err e)
      | Some Panic => Some Panic
      | None => None
      end
  | Err e => Some (Err e)
  | Panic => Some Panic
  end.
