(** Independent statement of the calendar: stepping from one day to the next.
    Nothing here mentions day numbers or serials. *)
From Verif Require Import Base DateModel.
Local Open Scope Z_scope.

(** The Gregorian leap rule in words. *)
Definition leap_year (y : Z) : Prop :=
  (4 | y) /\ (~ (100 | y) \/ (400 | y)).

(** Days of each month, tabulated. *)
Definition month_days (leap : bool) (m : Z) : Z :=
  nth (Z.to_nat (m - 1))
    [31; if leap then 29 else 28; 31; 30; 31; 30; 31; 31; 30; 31; 30; 31] 0.

Definition valid_ymd (d : date) : Prop :=
  1 <= mo d <= 12 /\ 1 <= dy d <= month_days (is_leap (yr d)) (mo d).

(** A date the code can hold ([chrono::NaiveDate]). *)
Definition valid_date (d : date) : Prop := MIN_YEAR <= yr d <= MAX_YEAR /\ valid_ymd d.

(** The following calendar day. *)
Definition next_day (d : date) : date :=
  if dy d <? month_days (is_leap (yr d)) (mo d) then mkDate (yr d) (mo d) (dy d + 1)
  else if mo d <? 12 then mkDate (yr d) (mo d + 1) 1
  else mkDate (yr d + 1) 1 1.

(** [days_later n a b]: [b] is [n] calendar days after [a]. *)
Inductive days_later : nat -> date -> date -> Prop :=
| dl_0 : forall a, days_later 0 a a
| dl_S : forall n a b, days_later n a b -> days_later (S n) a (next_day b).

(** Chronological order by fields. *)
Definition date_lt (a b : date) : Prop :=
  yr a < yr b \/ (yr a = yr b /\ (mo a < mo b \/ (mo a = mo b /\ dy a < dy b))).

(** The months of the calendar, counted: month [m] of year [y] is number 12y+m-1. *)
Definition month_index (d : date) : Z := 12 * yr d + (mo d - 1).

(** Dates Excel's calendar accepts in each system. *)
Definition in_calendar (s : system) (d : date) : Prop :=
  valid_date d /\ yr d <= 9999 /\
  match s with
  | Excel1900 => 1900 <= yr d \/ d = mkDate 1899 12 31
  | Excel1904 => 1904 <= yr d
  end.

(** What Excel shows for whole serials, as stepping: the first serial's display and
    how each display follows from the previous one (1900 has a 29 February). *)
Definition first_display (s : system) : Z * Z * Z :=
  match s with Excel1900 => (1900, 1, 0) | Excel1904 => (1904, 1, 1) end.

Definition excel_leap (s : system) (y : Z) : bool :=
  match s with Excel1900 => is_leap y || (y =? 1900) | Excel1904 => is_leap y end.

Definition next_display (s : system) (p : Z * Z * Z) : Z * Z * Z :=
  let '(y, m, d) := p in
  if d <? month_days (excel_leap s y) m then (y, m, d + 1)
  else if m <? 12 then (y, m + 1, 1) else (y + 1, 1, 1).

(** [t] is the last day of its month: tomorrow is a first. *)
Definition last_of_month (t : date) : Prop := dy (next_day t) = 1.

(** [t] is at or after [a] and at or before [b]. *)
Definition between (a b t : date) : Prop := ~ date_lt t a /\ ~ date_lt b t.

(** Adding [k] whole years or months to a date leaves this (possibly
    non-existing) triple; comparison is by fields. *)
Definition plus_months (d : date) (k : Z) : Z * Z * Z :=
  ((month_index d + k) / 12, (month_index d + k) mod 12 + 1, dy d).
Definition triple_le (p : Z * Z * Z) (d : date) : Prop :=
  let '(y, m, e) := p in
  y < yr d \/ (y = yr d /\ (m < mo d \/ (m = mo d /\ e <= dy d))).

(** A day on which people work, under a weekend rule and holidays. *)
Definition works (w : mask) (hol : list date) (d : date) : Prop :=
  w (weekday_from_monday d) = false /\ ~ In d hol.

Arguments month_days : simpl never.
Arguments is_leap : simpl never.
Arguments day_number : simpl never.
