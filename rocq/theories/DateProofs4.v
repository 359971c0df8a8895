(** Proofs for WEEKDAY, DATEDIF, NETWORKDAYS and WORKDAY. *)
From Coq Require Import ZifyBool.
From Verif Require Import Base DateModel DateSpec DateProofs DateProofs2 DateProofs3.
Local Open Scope Z_scope.
Ltac Zify.zify_post_hook ::= Z.div_mod_to_equations.

(** ** WEEKDAY *)

(** Which weekday (Monday = 0) each return type counts from, and from which number. *)
Definition weekday_rule (rt : Z) : option (Z * Z) :=
  if rt =? 1 then Some (6, 1) else if rt =? 2 then Some (0, 1) else if rt =? 3 then Some (0, 0)
  else if (11 <=? rt) && (rt <=? 17) then Some (rt - 11, 1) else None.

Lemma weekday_index_real : forall s d, s = Excel1904 \/ 693654 <= day_number d ->
  weekday_index s (date_to_serial s d) = (weekday_from_monday d + 2) mod 7.
Proof.
  intros s d H. rewrite serial_number. unfold weekday_index, weekday_from_monday. destruct s.
  - destruct H as [?|H]; [discriminate|]. replace (693654 <=? day_number d) with true by lia. lia.
  - lia.
Qed.

Lemma weekday_formula : forall s x rt first base, 0 <= x -> weekday_rule rt = Some (first, base) ->
  weekday_fn s x rt = Ok ((weekday_index s x - 2 - first) mod 7 + base).
Proof.
  intros s x rt first base Hx H. unfold weekday_fn. replace (x <? 0) with false by lia.
  assert (R : 0 <= weekday_index s x < 7) by (unfold weekday_index; destruct s; lia).
  cbv zeta. revert R. generalize (weekday_index s x) as d. intros d R.
  unfold weekday_rule in H.
  assert (RM : forall st, 0 <= st <= 6 -> Z.rem (d - st + 7) 7 = (d - st + 7) mod 7)
    by (intros; apply Z.rem_mod_nonneg; lia).
  assert (C : rt = 1 \/ rt = 2 \/ rt = 3 \/ rt = 11 \/ rt = 12 \/ rt = 13 \/ rt = 14 \/ rt = 15 \/ rt = 16 \/ rt = 17).
  { destruct (rt =? 1) eqn:E1; [lia|]. destruct (rt =? 2) eqn:E2; [lia|]. destruct (rt =? 3) eqn:E3; [lia|].
    destruct ((11 <=? rt) && (rt <=? 17)) eqn:E4; [lia|discriminate]. }
  destruct C as [?|[?|[?|[?|[?|[?|[?|[?|[?|?]]]]]]]]]; subst rt; cbn in H; inversion H; subst first base;
    cbn [Z.eqb Pos.eqb orb]; rewrite RM by lia; f_equal; lia.
Qed.

Lemma weekday_real : forall s d rt first base, valid_date d -> 0 <= date_to_serial s d ->
  s = Excel1904 \/ ~ date_lt d (mkDate 1900 3 1) ->
  weekday_rule rt = Some (first, base) ->
  weekday_fn s (date_to_serial s d) rt = Ok ((weekday_from_monday d - first) mod 7 + base).
Proof.
  intros s d rt first base V P H R. rewrite (weekday_formula s _ rt first base P R).
  assert (G : s = Excel1904 \/ 693654 <= day_number d).
  { destruct H as [H|H]; auto. right. change 693654 with (day_number (mkDate 1900 3 1)).
    destruct (Z_lt_le_dec (day_number d) (day_number (mkDate 1900 3 1))) as [L|]; auto.
    exfalso. apply H. apply date_lt_number; auto; [apply V|]. vm_compute; repeat split; discriminate. }
  rewrite (weekday_index_real s d G). f_equal. f_equal. generalize (weekday_from_monday d) as w. intros w. lia.
Qed.

Lemma weekday_next : forall d, valid_ymd d -> weekday_from_monday (next_day d) = (weekday_from_monday d + 1) mod 7.
Proof. intros d V. unfold weekday_from_monday. rewrite day_number_next by auto. lia. Qed.

(** ** DATEDIF *)

Lemma datedif_months_years : forall a b y m ym, valid_ymd a -> valid_ymd b ->
  datedif_dates UY a b = Ok y -> datedif_dates UM a b = Ok m -> datedif_dates UYM a b = Ok ym ->
  m = 12 * y + ym /\ 0 <= ym < 12.
Proof.
  intros a b y m ym [Va _] [Vb _] Hy Hm Hym. cbn in Hy, Hm, Hym. inversion Hy. inversion Hm. inversion Hym.
  unfold md_lt. destruct (dy b <? dy a) eqn:E; destruct (mo b <? mo a) eqn:E2; destruct (mo b =? mo a) eqn:E3; cbn [orb andb];
  match goal with |- context [if ?c <? 0 then _ else _] => destruct (c <? 0) eqn:E4 end; lia.
Qed.

Lemma datedif_years_spec : forall a b k, valid_ymd a -> valid_ymd b ->
  datedif_dates UY a b = Ok k -> forall j, triple_le (plus_months a (12 * j)) b <-> j <= k.
Proof.
  intros a b k [Va _] [Vb _] H j. cbn in H. inversion H. unfold triple_le, plus_months, month_index, md_lt.
  replace ((12 * yr a + (mo a - 1) + 12 * j) / 12) with (yr a + j) by lia.
  replace ((12 * yr a + (mo a - 1) + 12 * j) mod 12) with (mo a - 1) by lia.
  destruct (mo b <? mo a) eqn:E2; destruct (mo b =? mo a) eqn:E3; destruct (dy b <? dy a) eqn:E; cbn [orb andb]; lia.
Qed.

Lemma datedif_months_spec : forall a b k, valid_ymd a -> valid_ymd b ->
  datedif_dates UM a b = Ok k -> forall j, triple_le (plus_months a j) b <-> j <= k.
Proof.
  intros a b k [Va _] [Vb _] H j. cbn in H. inversion H. unfold triple_le, plus_months, month_index.
  assert (D : 12 * ((12 * yr a + (mo a - 1) + j) / 12) + (12 * yr a + (mo a - 1) + j) mod 12 = 12 * yr a + (mo a - 1) + j) by lia.
  assert (B : 0 <= (12 * yr a + (mo a - 1) + j) mod 12 < 12) by lia.
  revert D B. generalize ((12 * yr a + (mo a - 1) + j) / 12) as q. generalize ((12 * yr a + (mo a - 1) + j) mod 12) as r.
  intros r q D B. destruct (dy b <? dy a) eqn:E; lia.
Qed.

Lemma datedif_days_spec : forall a b n, valid_ymd a -> valid_ymd b ->
  (datedif_dates UD a b = Ok (Z.of_nat n) <-> days_later n a b).
Proof.
  intros a b n Va Vb. cbn. unfold num_days_between. rewrite days_later_number by auto. split.
  - intros H. inversion H. split; auto. lia.
  - intros [_ E]. f_equal. lia.
Qed.

Lemma datedif_order : forall s x y da db, serial_gt x y = false ->
  try_serial_to_date s x = Ok da -> try_serial_to_date s y = Ok db ->
  day_number da <= day_number db.
Proof.
  intros s x y da db G Ex Ey.
  assert (Vx : validate_excel_serial s x = Ok tt) by (apply try_date_accepts; eauto).
  assert (Vy : validate_excel_serial s y = Ok tt) by (apply try_date_accepts; eauto).
  pose proof Vx as Bx. pose proof Vy as By. apply validate_ok in Bx, By.
  destruct Bx as (n1 & d1 & -> & B1), By as (n2 & d2 & -> & B2).
  destruct (serial_date_trunc s n1 d1 Vx) as [T1 R1]. destruct (serial_date_trunc s n2 d2 Vy) as [T2 R2].
  assert (L : s_trunc n1 d1 <= s_trunc n2 d2).
  { unfold s_trunc. rewrite !Z.quot_div_nonneg by lia. unfold serial_gt in G. apply Z.ltb_ge in G.
    apply Z.div_le_lower_bound; [lia|].
    pose proof (Z.mul_div_le n1 (Zpos d1) ltac:(lia)).
    assert (Zpos d1 * (Zpos d2 * (n1 / Zpos d1)) <= Zpos d1 * n2) by nia. nia. }
  rewrite T1 in Ex. rewrite T2 in Ey. revert Ex Ey L R1 R2. generalize (s_trunc n1 d1), (s_trunc n2 d2).
  intros w1 w2 Ex Ey L R1 R2.
  destruct (whole_serial_date s w1 R1) as (e1 & F1 & C1 & P1 & Q1). assert (e1 = da) by congruence. subst e1.
  destruct (whole_serial_date s w2 R2) as (e2 & F2 & C2 & P2 & Q2). assert (e2 = db) by congruence. subst e2.
  destruct s.
  - destruct (Z.eq_dec w1 60) as [->|N1]; destruct (Z.eq_dec w2 60) as [->|N2].
    + rewrite P1, P2 by auto. lia.
    + rewrite P1 by auto. specialize (Q2 (or_intror N2)). rewrite serial_number in Q2.
      change (day_number PHANTOM_PREVIOUS) with 693653. destruct (693654 <=? day_number db) eqn:E; lia.
    + rewrite P2 by auto. specialize (Q1 (or_intror N1)). rewrite serial_number in Q1.
      change (day_number PHANTOM_PREVIOUS) with 693653. destruct (693654 <=? day_number da) eqn:E; lia.
    + specialize (Q1 (or_intror N1)). specialize (Q2 (or_intror N2)). rewrite serial_number in Q1, Q2.
      destruct (693654 <=? day_number da) eqn:E1; destruct (693654 <=? day_number db) eqn:E2; lia.
  - specialize (Q1 (or_introl eq_refl)). specialize (Q2 (or_introl eq_refl)). rewrite serial_number in Q1, Q2. lia.
Qed.

(** ** Working days *)

Lemma is_workday_iff : forall w hol d, valid_ymd d -> Forall valid_ymd hol ->
  (is_workday w hol d = true <-> works w hol d).
Proof.
  intros w hol d V F. unfold is_workday, works. rewrite andb_true_iff, !negb_true_iff.
  assert (X : existsb (fun h => day_number h =? day_number d) hol = true <-> In d hol).
  { rewrite existsb_exists. split.
    - intros (h & Hin & E). apply Z.eqb_eq in E. rewrite Forall_forall in F.
      rewrite <- (day_number_inj h d); auto.
    - intros H. exists d. split; auto. apply Z.eqb_refl. }
  rewrite <- X. destruct (existsb _ hol); intuition congruence.
Qed.

(** Dates from day number [n], [k] of them. *)
Fixpoint dates_from (n : Z) (k : nat) : list date :=
  match k with O => [] | S j => date_of_day_number n :: dates_from (n + 1) j end.

Lemma dates_from_In : forall k n d, In d (dates_from n k) <->
  (valid_ymd d /\ n <= day_number d < n + Z.of_nat k).
Proof.
  induction k as [|k IH]; intros n d; cbn [dates_from In].
  - split; [tauto|]. intros [_ H]. lia.
  - rewrite IH. split.
    + intros [<-|[V H]].
      * split; [apply date_of_day_number_valid|]. rewrite day_number_of_date. lia.
      * split; auto. lia.
    + intros [V H]. destruct (Z.eq_dec (day_number d) n) as [E|E].
      * left. rewrite <- E. now apply date_of_day_number_inv.
      * right. split; auto. lia.
Qed.

Lemma dates_from_NoDup : forall k n, NoDup (dates_from n k).
Proof.
  induction k as [|k IH]; intros n; cbn; constructor; auto.
  rewrite dates_from_In. intros [_ H]. rewrite day_number_of_date in H. lia.
Qed.

Lemma count_filter : forall w hol k n,
  count_workdays w hol k n = Z.of_nat (length (filter (is_workday w hol) (dates_from n k))).
Proof.
  induction k as [|k IH]; intros n; cbn [count_workdays dates_from filter]; [reflexivity|].
  rewrite IH. destruct (is_workday w hol (date_of_day_number n)); cbn [length]; lia.
Qed.

Lemma not_lt_number : forall a b, valid_ymd a -> valid_ymd b -> (~ date_lt a b <-> day_number b <= day_number a).
Proof. intros a b Va Vb. rewrite date_lt_number by auto. lia. Qed.

Lemma networkdays_counts : forall w hol a b, valid_ymd a -> valid_ymd b -> Forall valid_ymd hol ->
  ~ date_lt b a ->
  exists l, NoDup l /\ (forall d, In d l <-> valid_ymd d /\ between a b d /\ works w hol d) /\
            networkdays_dates w hol a b = Z.of_nat (length l) /\
            (a <> b -> networkdays_dates w hol b a = - Z.of_nat (length l)).
Proof.
  intros w hol a b Va Vb Fh L. apply not_lt_number in L; auto.
  exists (filter (is_workday w hol) (dates_from (day_number a) (Z.to_nat (day_number b - day_number a + 1)))).
  split; [apply NoDup_filter, dates_from_NoDup|]. split; [|split].
  - intros d. rewrite filter_In, dates_from_In. unfold between. split.
    + intros [[V R] W]. apply is_workday_iff in W; auto. split; auto. split; auto.
      split; apply not_lt_number; auto; lia.
    + intros (V & [B1 B2] & W). apply not_lt_number in B1; auto. apply not_lt_number in B2; auto.
      split; [split; auto; lia|]. now apply is_workday_iff.
  - unfold networkdays_dates, date_leb. replace (day_number a <=? day_number b) with true by lia.
    rewrite count_filter. lia.
  - intros N. unfold networkdays_dates, date_leb.
    assert (day_number a <> day_number b) by (intros E; apply N; now apply day_number_inj).
    replace (day_number b <=? day_number a) with false by lia. rewrite count_filter. lia.
Qed.

Lemma count_app : forall w hol j k n,
  count_workdays w hol (j + k) n = count_workdays w hol j n + count_workdays w hol k (n + Z.of_nat j).
Proof.
  induction j as [|j IH]; intros k n; cbn [count_workdays Nat.add].
  - replace (n + Z.of_nat 0) with n by lia. lia.
  - rewrite IH. replace (n + 1 + Z.of_nat j) with (n + Z.of_nat (S j)) by lia. lia.
Qed.

Lemma networkdays_additive : forall w hol a b c, valid_ymd a -> valid_ymd b -> valid_ymd c ->
  ~ date_lt b a -> date_lt b c ->
  networkdays_dates w hol a c = networkdays_dates w hol a b + networkdays_dates w hol (next_day b) c.
Proof.
  intros w hol a b c Va Vb Vc L1 L2. apply not_lt_number in L1; auto. apply date_lt_number in L2; auto.
  unfold networkdays_dates, date_leb. rewrite day_number_next by auto.
  replace (day_number a <=? day_number c) with true by lia.
  replace (day_number a <=? day_number b) with true by lia.
  replace (day_number b + 1 <=? day_number c) with true by lia. rewrite day_number_next by auto.
  replace (Z.to_nat (day_number c - day_number a + 1)) with
    (Z.to_nat (day_number b - day_number a + 1) + Z.to_nat (day_number c - (day_number b + 1) + 1))%nat by lia.
  rewrite count_app.
  replace (day_number a + Z.of_nat (Z.to_nat (day_number b - day_number a + 1))) with (day_number b + 1) by lia.
  lia.
Qed.

(** Whole weeks without holidays have five default working days each. *)
Lemma wd_of_number : forall n, weekday_from_monday (date_of_day_number n) = n mod 7.
Proof. intros n. unfold weekday_from_monday. now rewrite day_number_of_date. Qed.

Lemma one_week : forall n, count_workdays default_mask [] 7 n = 5.
Proof.
  intros n. cbn [count_workdays]. unfold is_workday. cbn [existsb negb]. rewrite !andb_true_r, !wd_of_number.
  unfold default_mask.
  assert (R : 0 <= n mod 7 < 7) by (apply Z.mod_pos_bound; lia).
  assert (E : forall k, (n + k) mod 7 = (n mod 7 + k) mod 7) by (intros; rewrite Zplus_mod_idemp_l; reflexivity).
  rewrite <- !Z.add_assoc, !E. revert R. generalize (n mod 7). intros r R.
  assert (C : r = 0 \/ r = 1 \/ r = 2 \/ r = 3 \/ r = 4 \/ r = 5 \/ r = 6) by lia.
  destruct C as [->|[->|[->|[->|[->|[->| ->]]]]]]; reflexivity.
Qed.

Lemma whole_weeks : forall k n, count_workdays default_mask [] (7 * k) n = 5 * Z.of_nat k.
Proof.
  induction k as [|k IH]; intros n; [reflexivity|].
  replace (7 * S k)%nat with (7 + 7 * k)%nat by lia. rewrite count_app, one_week, IH. lia.
Qed.

(** WORKDAY. *)
Lemma loop_zero : forall w hol dir fuel cur, workday_loop w hol dir fuel cur 0 = Some (Ok cur).
Proof. intros w hol dir [|f] cur; reflexivity. Qed.

Lemma loop_forward : forall w hol fuel cur k r, valid_ymd cur -> 0 <= k ->
  workday_loop w hol 1 fuel cur k = Some (Ok r) ->
  valid_ymd r /\ day_number cur <= day_number r /\
  count_workdays w hol (Z.to_nat (day_number r - day_number cur)) (day_number cur + 1) = k /\
  (0 < k -> is_workday w hol r = true /\ day_number cur < day_number r).
Proof.
  induction fuel as [|f IH]; intros cur k r Vc Hk H; cbn [workday_loop] in H.
  - destruct (k <=? 0) eqn:E; [|discriminate]. inversion H; subst r.
    split; auto. split; [lia|]. rewrite Z.sub_diag. cbn [Z.to_nat count_workdays]. split; lia.
  - destruct (k <=? 0) eqn:E.
    { inversion H; subst r. split; auto. split; [lia|]. rewrite Z.sub_diag. cbn [Z.to_nat count_workdays]. split; lia. }
    destruct (checked_add_days cur 1) as [c|] eqn:C; [|discriminate].
    apply checked_add_days_some in C. destruct C as [[_ Vn] N].
    assert (Dc : date_of_day_number (day_number cur + 1) = c) by (rewrite <- N; now apply date_of_day_number_inv).
    destruct (is_workday w hol c) eqn:W.
    + destruct (Z.eq_dec (k - 1) 0) as [Z0|Z0].
      * rewrite Z0, loop_zero in H. inversion H; subst r. split; auto. split; [lia|]. split; [|split; auto; lia].
        replace (Z.to_nat (day_number c - day_number cur)) with 1%nat by lia. cbn [count_workdays].
        rewrite Dc, W. lia.
      * apply IH in H; auto; [|lia]. destruct H as (Vr & L & CT & P).
        split; auto. split; [lia|]. split; [|split; [apply P|]; lia].
        replace (Z.to_nat (day_number r - day_number cur)) with (S (Z.to_nat (day_number r - day_number c))) by lia.
        cbn [count_workdays]. rewrite Dc, W.
        replace (day_number cur + 1 + 1) with (day_number c + 1) by lia. lia.
    + apply IH in H; auto. destruct H as (Vr & L & CT & P).
      split; auto. split; [lia|]. split; [|intros _; specialize (P ltac:(lia)); split; [apply P|lia]].
      replace (Z.to_nat (day_number r - day_number cur)) with (S (Z.to_nat (day_number r - day_number c))) by lia.
      cbn [count_workdays]. rewrite Dc, W.
      replace (day_number cur + 1 + 1) with (day_number c + 1) by lia. lia.
Qed.

Lemma count_last : forall w hol k n,
  count_workdays w hol (S k) n = count_workdays w hol k n +
    (if is_workday w hol (date_of_day_number (n + Z.of_nat k)) then 1 else 0).
Proof.
  intros w hol k n. replace (S k) with (k + 1)%nat by lia. rewrite count_app. cbn [count_workdays]. lia.
Qed.

Lemma loop_backward : forall w hol fuel cur k r, valid_ymd cur -> 0 <= k ->
  workday_loop w hol (-1) fuel cur k = Some (Ok r) ->
  valid_ymd r /\ day_number r <= day_number cur /\
  count_workdays w hol (Z.to_nat (day_number cur - day_number r)) (day_number r) = k /\
  (0 < k -> is_workday w hol r = true /\ day_number r < day_number cur).
Proof.
  induction fuel as [|f IH]; intros cur k r Vc Hk H; cbn [workday_loop] in H.
  - destruct (k <=? 0) eqn:E; [|discriminate]. inversion H; subst r.
    split; auto. split; [lia|]. rewrite Z.sub_diag. cbn [Z.to_nat count_workdays]. split; lia.
  - destruct (k <=? 0) eqn:E.
    { inversion H; subst r. split; auto. split; [lia|]. rewrite Z.sub_diag. cbn [Z.to_nat count_workdays]. split; lia. }
    destruct (checked_add_days cur (-1)) as [c|] eqn:C; [|discriminate].
    apply checked_add_days_some in C. destruct C as [[_ Vn] N].
    assert (Dc : date_of_day_number (day_number c) = c) by (now apply date_of_day_number_inv).
    destruct (is_workday w hol c) eqn:W.
    + destruct (Z.eq_dec (k - 1) 0) as [Z0|Z0].
      * rewrite Z0, loop_zero in H. inversion H; subst r. split; auto. split; [lia|]. split; [|split; auto; lia].
        replace (Z.to_nat (day_number cur - day_number c)) with 1%nat by lia. cbn [count_workdays].
        rewrite Dc, W. lia.
      * apply IH in H; auto; [|lia]. destruct H as (Vr & L & CT & P).
        split; auto. split; [lia|]. split; [|split; [apply P|]; lia].
        replace (Z.to_nat (day_number cur - day_number r)) with (S (Z.to_nat (day_number c - day_number r))) by lia.
        rewrite count_last.
        replace (day_number r + Z.of_nat (Z.to_nat (day_number c - day_number r))) with (day_number c) by lia.
        rewrite Dc, W. lia.
    + apply IH in H; auto. destruct H as (Vr & L & CT & P).
      split; auto. split; [lia|]. split; [|intros _; specialize (P ltac:(lia)); split; [apply P|lia]].
      replace (Z.to_nat (day_number cur - day_number r)) with (S (Z.to_nat (day_number c - day_number r))) by lia.
      rewrite count_last.
      replace (day_number r + Z.of_nat (Z.to_nat (day_number c - day_number r))) with (day_number c) by lia.
      rewrite Dc, W. lia.
Qed.

(** The search always ends: the calendar is finite. *)
Lemma loop_ends : forall w hol dir, (dir = 1 \/ dir = -1) -> forall fuel cur k, valid_date cur ->
  (dir = 1 -> day_number (mkDate MAX_YEAR 12 31) - day_number cur < Z.of_nat fuel) ->
  (dir = -1 -> day_number cur - day_number (mkDate MIN_YEAR 1 1) < Z.of_nat fuel) ->
  workday_loop w hol dir fuel cur k <> None.
Proof.
  assert (VM : valid_ymd (mkDate MAX_YEAR 12 31)) by (vm_compute; repeat split; discriminate).
  assert (Vm : valid_ymd (mkDate MIN_YEAR 1 1)) by (vm_compute; repeat split; discriminate).
  assert (UB : forall d, valid_date d -> day_number d <= day_number (mkDate MAX_YEAR 12 31)).
  { intros d [[_ Y] V]. destruct (Z_lt_le_dec (day_number (mkDate MAX_YEAR 12 31)) (day_number d)) as [L|]; auto.
    apply date_lt_number in L; auto. destruct V as [V1 V2]. unfold date_lt in L. cbn [yr mo dy] in L.
    assert (mo d = 12 -> dy d <= 31) by (intros E; pose proof (month_days_bounds (is_leap (yr d)) (mo d)); lia). lia. }
  assert (LB : forall d, valid_date d -> day_number (mkDate MIN_YEAR 1 1) <= day_number d).
  { intros d [[Y _] V]. destruct (Z_lt_le_dec (day_number d) (day_number (mkDate MIN_YEAR 1 1))) as [L|]; auto.
    apply date_lt_number in L; auto. destruct V as [V1 V2]. unfold date_lt in L. cbn [yr mo dy] in L. lia. }
  intros w hol dir Hdir. induction fuel as [|f IH]; intros cur k V H1 H2.
  - exfalso. specialize (UB cur V). specialize (LB cur V). destruct Hdir; [specialize (H1 H)|specialize (H2 H)]; lia.
  - cbn [workday_loop]. destruct (k <=? 0); [discriminate|].
    destruct (checked_add_days cur dir) as [c|] eqn:C; [|discriminate].
    apply checked_add_days_some in C. destruct C as [Vc N]. apply IH; auto; intros; subst dir; lia.
Qed.

Lemma loop_fuel_mono : forall w hol dir fuel cur k r, workday_loop w hol dir fuel cur k = Some r ->
  forall more, workday_loop w hol dir (fuel + more) cur k = Some r.
Proof.
  induction fuel as [|f IH]; intros cur k r H more; cbn [workday_loop Nat.add] in *.
  - destruct (k <=? 0) eqn:E; [|discriminate]. destruct more; cbn [workday_loop]; now rewrite E.
  - destruct (k <=? 0); auto. destruct (checked_add_days cur dir); auto.
Qed.

(** Weekend rules always leave a working weekday. *)
Lemma mask_code_has_workday : forall code l, weekend_mask_from_code code = Some l ->
  length l = 7%nat /\ exists i, 0 <= i < 7 /\ mask_of_list l i = false.
Proof.
  intros code l H. unfold weekend_mask_from_code in H.
  repeat match type of H with (if ?c then _ else _) = _ => destruct c end; try discriminate;
  cbn in H; inversion H; split; try reflexivity;
  first [exists 0; split; [lia|reflexivity] | exists 1; split; [lia|reflexivity]
        | exists 2; split; [lia|reflexivity] | exists 3; split; [lia|reflexivity]].
Qed.

Lemma mask_chars_length : forall s m, mask_chars s = Some m -> length m = length s.
Proof.
  induction s as [|c s IH]; intros m H; cbn in H.
  - inversion H; reflexivity.
  - destruct (c =? 49)%N; [|destruct (c =? 48)%N; [|discriminate]];
    destruct (mask_chars s) as [m'|]; try discriminate; cbn in H; inversion H; cbn; f_equal; auto.
Qed.

Lemma mask_string_has_workday : forall bl s l, weekend_mask_from_string bl s = Some l -> (length s <= 7)%nat ->
  length l = 7%nat /\ exists i, 0 <= i < 7 /\ mask_of_list l i = false.
Proof.
  intros bl s l H Hs. unfold weekend_mask_from_string in H. destruct (negb _); [discriminate|].
  destruct (mask_chars s) as [m|] eqn:M; [|discriminate].
  pose proof (mask_chars_length s m M) as Lm.
  destruct (forallb (fun b => b) m) eqn:F; [discriminate|]. assert (El : l = m ++ repeat false (7 - length m)) by congruence. rewrite El. clear H El.
  split; [rewrite app_length, repeat_length; lia|].
  assert (X : exists i, (i < length m)%nat /\ nth i m true = false).
  { clear -F. induction m as [|b m IH]; [discriminate|]. destruct b; cbn in F.
    - destruct (IH F) as (i & Hi & E). exists (S i). cbn. split; [lia|auto].
    - exists O. cbn. split; [lia|auto]. }
  destruct X as (i & Hi & E). exists (Z.of_nat i). split; [lia|]. unfold mask_of_list. rewrite Nat2Z.id.
  rewrite app_nth1 by auto. rewrite (nth_indep m false true Hi). exact E.
Qed.

Lemma workday_forward : forall s w hol fuel x n r, Forall valid_ymd hol -> 0 < n ->
  workday s w hol fuel x n = Some (Ok r) ->
  exists d t, try_serial_to_date s x = Ok d /\ r = date_to_serial s t /\ valid_ymd t /\
    works w hol t /\ date_lt d t /\ networkdays_dates w hol (next_day d) t = n.
Proof.
  intros s w hol fuel x n r Fh Hn H. unfold workday in H.
  destruct (try_serial_to_date s x) as [d| |] eqn:E; [|discriminate|discriminate].
  assert (Vd : valid_ymd d) by (apply try_date_ok_calendar in E; apply E).
  replace (0 <=? n) with true in H by lia. replace (Z.abs n) with n in H by lia.
  destruct (workday_loop w hol 1 fuel d n) as [[t| |]|] eqn:L; try discriminate. inversion H; subst r.
  apply loop_forward in L; auto; [|lia]. destruct L as (Vt & Le & CT & P). destruct (P Hn) as [W Lt].
  exists d, t. split; auto. split; auto. split; auto. split; [now apply is_workday_iff|].
  split; [now apply date_lt_number|].
  unfold networkdays_dates, date_leb. rewrite day_number_next by auto.
  replace (day_number d + 1 <=? day_number t) with true by lia. rewrite day_number_next by auto.
  replace (day_number t - (day_number d + 1) + 1) with (day_number t - day_number d) by lia. lia.
Qed.

Lemma workday_backward : forall s w hol fuel x n r, Forall valid_ymd hol -> n < 0 ->
  workday s w hol fuel x n = Some (Ok r) ->
  exists d t, try_serial_to_date s x = Ok d /\ r = date_to_serial s t /\ valid_ymd t /\
    works w hol t /\ date_lt t d /\
    forall e, valid_ymd e -> next_day e = d -> networkdays_dates w hol t e = - n.
Proof.
  intros s w hol fuel x n r Fh Hn H. unfold workday in H.
  destruct (try_serial_to_date s x) as [d| |] eqn:E; [|discriminate|discriminate].
  assert (Vd : valid_ymd d) by (apply try_date_ok_calendar in E; apply E).
  replace (0 <=? n) with false in H by lia. replace (Z.abs n) with (- n) in H by lia.
  destruct (workday_loop w hol (-1) fuel d (- n)) as [[t| |]|] eqn:L; try discriminate. inversion H; subst r.
  apply loop_backward in L; auto; [|lia]. destruct L as (Vt & Le & CT & P). destruct (P ltac:(lia)) as [W Lt].
  exists d, t. split; auto. split; auto. split; auto. split; [now apply is_workday_iff|].
  split; [now apply date_lt_number|].
  intros e Ve <-. rewrite day_number_next in * by auto.
  unfold networkdays_dates, date_leb.
  replace (day_number t <=? day_number e) with true by lia.
  replace (day_number e - day_number t + 1) with (day_number e + 1 - day_number t) by lia. lia.
Qed.

Lemma workday_zero : forall s w hol fuel x d, try_serial_to_date s x = Ok d ->
  workday s w hol fuel x 0 = Some (Ok (date_to_serial s d)).
Proof. intros s w hol fuel x d E. unfold workday. rewrite E. cbn [Z.abs]. now rewrite loop_zero. Qed.

Lemma workday_ends : forall s w hol x n, exists fuel res,
  workday s w hol fuel x n = Some res /\ forall more, workday s w hol (fuel + more) x n = Some res.
Proof.
  intros s w hol x n. unfold workday. destruct (try_serial_to_date s x) as [d|e|] eqn:E;
    [|exists 0%nat; eexists; split; intros; reflexivity|exists 0%nat; eexists; split; intros; reflexivity].
  assert (Vd : valid_date d) by (apply try_date_ok_calendar in E; apply E).
  set (dir := if 0 <=? n then 1 else -1).
  set (f := Z.to_nat (1 + Z.abs (day_number (mkDate MAX_YEAR 12 31) - day_number d)
                        + Z.abs (day_number d - day_number (mkDate MIN_YEAR 1 1)))).
  assert (N : workday_loop w hol dir f d (Z.abs n) <> None).
  { apply loop_ends; auto; [unfold dir; destruct (0 <=? n); auto| |]; intros _; unfold f;
    rewrite Z2Nat.id by lia; lia. }
  destruct (workday_loop w hol dir f d (Z.abs n)) as [r|] eqn:L; [|contradiction].
  exists f. rewrite L. destruct r as [t|e|]; eexists; (split; [reflexivity|]); intros more;
    now rewrite (loop_fuel_mono _ _ _ _ _ _ _ L more).
Qed.

Lemma networkdays_weeks : forall a k b, valid_ymd a -> days_later (7 * S k - 1) a b ->
  networkdays_dates default_mask [] a b = 5 * Z.of_nat (S k).
Proof.
  intros a k b Va H. apply days_later_number in H; auto. destruct H as [Vb N].
  unfold networkdays_dates, date_leb. replace (day_number a <=? day_number b) with true by lia.
  replace (Z.to_nat (day_number b - day_number a + 1)) with (7 * S k)%nat by lia.
  rewrite whole_weeks. lia.
Qed.
