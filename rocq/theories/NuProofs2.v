(** Conversions to and from a base. *)
From Coq Require Import String ZifyN ZifyNat ZifyBool.
From Verif Require Import Base Maps NuModel NuSpec NuProofs1.
Local Open Scope Z_scope.

(** The three bases. *)
Record basis (b : Z) (isd : N -> bool) (neg : N) : Prop := {
  ba_range : 2 <= b <= 16;
  ba_even : b = 2 * (b / 2);
  ba_pow : b ^ 10 <= 2 ^ 40;
  ba_digit : forall c, isd c = true <-> exists d, isdigit b c d;
  ba_neg : forall c d, isdigit b c d -> ((neg <=? c)%N = true <-> b / 2 <= d)
}.

Lemma digit_cases : forall b c d, b <= 36 -> isdigit b c d ->
  (48 <= c <= 57)%N /\ d = Z.of_N c - 48 \/ (65 <= c <= 90)%N /\ d = Z.of_N c - 55 \/ (97 <= c <= 122)%N /\ d = Z.of_N c - 87.
Proof.
  intros b c d Hb H. apply digit_of_spec in H; [|exact Hb]. unfold digit_of, digit_val in H.
  destruct ((48 <=? Z.of_N c) && (Z.of_N c <=? 57)) eqn:E1;
    [|destruct ((65 <=? Z.of_N c) && (Z.of_N c <=? 90)) eqn:E2;
      [|destruct ((97 <=? Z.of_N c) && (Z.of_N c <=? 122)) eqn:E3; [|discriminate]]];
  match type of H with (if ?x then _ else _) = _ => destruct x end; try discriminate; injection H as <-; lia.
Qed.
Lemma mk_digit : forall b c d, b <= 36 -> 0 <= d < b ->
  (48 <= c <= 57)%N /\ d = Z.of_N c - 48 \/ (65 <= c <= 90)%N /\ d = Z.of_N c - 55 \/ (97 <= c <= 122)%N /\ d = Z.of_N c - 87 ->
  isdigit b c d.
Proof.
  intros b c d Hb Hd H. apply digit_of_spec; [exact Hb|]. unfold digit_of, digit_val.
  destruct ((48 <=? Z.of_N c) && (Z.of_N c <=? 57)) eqn:E1;
    [|destruct ((65 <=? Z.of_N c) && (Z.of_N c <=? 90)) eqn:E2;
      [|destruct ((97 <=? Z.of_N c) && (Z.of_N c <=? 122)) eqn:E3; [|lia]]];
  match goal with |- (if ?x then _ else _) = _ => assert (x = true) as -> by lia end; f_equal; lia.
Qed.

Lemma basis_bin : basis 2 is_bin 49.
Proof.
  constructor; try (vm_compute; intuition congruence).
  - intros c. unfold is_bin. split.
    + intros H. exists (Z.of_N c - 48). apply mk_digit; lia.
    + intros [d H]. pose proof (proj1 H). apply digit_cases in H; lia.
  - intros c d H. pose proof (proj1 H). apply digit_cases in H; [|lia]. change (2 / 2) with 1. lia.
Qed.
Lemma basis_oct : basis 8 is_oct 52.
Proof.
  constructor; try (vm_compute; intuition congruence).
  - intros c. unfold is_oct. split.
    + intros H. exists (Z.of_N c - 48). apply mk_digit; lia.
    + intros [d H]. pose proof (proj1 H). apply digit_cases in H; lia.
  - intros c d H. pose proof (proj1 H). apply digit_cases in H; [|lia]. change (8 / 2) with 4. lia.
Qed.
Lemma basis_hex : basis 16 is_hex 56.
Proof.
  constructor; try (vm_compute; intuition congruence).
  - intros c. unfold is_hex. split.
    + intros H. destruct ((48 <=? c) && (c <=? 57))%N eqn:E1; [exists (Z.of_N c - 48); apply mk_digit; lia|].
      destruct ((65 <=? c) && (c <=? 70))%N eqn:E2; [exists (Z.of_N c - 55); apply mk_digit; lia|].
      exists (Z.of_N c - 87). apply mk_digit; lia.
    + intros [d H]. pose proof (proj1 H). apply digit_cases in H; lia.
  - intros c d H. pose proof (proj1 H). apply digit_cases in H; [|lia]. change (16 / 2) with 8. lia.
Qed.

Section Basis.
Variables (b : Z) (isd : N -> bool) (neg : N).
Hypothesis B : basis b isd neg.

Lemma pow9 : b ^ 10 = b * b ^ 9 /\ 0 < b ^ 9 /\ b ^ 10 / 2 = b / 2 * b ^ 9.
Proof.
  pose proof (ba_range _ _ _ B) as R. pose proof (ba_even _ _ _ B) as E.
  assert (0 < b ^ 9) by (apply Z.pow_pos_nonneg; lia).
  assert (b ^ 10 = b * b ^ 9) as P by (rewrite <- Z.pow_succ_r by lia; reflexivity).
  repeat split; auto. rewrite P. rewrite E at 1. rewrite <- Z.mul_assoc.
  rewrite Z.mul_comm, Z.div_mul by lia. reflexivity.
Qed.

Lemma isd_reads : forall s, forallb isd s = true <-> exists ds, reads b s ds.
Proof.
  induction s as [|c s IH]; cbn [forallb].
  - split; [intros _; exists []; constructor|reflexivity].
  - rewrite andb_true_iff, IH, (ba_digit _ _ _ B). split.
    + intros [[d Hd] [ds H]]. exists (d :: ds). now constructor.
    + intros [ds H]. inversion H as [|? d ? r Hd R]; subst. eauto.
Qed.

Lemma reads_fun : forall s x y, reads b s x -> reads b s y -> x = y.
Proof.
  intros s x y H. revert y. induction H as [|c d s ds Hd H IH]; intros y Hy; inversion Hy as [|? e ? r He R]; subst; auto.
  f_equal; [|auto]. pose proof (ba_range _ _ _ B). apply digit_of_spec in Hd; [|lia]. apply digit_of_spec in He; [|lia]. congruence.
Qed.

Lemma read_base_ok : forall s n, read_base b (b ^ 10) isd neg s = Some n <-> stands b s n.
Proof.
  intros s n. pose proof (ba_range _ _ _ B) as R. pose proof pow9 as [P1 [P2 P3]].
  unfold read_base.
  destruct ((10 <? Z.of_nat (length s)) || negb (forallb isd s)) eqn:G.
  { split; [discriminate|]. intros [ds [H1 [H2 _]]]. exfalso.
    assert (forallb isd s = true) as E by (apply isd_reads; eauto). rewrite E in G. cbn in G. lia. }
  apply orb_false_elim in G as [G1 G2]. apply negb_false_iff in G2. pose proof G2 as G3. apply isd_reads in G3 as [ds H].
  pose proof (reads_len _ _ _ H) as HL. pose proof (pv_bound b ds ltac:(lia) (reads_digits _ _ _ H)) as PB.
  assert (b ^ Z.of_nat (length ds) <= b ^ 10) as PM by (apply Z.pow_le_mono_r; lia).
  assert (match from_str_radix b s with Some v => v | None => 0 end = pv b ds) as ->.
  { pose proof (ba_pow _ _ _ B) as PW.
    destruct (from_str_radix b s) as [v|] eqn:F.
    - apply from_str_unsigned in F; [|lia|]. 2:{ eapply Forall_impl; [|eapply reads_ascii with (b := b); [lia|exact H]]. cbn. lia. }
      destruct F as [ds' [H' [_ [-> _]]]]. now rewrite (reads_fun _ _ _ H H').
    - destruct s as [|c s]; [inversion H; subst; reflexivity|].
      assert (from_str_radix b (c :: s) = Some (pv b ds)) as X; [|congruence].
      apply from_str_unsigned; [lia| |].
      { eapply Forall_impl; [|eapply reads_ascii with (b := b); [lia|exact H]]. cbn. lia. }
      exists ds. repeat split; auto; [discriminate|]. unfold in_i64. lia. }
  assert ((if (Z.of_nat (length s) =? 10) && match s with c :: _ => (neg <=? c)%N | [] => false end
           then Some (pv b ds - b ^ 10) else Some (pv b ds)) = Some (signed b (pv b ds))) as ->.
  { unfold signed. destruct (Z.of_nat (length s) =? 10) eqn:E10; cbn [andb].
    - destruct s as [|c s]; [cbn in E10; discriminate|]. inversion H as [|? d ? r Hd Hr]; subst.
      pose proof (ba_neg _ _ _ B c d Hd) as NG. pose proof (proj1 Hd) as Dr.
      pose proof (pv_bound b r ltac:(lia) (reads_digits _ _ _ Hr)) as PR.
      pose proof (reads_len _ _ _ Hr) as HR. cbn [length] in E10, HL. cbn [pv].
      assert (Z.of_nat (length r) = 9) as L9 by lia. rewrite L9 in *.
      destruct (neg <=? c)%N eqn:EN.
      + assert (b / 2 <= d) by now apply NG.
        assert (d * b ^ 9 + pv b r <? b ^ 10 / 2 = false) as ->; [|reflexivity].
        rewrite P3. apply Z.ltb_ge. nia.
      + assert (d < b / 2) by (destruct (Z_lt_le_dec d (b / 2)) as [|X]; [assumption|apply NG in X; congruence]).
        assert (d * b ^ 9 + pv b r <? b ^ 10 / 2 = true) as ->; [|reflexivity].
        rewrite P3. apply Z.ltb_lt. nia.
    - assert (b ^ Z.of_nat (length ds) <= b ^ 9) by (apply Z.pow_le_mono_r; lia).
      assert (1 <= b / 2) by (pose proof (ba_even _ _ _ B); lia).
      assert (pv b ds <? b ^ 10 / 2 = true) as ->; [|reflexivity]. rewrite P3. apply Z.ltb_lt. nia. }
  split.
  - intros [= <-]. exists ds. split; [exact H|]. split; [lia|reflexivity].
  - intros [ds' [H' [_ ->]]]. now rewrite (reads_fun _ _ _ H H').
Qed.

Lemma signed_inj : forall u v, 0 <= u < b ^ 10 -> 0 <= v < b ^ 10 -> signed b u = signed b v -> u = v.
Proof.
  intros u v Hu Hv H. unfold signed in H. pose proof pow9 as [P1 [P2 P3]].
  pose proof (ba_even _ _ _ B) as E. assert (b ^ 10 = 2 * (b ^ 10 / 2)) by (rewrite P3, P1; rewrite E at 1; ring).
  destruct (u <? b ^ 10 / 2) eqn:Eu, (v <? b ^ 10 / 2) eqn:Ev; lia.
Qed.
Lemma signed_range : forall u, 0 <= u < b ^ 10 -> - (b ^ 10 / 2) <= signed b u < b ^ 10 / 2.
Proof.
  intros u Hu. unfold signed. pose proof pow9 as [P1 [P2 P3]].
  pose proof (ba_even _ _ _ B) as E. assert (b ^ 10 = 2 * (b ^ 10 / 2)) by (rewrite P3, P1; rewrite E at 1; ring).
  destruct (u <? b ^ 10 / 2) eqn:Eu; lia.
Qed.
Lemma stands_range : forall s n, stands b s n -> - (b ^ 10 / 2) <= n < b ^ 10 / 2.
Proof.
  intros s n [ds [H [L ->]]]. pose proof (ba_range _ _ _ B). apply signed_range.
  pose proof (pv_bound b ds ltac:(lia) (reads_digits _ _ _ H)) as PB. pose proof (reads_len _ _ _ H) as HL.
  assert (b ^ Z.of_nat (length ds) <= b ^ 10) by (apply Z.pow_le_mono_r; lia). lia.
Qed.

(** The digits written before padding. *)
Lemma pad_map : forall w ds, pad w (List.map char_of ds) = List.map char_of (repeat 0 (Z.to_nat w - length ds) ++ ds).
Proof.
  intros w ds. unfold pad. rewrite map_app, map_length. f_equal.
  induction (Z.to_nat w - length ds)%nat as [|k IH]; cbn; [reflexivity|]. now rewrite IH.
Qed.
Lemma zeros_ok : forall k ds, 2 <= b -> Forall (fun d => 0 <= d < b) ds -> Forall (fun d => 0 <= d < b) (repeat 0 k ++ ds).
Proof. intros k ds Hb H. apply Forall_app. split; [|exact H]. apply Forall_forall. intros x Hx. apply repeat_spec in Hx. lia. Qed.

Definition raw (n : Z) : text := if 0 <=? n then fmt b n else pad 10 (fmt b (n + b ^ 10)).

Lemma raw_ok : forall n, - (b ^ 10 / 2) <= n < b ^ 10 / 2 ->
  exists ds u, raw n = List.map char_of ds /\ Forall (fun d => 0 <= d < b) ds /\ ds <> [] /\ pv b ds = u /\
    0 <= u < b ^ 10 /\ signed b u = n /\ (length ds <= 10)%nat /\
    (forall k, (1 <= k <= 10)%nat -> (k < length ds)%nat ->
       forall es, Forall (fun d => 0 <= d < b) es -> length es = k -> signed b (pv b es) <> n).
Proof.
  intros n Hn. pose proof (ba_range _ _ _ B) as R. pose proof pow9 as [P1 [P2 P3]].
  pose proof (ba_even _ _ _ B) as E. assert (b ^ 10 = 2 * (b ^ 10 / 2)) as HM by (rewrite P3, P1; rewrite E at 1; ring).
  unfold raw. destruct (0 <=? n) eqn:S0.
  - destruct (fmt_ok b n ltac:(lia) ltac:(lia)) as [ds [F1 [F2 [F3 [F4 [F5 F6]]]]]].
    exists ds, n. split; [exact F1|]. split; [exact F2|]. split; [exact F4|]. split; [exact F3|].
    split; [lia|]. split; [unfold signed; destruct (n <? b ^ 10 / 2) eqn:L; lia|]. split.
    + destruct (Z.eq_dec n 0) as [Z0|Z0]; [rewrite (F5 Z0); cbn; lia|].
      destruct (F6 ltac:(lia)) as [d [r [-> Hd]]].
      assert (Z.of_nat (length (d :: r)) <= 10); [|lia].
      apply (shortest b d r 10); auto; rewrite ?F3; lia.
    + intros k Hk1 Hk2 es He1 He2 He3.
      pose proof (pv_bound b es ltac:(lia) He1) as PB.
      assert (b ^ Z.of_nat (length es) <= b ^ 10) by (apply Z.pow_le_mono_r; lia).
      assert (pv b es = n) as En.
      { unfold signed in He3. destruct (pv b es <? b ^ 10 / 2) eqn:L; lia. }
      destruct (Z.eq_dec n 0) as [Z0|Z0]; [rewrite (F5 Z0) in Hk2; cbn in Hk2; lia|].
      destruct (F6 ltac:(lia)) as [d [r [Eds Hd]]]. rewrite Eds in *.
      assert (Z.of_nat (length (d :: r)) <= Z.of_nat k); [|lia].
      apply (shortest b d r (Z.of_nat k)); auto; rewrite ?F3, <- ?En, <- ?He2; lia.
  - destruct (fmt_ok b (n + b ^ 10) ltac:(lia) ltac:(lia)) as [ds [F1 [F2 [F3 [F4 [F5 F6]]]]]].
    destruct (F6 ltac:(lia)) as [d [r [Eds Hd]]].
    assert (length ds <= 10)%nat as L10.
    { rewrite Eds in *. assert (Z.of_nat (length (d :: r)) <= 10); [|lia].
      apply (shortest b d r 10); auto; rewrite ?F3; lia. }
    exists (repeat 0 (10 - length ds) ++ ds), (n + b ^ 10).
    split; [rewrite F1; apply pad_map|]. split; [apply zeros_ok; [lia|exact F2]|].
    split; [intros X; apply app_eq_nil in X; tauto|]. split; [now rewrite pv_zeros|].
    split; [lia|]. split; [unfold signed; destruct (n + b ^ 10 <? b ^ 10 / 2) eqn:L; lia|].
    rewrite app_length, repeat_length. split; [lia|].
    intros k Hk1 Hk2 es He1 He2 He3.
    pose proof (pv_bound b es ltac:(lia) He1) as PB.
    assert (b ^ Z.of_nat (length es) <= b ^ 9) by (apply Z.pow_le_mono_r; lia).
    assert (1 <= b / 2) by lia.
    unfold signed in He3. destruct (pv b es <? b ^ 10 / 2) eqn:L; [lia|]. nia.
Qed.

Lemma write_places : forall n p t, - (b ^ 10 / 2) <= n < b ^ 10 / 2 -> 0 <= p ->
  (write_base b (b ^ 10) n (Some p) = OText t <->
   t <> [] /\ Z.of_nat (length t) = p /\ capital t /\ stands b t n).
Proof.
  intros n p t Hn Hp. pose proof (ba_range _ _ _ B) as R.
  destruct (raw_ok n Hn) as [ds [u [R1 [R2 [R3 [R4 [R5 [R6 [R7 R8]]]]]]]]].
  unfold write_base. cbv zeta. fold (raw n). rewrite R1, map_length.
  set (D := repeat 0 (Z.to_nat p - length ds) ++ ds).
  assert (Forall (fun d => 0 <= d < b) D) as FD by (apply zeros_ok; [lia|exact R2]).
  assert (pv b D = u) as PD by (unfold D; now rewrite pv_zeros).
  destruct ((p <? Z.of_nat (length ds)) || (10 <? p)) eqn:G.
  - split; [discriminate|]. intros [T1 [T2 [T3 [es [T4 [T5 T6]]]]]]. exfalso.
    pose proof (reads_len _ _ _ T4) as TL. apply (R8 (length t)) with (es := es); try lia.
    + destruct t; [contradiction|]. cbn in *. lia.
    + exact (reads_digits _ _ _ T4).
  - rewrite pad_map. fold D. apply orb_false_elim in G as [G1 G2].
    assert (Z.of_nat (length D) = p) as LD by (unfold D; rewrite app_length, repeat_length; lia). split.
    + intros [= <-]. split.
      { intros X. apply map_eq_nil in X. unfold D in X. apply app_eq_nil in X. tauto. }
      split; [rewrite map_length; lia|]. split; [apply (map_char_capital b); [lia|exact FD]|].
      exists D. split; [apply map_char_reads; [lia|exact FD]|]. split; [rewrite map_length; lia|]. now rewrite PD.
    + intros [T1 [T2 [T3 [es [T4 [T5 T6]]]]]]. f_equal.
      rewrite (capital_reads b t es ltac:(lia) T4 T3). f_equal. symmetry.
      pose proof (reads_len _ _ _ T4) as TL.
      apply (pv_inj b); [lia|exact (reads_digits _ _ _ T4)|exact FD|lia|].
      pose proof (pv_bound b es ltac:(lia) (reads_digits _ _ _ T4)) as PB.
      assert (b ^ Z.of_nat (length es) <= b ^ 10) by (apply Z.pow_le_mono_r; lia).
      apply signed_inj; [lia|lia|]. rewrite PD, R6. congruence.
Qed.

Lemma write_free : forall n t, - (b ^ 10 / 2) <= n < b ^ 10 / 2 ->
  (write_base b (b ^ 10) n None = OText t <->
   t <> [] /\ capital t /\ stands b t n /\
   (forall t', t' <> [] -> stands b t' n -> (length t <= length t')%nat)).
Proof.
  intros n t Hn. pose proof (ba_range _ _ _ B) as R.
  destruct (raw_ok n Hn) as [ds [u [R1 [R2 [R3 [R4 [R5 [R6 [R7 R8]]]]]]]]].
  unfold write_base. cbv zeta. fold (raw n). rewrite R1.
  assert (MIN : forall t', t' <> [] -> stands b t' n -> (length ds <= length t')%nat).
  { intros t' T1 [es [T4 [T5 T6]]]. destruct (le_lt_dec (length ds) (length t')) as [|X]; [assumption|exfalso].
    pose proof (reads_len _ _ _ T4) as TL. apply (R8 (length t')) with (es := es); try lia.
    - destruct t'; [contradiction|]. cbn in *. lia.
    - exact (reads_digits _ _ _ T4). }
  assert (stands b (List.map char_of ds) n) as ST.
  { exists ds. split; [apply map_char_reads; [lia|exact R2]|]. rewrite map_length. split; [exact R7|]. now rewrite R4. }
  assert (List.map char_of ds <> []) as NE by (intros X; apply map_eq_nil in X; contradiction).
  split.
  - intros [= <-]. split; [exact NE|]. split; [apply (map_char_capital b); [lia|exact R2]|]. split; [exact ST|].
    intros t' T1 T2. rewrite map_length. now apply MIN.
  - intros [T1 [T3 [T2 T4]]]. f_equal. pose proof (T4 _ NE ST) as L1. rewrite map_length in L1.
    pose proof (MIN t T1 T2) as L2. destruct T2 as [es [H1 [H2 H3]]].
    rewrite (capital_reads b t es ltac:(lia) H1 T3). f_equal. symmetry. pose proof (reads_len _ _ _ H1) as TL.
    apply (pv_inj b); [lia|exact (reads_digits _ _ _ H1)|exact R2|lia|].
    pose proof (pv_bound b es ltac:(lia) (reads_digits _ _ _ H1)) as PB.
    assert (b ^ Z.of_nat (length es) <= b ^ 10) by (apply Z.pow_le_mono_r; lia).
    apply signed_inj; [lia|lia|]. rewrite R4, R6. congruence.
Qed.

(** Without places every number in range is written. *)
Lemma write_some : forall n, exists t, write_base b (b ^ 10) n None = OText t.
Proof. intros n. unfold write_base. eauto. Qed.
End Basis.

Lemma pow_bin : 2 ^ 10 = 1024. Proof. reflexivity. Qed.
Lemma pow_oct : 8 ^ 10 = 2 ^ 30. Proof. reflexivity. Qed.
Lemma pow_hex : 16 ^ 10 = 2 ^ 40. Proof. reflexivity. Qed.

Lemma read_bin_ok : forall s n, read_bin s = Some n <-> stands 2 s n.
Proof. intros. exact (read_base_ok 2 is_bin 49 basis_bin s n). Qed.
Lemma read_oct_ok : forall s n, read_oct s = Some n <-> stands 8 s n.
Proof. intros. exact (read_base_ok 8 is_oct 52 basis_oct s n). Qed.
Lemma read_hex_ok : forall s n, read_hex s = Some n <-> stands 16 s n.
Proof. intros. exact (read_base_ok 16 is_hex 56 basis_hex s n). Qed.
