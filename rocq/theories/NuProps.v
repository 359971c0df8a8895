(** C132-C137: numeral systems, bits, Roman numerals, divisors. *)
From Coq Require Import String ZifyN ZifyNat ZifyBool Znumtheory QArith.
From Verif Require Import Base Maps NuModel NuSpec NuProofs1 NuProofs2 NuProofs3 NuProofs4.
Close Scope Q_scope.
Local Open Scope Z_scope.

(** * C132: numbers and their texts in base 2, 8 and 16 *)

(** BIN2DEC, OCT2DEC and HEX2DEC give the number a text stands for in two's
    complement with ten digits, and [#NUM!] exactly if it stands for none. *)
Theorem C132_reading : forall show s,
  decided 2 s (f_bin2dec show (LText s)) /\ decided 8 s (f_oct2dec show (LText s)) /\
  (forall upper, upper_ok upper -> Forall (fun c => (c < 128)%N) s -> decided 16 s (f_hex2dec upper show (LText s))).
Proof.
  intros show s. split; [|split].
  - exact (decide 2 s s read_bin read_bin_ok (fun n => iff_refl _)).
  - exact (decide 8 s s read_oct read_oct_ok (fun n => iff_refl _)).
  - intros upper U A. unfold f_hex2dec, to_dec. cbn [coerce_base_text]. rewrite (U s A).
    apply decide; [exact read_hex_ok|]. intros n. apply up_stands. lia.
Qed.
Print Assumptions C132_reading.

(** DEC2BIN, DEC2OCT and DEC2HEX: within the range the shortest text, or the
    text of the requested length if there is one; [#NUM!] otherwise. *)
Definition writes (i2f : Z -> fnum) (pn : text -> option fnum) (base lo hi n : Z) (f : option lit -> out) : Prop :=
  (lo <= n < hi ->
     (exists t, f None = OText t) /\
     (forall t, f None = OText t <-> shortest_for base t n) /\
     (forall w y t, coerce_num i2f pn w = inl y -> (f (Some w) = OText t <-> sized_for base (as_usize y) t n)) /\
     (forall w y, coerce_num i2f pn w = inl y -> (exists t, f (Some w) = OText t) \/ f (Some w) = OErr ENum)) /\
  (~ lo <= n < hi -> forall p, f p = OErr ENum).
Theorem C132_writing : forall i2f pn v x, coerce_num i2f pn v = inl x ->
  writes i2f pn 2 (-512) 512 (as_i64 x) (f_dec2bin i2f pn v) /\
  writes i2f pn 8 (- 2 ^ 29) (2 ^ 29) (as_i64 x) (f_dec2oct i2f pn v) /\
  writes i2f pn 16 (- 2 ^ 39) (2 ^ 39) (as_i64 x) (f_dec2hex i2f pn v).
Proof.
  intros i2f pn v x C. split; [|split].
  - exact (of_dec_ok i2f pn 2 is_bin 49 basis_bin v x C).
  - exact (of_dec_ok i2f pn 8 is_oct 52 basis_oct v x C).
  - exact (of_dec_ok i2f pn 16 is_hex 56 basis_hex v x C).
Qed.
Print Assumptions C132_writing.

(** What is written is read back. *)
Theorem C132_round_trip : forall i2f pn show upper v x p t, upper_ok upper -> coerce_num i2f pn v = inl x ->
  (f_dec2bin i2f pn v p = OText t -> f_bin2dec show (LText t) = OInt (as_i64 x)) /\
  (f_dec2oct i2f pn v p = OText t -> f_oct2dec show (LText t) = OInt (as_i64 x)) /\
  (f_dec2hex i2f pn v p = OText t -> f_hex2dec upper show (LText t) = OInt (as_i64 x)).
Proof.
  intros i2f pn show upper v x p t U C. destruct (C132_reading show t) as [R2 [R8 R16]]. split; [|split]; intros H.
  - apply (proj1 R2). apply (of_dec_stands i2f pn 2 is_bin 49 basis_bin v x p t C) in H. tauto.
  - apply (proj1 R8). apply (of_dec_stands i2f pn 8 is_oct 52 basis_oct v x p t C) in H. tauto.
  - apply (of_dec_stands i2f pn 16 is_hex 56 basis_hex v x p t C) in H as [H1 H2].
    apply (proj1 (R16 upper U (capital_ascii t H1))). exact H2.
Qed.
Print Assumptions C132_round_trip.

Definition idf : Z -> fnum := fun z => FFin (inject_Z z).
Definition nop : text -> option fnum := fun _ => None.
Definition up : text -> text := List.map ascii_up.
Definition sh (z : Z) : text := if z <? 0 then 45%N :: fmt 10 (- z) else fmt 10 z.
Example C132_example :
  f_dec2hex idf nop (LInt (-2)) None = OText (tx "FFFFFFFFFE"%string) /\
  f_hex2dec up sh (LText (tx "fffffffffe"%string)) = OInt (-2) /\
  f_dec2bin idf nop (LInt 5) (Some (LInt 8)) = OText (tx "00000101"%string) /\
  f_dec2bin idf nop (LInt 5) (Some (LInt 2)) = OErr ENum /\
  f_dec2oct idf nop (LNum (FFin (-155 # 10))) None = OText (tx "7777777761"%string) /\
  f_bin2dec sh (LText (tx "1111111110"%string)) = OInt (-2) /\ upper_ok up.
Proof. repeat split; try (vm_compute; reflexivity). Qed.

(** * C133: conversions between bases go through decimal *)
Definition through (d : out) (f : lit -> out) : out := match d with OInt n => f (LInt n) | OText s => OText s | OErr e => OErr e | OPanic => OPanic end.
Theorem C133_cross : forall i2f pn upper show v p, i2f_ok i2f ->
  f_bin2hex i2f pn show v p = through (f_bin2dec show v) (fun n => f_dec2hex i2f pn n p) /\
  f_bin2oct i2f pn show v p = through (f_bin2dec show v) (fun n => f_dec2oct i2f pn n p) /\
  f_oct2bin i2f pn show v p = through (f_oct2dec show v) (fun n => f_dec2bin i2f pn n p) /\
  f_oct2hex i2f pn show v p = through (f_oct2dec show v) (fun n => f_dec2hex i2f pn n p) /\
  f_hex2bin i2f pn upper show v p = through (f_hex2dec upper show v) (fun n => f_dec2bin i2f pn n p) /\
  f_hex2oct i2f pn upper show v p = through (f_hex2dec upper show v) (fun n => f_dec2oct i2f pn n p).
Proof.
  intros i2f pn upper show v p OK.
  pose proof (fun sh rd up rg v p => cross_dec i2f pn 2 sh rd up rg v p OK) as X2.
  pose proof (fun sh rd up rg v p => cross_dec i2f pn 8 sh rd up rg v p OK) as X8.
  pose proof (fun sh rd up rg v p => cross_dec i2f pn 16 sh rd up rg v p OK) as X16.
  change (2 ^ 10 / 2) with 512 in X2. change (2 ^ 10) with 1024 in X2. change (512 - 1) with 511 in X2.
  change (8 ^ 10 / 2) with (2 ^ 29) in X8. change (8 ^ 10) with (2 ^ 30) in X8.
  change (16 ^ 10 / 2) with (2 ^ 39) in X16. change (16 ^ 10) with (2 ^ 40) in X16.
  repeat split.
  - refine (X16 show read_bin (fun s => s) None v p _). intros s n H. apply bin_range in H.
    lia.
  - refine (X8 show read_bin (fun s => s) None v p _). intros s n H. apply bin_range in H.
    lia.
  - refine (X2 show read_oct (fun s => s) (Some (-512, 511)) v p _). intros s n H. apply oct_range in H.
    split; [lia|]. split; reflexivity.
  - refine (X16 show read_oct (fun s => s) None v p _). intros s n H. apply oct_range in H.
    lia.
  - refine (X2 show read_hex upper (Some (-512, 511)) v p _). intros s n H. apply hex_range in H.
    split; [lia|]. split; reflexivity.
  - refine (X8 show read_hex upper (Some (- 2 ^ 29, 2 ^ 29 - 1)) v p _). intros s n H. apply hex_range in H.
    split; [lia|]. split; reflexivity.
Qed.
Print Assumptions C133_cross.

(** Converting there and back changes nothing but leading zeros and letter case. *)
Theorem C133_back : forall i2f pn upper show s t, i2f_ok i2f -> upper_ok upper ->
  f_bin2hex i2f pn show (LText s) None = OText t ->
  exists u, f_hex2bin i2f pn upper show (LText t) None = OText u /\ forall n, stands 2 u n <-> stands 2 s n.
Proof.
  intros i2f pn upper show s t OK U H.
  destruct (C133_cross i2f pn upper show (LText s) None OK) as [E1 _]. rewrite E1 in H.
  destruct (C132_reading show s) as [[R2 _] _].
  destruct (f_bin2dec show (LText s)) as [n| | |] eqn:D; cbn [through] in H.
  - assert (stands 2 s n) as S2 by now apply R2.
    pose proof (stands_range 2 is_bin 49 basis_bin s n S2) as RG. change (2 ^ 10 / 2) with 512 in RG.
    assert (coerce_num i2f pn (LInt n) = inl (FFin (inject_Z n))) as C by (cbn [coerce_num]; now rewrite OK by lia).
    pose proof (as_i64_int n ltac:(lia)) as A.
    destruct (C132_round_trip i2f pn show upper (LInt n) _ None t U C) as [_ [_ RT]]. specialize (RT H). rewrite A in RT.
    destruct (C133_cross i2f pn upper show (LText t) None OK) as [_ [_ [_ [_ [E5 _]]]]]. rewrite E5, RT. cbn [through].
    destruct (C132_writing i2f pn (LInt n) _ C) as [[W _] _]. rewrite A in W.
    destruct (W ltac:(lia)) as [[u Hu] [WF _]]. exists u. split; [exact Hu|].
    apply WF in Hu as [_ [_ [Hu _]]]. intros m. split; intros X.
    + destruct (C132_reading show u) as [[Q _] _]. pose proof (proj2 (Q n) Hu) as Z1. pose proof (proj2 (Q m) X) as Z2.
      assert (m = n) as -> by congruence. exact S2.
    + apply R2 in X. injection X as <-. exact Hu.
  - unfold f_bin2dec, to_dec in D. cbn in D. destruct (read_bin s); discriminate.
  - discriminate.
  - discriminate.
Qed.
Print Assumptions C133_back.
Example C133_example :
  f_hex2oct idf nop up sh (LText (tx "fffffffff8"%string)) None = OText (tx "7777777770"%string) /\
  f_bin2hex idf nop sh (LText (tx "1010"%string)) (Some (LInt 4)) = OText (tx "000A"%string) /\
  f_hex2bin idf nop up sh (LText (tx "200"%string)) None = OErr ENum.
Proof. repeat split; vm_compute; reflexivity. Qed.

(** * C134: bit functions *)
Definition bits_of (f : bool -> bool -> bool) (x y r : Z) : Prop :=
  0 <= r < 2 ^ 48 /\ forall i, 0 <= i -> Z.testbit r i = f (Z.testbit x i) (Z.testbit y i).
Theorem C134_bits : forall i2f pn a b x y n m,
  coerce_num i2f pn a = inl x -> coerce_num i2f pn b = inl y -> whole48 x n -> whole48 y m ->
  (exists r, f_bitand i2f pn a b = OInt r /\ bits_of andb n m r) /\
  (exists r, f_bitor i2f pn a b = OInt r /\ bits_of orb n m r) /\
  (exists r, f_bitxor i2f pn a b = OInt r /\ bits_of xorb n m r).
Proof.
  intros i2f pn a b x y n m Ca Cb Wx Wy.
  assert (to_bitwise_int i2f pn a = inl n) as Ea by (apply to_bitwise_ok; eauto).
  assert (to_bitwise_int i2f pn b = inl m) as Eb by (apply to_bitwise_ok; eauto).
  assert (0 <= n < 2 ^ 48) as Rn by (destruct Wx as [q [_ [_ R]]]; exact R).
  assert (0 <= m < 2 ^ 48) as Rm by (destruct Wy as [q [_ [_ R]]]; exact R).
  unfold f_bitand, f_bitor, f_bitxor, bit2. rewrite Ea, Eb. split; [|split].
  - eexists. split; [reflexivity|]. split; [apply land_range; lia|]. intros i _. apply Z.land_spec.
  - eexists. split; [reflexivity|]. split; [apply lor_range; lia|]. intros i _. apply Z.lor_spec.
  - eexists. split; [reflexivity|]. split; [apply lxor_range; lia|]. intros i _. apply Z.lxor_spec.
Qed.
Print Assumptions C134_bits.

(** Any other number is refused, by the shifts as well. *)
Theorem C134_refused : forall i2f pn chk a b x, coerce_num i2f pn a = inl x -> (forall n, ~ whole48 x n) ->
  f_bitand i2f pn a b = OErr ENum /\ f_bitor i2f pn a b = OErr ENum /\ f_bitxor i2f pn a b = OErr ENum /\
  f_bitlshift i2f pn chk a b = OErr ENum /\ f_bitrshift i2f pn chk a b = OErr ENum.
Proof.
  intros i2f pn chk a b x Ca W.
  assert (to_bitwise_int i2f pn a = inr ENum) as E.
  { destruct (to_bitwise_int i2f pn a) as [n|e] eqn:E.
    - apply to_bitwise_ok in E as [x' [E1 E2]]. exfalso. apply (W n). congruence.
    - apply to_bitwise_err in E as [E| ->]; [congruence|reflexivity]. }
  unfold f_bitand, f_bitor, f_bitxor, bit2, f_bitlshift, f_bitrshift. rewrite E. repeat split.
Qed.
Print Assumptions C134_refused.

(** The full claim for the shifts: [n * 2^s] rounded down, if it is below 2^48
    and the distance is below 48. *)
Definition shift_spec (n s : Z) (o : out) : Prop :=
  (s <= -48 -> o = OInt 0) /\
  (-48 < s < 48 -> let r := (if 0 <=? s then n * 2 ^ s else n / 2 ^ (- s)) in
     (r < 2 ^ 48 -> o = OInt r) /\ (2 ^ 48 <= r -> o = OErr ENum)) /\
  (48 <= s -> o = OErr ENum).
Theorem C134_shift_partial : forall i2f pn chk a b x y n,
  coerce_num i2f pn a = inl x -> coerce_num i2f pn b = inl y -> whole48 x n ->
  (n * 2 ^ Z.min 47 (as_i32 y) < 2 ^ 63 -> as_i32 y <> - 2 ^ 31 -> shift_spec n (as_i32 y) (f_bitlshift i2f pn chk a b)) /\
  (n * 2 ^ Z.min 47 (- as_i32 y) < 2 ^ 63 -> as_i32 y <> - 2 ^ 31 -> shift_spec n (- as_i32 y) (f_bitrshift i2f pn chk a b)).
Proof.
  intros i2f pn chk a b x y n Ca Cb W.
  assert (to_bitwise_int i2f pn a = inl n) as Ea by (apply to_bitwise_ok; eauto).
  assert (0 <= n < 2 ^ 48) as Rn by (destruct W as [q [_ [_ R]]]; exact R).
  unfold f_bitlshift, f_bitrshift, i32_neg_as_u32, shift_spec. rewrite Ea, Cb. cbv zeta.
  set (s := as_i32 y). change 281474976710656 with (2 ^ 48) in *.
  assert (0 <= n / 2 ^ s <= n \/ s < 0) as D1.
  { destruct (Z_lt_le_dec s 0); [now right|left]. split; [apply Z.div_pos; [lia|apply Z.pow_pos_nonneg; lia]|].
    apply Z.div_le_upper_bound; [apply Z.pow_pos_nonneg; lia|]. assert (0 < 2 ^ s) by (apply Z.pow_pos_nonneg; lia). nia. }
  assert (0 <= n / 2 ^ (- s) <= n \/ 0 < s) as D2.
  { destruct (Z_lt_le_dec 0 s); [now right|left]. split; [apply Z.div_pos; [lia|apply Z.pow_pos_nonneg; lia]|].
    apply Z.div_le_upper_bound; [apply Z.pow_pos_nonneg; lia|]. assert (0 < 2 ^ (- s)) by (apply Z.pow_pos_nonneg; lia). nia. }
  split; intros H1 H2.
  - assert ((s =? - 2 ^ 31) = false) as -> by lia. destruct (0 <=? s) eqn:S0.
    + split; [lia|]. split; [|intros L; assert (48 <=? s = true) as -> by lia; reflexivity].
      intros L. rewrite Z.min_r in H1 by lia. rewrite shl_exact by lia. assert (48 <=? s = false) as -> by lia.
      split; intros L2.
      * assert (2 ^ 48 <=? n * 2 ^ s = false) as -> by lia. reflexivity.
      * assert (2 ^ 48 <=? n * 2 ^ s = true) as -> by lia. reflexivity.
    + split; [intros L; assert (48 <=? - s = true) as -> by lia; reflexivity|]. split; [|lia].
      intros L. assert (48 <=? - s = false) as -> by lia. unfold i64_shr. split; [reflexivity|lia].
  - assert ((s =? - 2 ^ 31) = false) as -> by lia. destruct (0 <=? s) eqn:S0.
    + split; [intros L; assert (48 <=? s = true) as -> by lia; reflexivity|]. split; [|lia].
      intros L. assert (48 <=? s = false) as -> by lia. unfold i64_shr. destruct (0 <=? - s) eqn:S1.
      * assert (s = 0) as -> by lia. change (n * 2 ^ (-0)) with (n * 1). change (2 ^ 0) with 1. rewrite Z.div_1_r, Z.mul_1_r. split; [reflexivity|lia].
      * rewrite Z.opp_involutive. split; [reflexivity|lia].
    + split; [lia|]. assert (0 <=? - s = true) as -> by lia.
      split; [|intros L; assert (48 <=? - s = true) as -> by lia; reflexivity].
      intros L. rewrite Z.min_r in H1 by lia. rewrite shl_exact by lia. assert (48 <=? - s = false) as -> by lia.
      split; intros L2.
      * assert (2 ^ 48 <=? n * 2 ^ (- s) = false) as -> by lia. reflexivity.
      * assert (2 ^ 48 <=? n * 2 ^ (- s) = true) as -> by lia. reflexivity.
Qed.
Print Assumptions C134_shift_partial.

(** 2^24 shifted by 40 is 0 and 2^23 shifted by 40 is negative instead of
    [#NUM!]; a shift by -3000000000 panics where overflow is checked. *)
Theorem C134_shift_refuted :
  f_bitlshift idf nop true (LInt (2 ^ 24)) (LInt 40) = OInt 0 /\
  f_bitlshift idf nop true (LInt (2 ^ 23)) (LInt 40) = OInt (- 2 ^ 63) /\
  f_bitrshift idf nop true (LInt (2 ^ 24)) (LInt (-40)) = OInt 0 /\
  f_bitlshift idf nop true (LInt 1) (LInt (-3000000000)) = OPanic /\
  exists a b n s, f_bitlshift idf nop false a b <> OErr ENum /\
    coerce_num idf nop a = inl (FFin (inject_Z n)) /\ coerce_num idf nop b = inl (FFin (inject_Z s)) /\
    0 <= n < 2 ^ 48 /\ 0 <= s < 48 /\ 2 ^ 48 <= n * 2 ^ s.
Proof.
  repeat (split; [vm_compute; reflexivity|]). exists (LInt (2 ^ 24)), (LInt 40), (2 ^ 24), 40.
  split; [vm_compute; discriminate|]. repeat split; try reflexivity; vm_compute; discriminate.
Qed.
Print Assumptions C134_shift_refuted.
Example C134_example :
  whole48 (idf 13) 13 /\ whole48 (idf 10) 10 /\ f_bitand idf nop (LInt 13) (LInt 10) = OInt 8 /\
  f_bitxor idf nop (LInt 13) (LInt 10) = OInt 7 /\ f_bitlshift idf nop true (LInt 6) (LInt 2) = OInt 24 /\
  f_bitrshift idf nop true (LInt 13) (LInt 2) = OInt 3 /\ (forall n, ~ whole48 (FFin (5 # 2)) n).
Proof.
  split; [exists (inject_Z 13); repeat split; lia|]. split; [exists (inject_Z 10); repeat split; lia|].
  repeat (split; [vm_compute; reflexivity|]).
  intros n [q [[= <-] [H _]]]. cbn in H. lia.
Qed.

(** * C135: Roman numerals *)

(** ROMAN writes the classic numeral: thousands, then the pattern of each
    decimal digit. *)
Definition digit_text (one five ten : string) (d : Z) : text :=
  match Z.to_nat d with
  | 0%nat => [] | 1%nat => tx one | 2%nat => tx one ++ tx one | 3%nat => tx one ++ tx one ++ tx one
  | 4%nat => tx one ++ tx five | 5%nat => tx five | 6%nat => tx five ++ tx one
  | 7%nat => tx five ++ tx one ++ tx one | 8%nat => tx five ++ tx one ++ tx one ++ tx one
  | _ => tx one ++ tx ten
  end.
Theorem C135_roman : forall i2f pn v x, coerce_num i2f pn v = inl x ->
  let n := as_i64 x in
  (0 <= n <= 3999 ->
   f_roman i2f pn v None = OText (repeat 77%N (Z.to_nat (n / 1000)) ++ digit_text "C" "D" "M" (n / 100 mod 10)
                             ++ digit_text "X" "L" "C" (n / 10 mod 10) ++ digit_text "I" "V" "X" (n mod 10))) /\
  (~ 0 <= n <= 3999 -> forall f, f_roman i2f pn v f = OErr EValue).
Proof.
  intros i2f pn v x C. cbv zeta. set (n := as_i64 x).
  assert (DT : forall a b c d, 0 <= d < 10 -> digit_text a b c d = nth (Z.to_nat d) (pats a b c) []).
  { intros a b c d Hd. unfold digit_text, pats.
    assert (d = 0 \/ d = 1 \/ d = 2 \/ d = 3 \/ d = 4 \/ d = 5 \/ d = 6 \/ d = 7 \/ d = 8 \/ d = 9) as K by lia.
    repeat (destruct K as [->|K]; [cbn [Z.to_nat Pos.to_nat Pos.iter_op Nat.add List.map nth List.concat]; rewrite ?app_nil_r; reflexivity|]).
    rewrite K. cbn [Z.to_nat Pos.to_nat Pos.iter_op Nat.add List.map nth List.concat]. rewrite ?app_nil_r. reflexivity. }
  split.
  - intros R. unfold f_roman. rewrite C. fold n. cbv zeta. assert ((0 <=? n) && (n <=? 3999) = true) as -> by lia.
    destruct (n =? 0) eqn:E.
    + assert (n = 0) as -> by lia. reflexivity.
    + cbn [roman_form]. change ((0 <=? 0) && (0 <=? 4)) with true. cbn iota. unfold roman_apply_form. change (0 =? 0) with true. cbn iota.
      destruct (roman_facts n ltac:(lia)) as [_ [_ [_ [_ F]]]]. rewrite F.
      rewrite !DT by (apply Z.mod_pos_bound; lia). reflexivity.
  - intros R f. unfold f_roman. rewrite C. fold n. cbv zeta. assert ((0 <=? n) && (n <=? 3999) = false) as -> by lia. reflexivity.
Qed.
Print Assumptions C135_roman.

(** ARABIC counts every letter, negatively before a greater one. *)
Theorem C135_arabic : forall trim upper s n, trim_ok trim -> upper_ok upper -> Forall plain s -> (length s <= 255)%nat ->
  (f_arabic trim upper (LText s) = OInt n <->
   s = [] /\ n = 0 \/
   exists sgn body vs, body <> [] /\ Forall2 letter (List.map ascii_up body) vs /\ n = sgn * roman_sum vs /\
     (sgn = 1 /\ s = body \/ sgn = -1 /\ s = 45%N :: body)).
Proof.
  intros trim upper s n T U P L.
  assert (Forall (fun c => (c < 128)%N) s) as A by (eapply Forall_impl; [|exact P]; unfold plain; cbn; lia).
  unfold f_arabic. cbv zeta. rewrite (T s P), (U s A), map_length.
  assert (255 <? Z.of_nat (length s) = false) as -> by lia.
  destruct s as [|c r]; cbn [List.map].
  { split; [intros [= <-]; now left|]. intros [[_ ->]|[sgn [body [vs [H1 [_ [_ [[_ H4]|[_ H4]]]]]]]]]; [reflexivity| |discriminate].
    congruence. }
  assert (M : ascii_up c = 45%N <-> c = 45%N).
  { unfold ascii_up. destruct ((97 <=? c) && (c <=? 122))%N eqn:E; lia. }
  assert (NL : forall vs, ~ Forall2 letter (45%N :: List.map ascii_up r) vs).
  { intros vs X. inversion X as [|? v ? ? X1]; subst. apply rdv_letter in X1. discriminate. }
  destruct (ascii_up c =? 45)%N eqn:E.
  - assert (c = 45%N) as -> by (apply M; lia). destruct r as [|c2 r]; cbn [List.map].
    + split; [discriminate|]. intros [[X _]|[sgn [body [vs [H1 [H2 [H3 [[_ H4]|[_ H4]]]]]]]]]; [discriminate| |congruence].
      subst body. cbn in H2. exfalso. exact (NL vs H2).
    + destruct (arabic_go 0 0 (rev (ascii_up c2 :: List.map ascii_up r))) as [k|] eqn:G.
      * apply roman_letters in G as [vs [G1 ->]]. split.
        -- intros [= <-]. right. exists (-1), (c2 :: r), vs. split; [discriminate|]. split; [exact G1|]. split; [first [reflexivity | lia]|]. right. auto.
        -- intros [[X _]|[sgn [body [ws [H1 [H2 [H3 [[H4 H5]|[H4 H5]]]]]]]]]; [discriminate| |].
           ++ subst body. cbn in H2. exfalso. exact (NL ws H2).
           ++ injection H5 as <-. assert (ws = vs) as ->.
              { cbn [List.map] in H2. clear - H2 G1. revert vs G1. induction H2 as [|a v l ws Ha H2 IH]; intros vs G1; inversion G1; subst; auto.
                f_equal; [eapply letter_fun; eassumption|auto]. }
              subst. f_equal; lia.
      * split; [discriminate|]. intros [[X _]|[sgn [body [ws [H1 [H2 [H3 [[H4 H5]|[H4 H5]]]]]]]]]; [discriminate| |].
        -- subst body. cbn in H2. exfalso. exact (NL ws H2).
        -- injection H5 as <-. cbn [List.map] in H2. assert (arabic_go 0 0 (rev (ascii_up c2 :: List.map ascii_up r)) = Some (roman_sum ws)); [|congruence].
           apply roman_letters. eauto.
  - assert (c <> 45%N) as NC by (intros X; apply M in X; lia).
    destruct (arabic_go 0 0 (rev (ascii_up c :: List.map ascii_up r))) as [k|] eqn:G.
    + apply roman_letters in G as [vs [G1 ->]]. split.
      * intros [= <-]. right. exists 1, (c :: r), vs. split; [discriminate|]. split; [exact G1|]. split; [first [reflexivity | lia]|]. left. auto.
      * intros [[X _]|[sgn [body [ws [H1 [H2 [H3 [[H4 H5]|[H4 H5]]]]]]]]]; [discriminate| |congruence].
        subst body. assert (ws = vs) as ->.
        { cbn [List.map] in H2. clear - H2 G1. revert vs G1. induction H2 as [|a v l ws Ha H2 IH]; intros vs G1; inversion G1; subst; auto.
          f_equal; [eapply letter_fun; eassumption|auto]. }
        subst. f_equal; lia.
    + split; [discriminate|]. intros [[X _]|[sgn [body [ws [H1 [H2 [H3 [[H4 H5]|[H4 H5]]]]]]]]]; [discriminate| |congruence].
      subst body. cbn [List.map] in H2. assert (arabic_go 0 0 (rev (ascii_up c :: List.map ascii_up r)) = Some (roman_sum ws)); [|congruence].
      apply roman_letters. eauto.
Qed.
Print Assumptions C135_arabic.

(** A classic numeral is read back, and so are the simplified ones of numbers
    without the digits concerned. *)
Theorem C135_round_trip_partial : forall i2f pn trim upper v x, trim_ok trim -> upper_ok upper ->
  coerce_num i2f pn v = inl x -> 0 <= as_i64 x <= 3999 ->
  forall f form, roman_form f = inl form -> 0 <= form <= 4 ->
  (form = 0 \/ quiet (as_i64 x) = true) ->
  exists t, f_roman i2f pn v f = OText t /\ f_arabic trim upper (LText t) = OInt (as_i64 x).
Proof.
  intros i2f pn trim upper v x T U C R f form F FR Q. set (n := as_i64 x) in *.
  unfold f_roman. rewrite C. fold n. cbv zeta. assert ((0 <=? n) && (n <=? 3999) = true) as -> by lia.
  destruct (n =? 0) eqn:E.
  - exists []. split; [reflexivity|]. assert (n = 0) as -> by lia.
    apply (C135_arabic trim upper [] 0 T U); [constructor|cbn; lia|]. left. auto.
  - rewrite F. assert ((0 <=? form) && (form <=? 4) = true) as -> by lia. exists (roman_classic n).
    destruct (roman_facts n ltac:(lia)) as [F1 [F2 [F3 [F4 _]]]].
    split.
    + f_equal. destruct Q as [->|Q]; [reflexivity|].
      destruct (Z.eq_dec form 0) as [->|NF]; [reflexivity|]. apply (forms_facts n ltac:(lia)); [exact Q|lia].
    + assert (LU : forall c, (exists w, letter c w) -> ascii_up c = c /\ plain c).
      { intros c [w Hw]. cbn in Hw. unfold plain.
        repeat (destruct Hw as [[= <- <-]|Hw]; [split; [reflexivity|lia]|]). contradiction. }
      apply C135_arabic; auto; [|lia|].
      { eapply Forall_impl; [|exact F2]. intros c Hc. apply LU, Hc. }
      right. apply roman_letters in F1 as [vs [G1 G2]]. exists 1, (roman_classic n), vs.
      split; [exact F4|]. split; [|split; [lia|left; auto]].
      assert (List.map ascii_up (roman_classic n) = roman_classic n) as ->; [|exact G1].
      clear - F2 LU. induction F2 as [|c l Hc F2 IH]; [reflexivity|]. cbn. rewrite IH. f_equal. apply LU, Hc.
Qed.
Print Assumptions C135_round_trip_partial.

(** The claim for every form is false: ROMAN(9,1) is IV, ROMAN(99,1) is VLIV
    (49), ROMAN(49,2) is IX.  The letters of form 1 count what [form1_value]
    says, for every number. *)
Theorem C135_forms_refuted :
  f_roman idf nop (LInt 9) (Some (LInt 1)) = OText (tx "IV"%string) /\
  f_roman idf nop (LInt 99) (Some (LInt 1)) = OText (tx "VLIV"%string) /\
  f_roman idf nop (LInt 49) (Some (LInt 2)) = OText (tx "IX"%string) /\
  f_roman idf nop (LInt 900) (Some (LInt 4)) = OText (tx "VM"%string) /\
  (forall n, 1 <= n <= 3999 ->
     exists t vs, f_roman idf nop (LInt n) (Some (LInt 1)) = OText t /\ Forall2 letter t vs /\ roman_sum vs = form1_value n).
Proof.
  repeat (split; [vm_compute; reflexivity|]). intros n H.
  destruct (forms_facts n H) as [F _]. apply roman_letters in F as [vs [F1 F2]].
  exists (form1 (roman_classic n)), vs. split; [|split; [exact F1|auto]].
  unfold f_roman. cbn [coerce_num]. unfold idf. rewrite as_i64_int by lia. cbv zeta.
  assert ((0 <=? n) && (n <=? 3999) = true) as -> by lia. assert (n =? 0 = false) as -> by lia. reflexivity.
Qed.
Print Assumptions C135_forms_refuted.

(** ARABIC accepts letters in any order although its documentation promises
    [#VALUE!] for invalid numerals. *)
Theorem C135_syntax_refuted :
  f_arabic (fun s => s) up (LText (tx "IIIIII"%string)) = OInt 6 /\
  f_arabic (fun s => s) up (LText (tx "VX"%string)) = OInt 5 /\
  (forall i2f pn v f, f_roman i2f pn v f <> OText (tx "IIIIII"%string)).
Proof.
  split; [vm_compute; reflexivity|]. split; [vm_compute; reflexivity|].
  intros i2f pn v f. unfold f_roman. destruct (coerce_num i2f pn v) as [x|e]; [|discriminate].
  cbv zeta. destruct ((0 <=? as_i64 x) && (as_i64 x <=? 3999)) eqn:R; [|discriminate].
  destruct (as_i64 x =? 0) eqn:E; [vm_compute; discriminate|].
  destruct (roman_form f) as [form|e]; [|discriminate]. destruct ((0 <=? form) && (form <=? 4)) eqn:FR; [|discriminate].
  assert (forallb (fun k => forallb (fun g => negb (text_eqb (roman_apply_form (roman_classic (Z.of_nat k)) g) (tx "IIIIII"%string))) [0; 1; 2; 3; 4]) (seq 1 3999) = true) as T
    by (vm_compute; reflexivity).
  rewrite forallb_forall in T. specialize (T (Z.to_nat (as_i64 x))). rewrite Z2Nat.id in T by lia.
  assert (In (Z.to_nat (as_i64 x)) (seq 1 3999)) as Hin by (apply in_seq; lia). specialize (T Hin).
  rewrite forallb_forall in T. specialize (T form).
  assert (In form [0; 1; 2; 3; 4]) as Hf.
  { assert (form = 0 \/ form = 1 \/ form = 2 \/ form = 3 \/ form = 4) as K by lia. cbn. intuition congruence. }
  specialize (T Hf). intros X. injection X as X. rewrite X in T. vm_compute in T. discriminate.
Qed.
Print Assumptions C135_syntax_refuted.
Example C135_example :
  f_roman idf nop (LInt 1999) None = OText (tx "MCMXCIX"%string) /\
  f_arabic (fun s => s) up (LText (tx "-mcmxcix"%string)) = OInt (-1999) /\
  quiet 3888 = true /\ f_roman idf nop (LInt 3888) (Some (LInt 4)) = OText (tx "MMMDCCCLXXXVIII"%string).
Proof. repeat split; vm_compute; reflexivity. Qed.

(** * C136: greatest common divisor and least common multiple *)
Definition args_are (i2f : Z -> fnum) (pn : text -> option fnum) (vs : list lit) (ns : list Z) : Prop :=
  Forall2 (fun v n => exists q, coerce_num i2f pn v = inl (FFin q) /\ n = Z.quot (Qnum q) (Zpos (Qden q)) /\ 0 <= n <= 9999999990) vs ns.
Theorem C136_gcd : forall i2f pn vs ns, vs <> [] -> args_are i2f pn vs ns ->
  exists g, f_gcd i2f pn vs = OInt g /\ is_gcd g ns.
Proof.
  intros i2f pn vs ns N H.
  assert (Forall2 (fun v n => gcd_arg i2f pn v = inl n) vs ns) as G.
  { clear N. induction H as [|v n vs ns [q [H1 [H2 H3]]] H IH]; constructor; auto.
    unfold gcd_arg. rewrite H1. fold (qtrunc q) in H2. rewrite <- H2.
    assert ((0 <=? n) && (n <=? 9999999990) = true) as -> by lia. reflexivity. }
  inversion G as [|v n vs' ns' Hv G']; subst; [contradiction|].
  exists (gcdl n ns'). split.
  - unfold f_gcd. cbn [gcd_loop]. rewrite Hv. apply gcd_loop_ok; [exact G'|]. apply gcd_arg_range in Hv. lia.
  - apply gcdl_ok. apply gcd_arg_range in Hv. lia.
Qed.
Print Assumptions C136_gcd.
Theorem C136_lcm_partial : forall i2f pn chk vs ns, vs <> [] -> args_are i2f pn vs ns ->
  (exists m, 0 < m < 2 ^ 64 /\ forall n, In n ns -> n <> 0 -> (n | m)) ->
  exists m, f_lcm i2f pn chk vs = OInt m /\ is_lcm m ns.
Proof.
  intros i2f pn chk vs ns N H M.
  assert (Forall2 (fun v n => gcd_arg i2f pn v = inl n) vs ns) as G.
  { clear N M. induction H as [|v n vs ns [q [H1 [H2 H3]]] H IH]; constructor; auto.
    unfold gcd_arg. rewrite H1. fold (qtrunc q) in H2. rewrite <- H2.
    assert ((0 <=? n) && (n <=? 9999999990) = true) as -> by lia. reflexivity. }
  inversion G as [|v n vs' ns' Hv G']; subst; [contradiction|].
  exists (lcml n ns'). split.
  - unfold f_lcm. cbn [lcm_loop]. rewrite Hv. apply lcm_loop_ok; [exact G'| |exact M]. apply gcd_arg_range in Hv. lia.
  - apply lcml_ok. apply gcd_arg_range in Hv. lia.
Qed.
Print Assumptions C136_lcm_partial.
(** Without the bound: three numbers just below 10^10 make the multiplication
    overflow: a panic, or without overflow checks a number that is no multiple. *)
Theorem C136_lcm_refuted :
  let vs := [LInt 9999999967; LInt 9999999943; LInt 9999999929] in
  args_are idf nop vs [9999999967; 9999999943; 9999999929] /\
  f_lcm idf nop true vs = OPanic /\
  exists m, f_lcm idf nop false vs = OInt m /\ ~ (9999999929 | m).
Proof.
  cbv zeta. split.
  { repeat constructor; eexists; (split; [reflexivity|]); split; try reflexivity; lia. }
  assert (gcd 9999999967 9999999943 = 1) as G1.
  { rewrite gcd_ok by lia. vm_compute. reflexivity. }
  assert (gcd (9999999967 * 9999999943 mod 2 ^ 64) 9999999929 = Z.gcd (9999999967 * 9999999943 mod 2 ^ 64) 9999999929) as G2
    by (apply gcd_ok; [vm_compute; discriminate|lia]).
  assert (forall v, gcd_arg idf nop (LInt v) = if (0 <=? v) && (v <=? 9999999990) then inl v else inr ENum) as GA.
  { intros v. unfold gcd_arg. cbn [coerce_num]. unfold idf. rewrite (qtrunc_whole (inject_Z v) v) by (cbn; lia). reflexivity. }
  unfold f_lcm. cbn [lcm_loop]. rewrite !GA.
  change ((0 <=? 9999999967) && (9999999967 <=? 9999999990)) with true.
  change ((0 <=? 9999999943) && (9999999943 <=? 9999999990)) with true.
  change ((0 <=? 9999999929) && (9999999929 <=? 9999999990)) with true. cbn iota.
  assert (lcm true 9999999967 9999999943 = None) as L1.
  { unfold lcm. rewrite G1. vm_compute. reflexivity. }
  assert (lcm false 9999999967 9999999943 = Some (9999999967 * 9999999943 mod 2 ^ 64)) as L2.
  { unfold lcm. rewrite G1. vm_compute. reflexivity. }
  split; [now rewrite L1|]. rewrite L2.
  assert (exists m, lcm false (9999999967 * 9999999943 mod 2 ^ 64) 9999999929 = Some m /\ m mod 9999999929 <> 0) as [m [L3 L4]].
  { unfold lcm. rewrite G2. eexists. split; [vm_compute; reflexivity|vm_compute; discriminate]. }
  rewrite L3. exists m. split; [reflexivity|]. intros D. apply Z.mod_divide in D; [contradiction|lia].
Qed.
Print Assumptions C136_lcm_refuted.
Example C136_example :
  args_are idf nop [LInt 12; LNum (FFin (189 # 10))] [12; 18] /\ f_gcd idf nop [LInt 12; LNum (FFin (189 # 10))] = OInt 6 /\
  f_lcm idf nop true [LInt 12; LNum (FFin (189 # 10))] = OInt 36.
Proof.
  split; [|split; vm_compute; reflexivity].
  repeat constructor; eexists; (split; [reflexivity|]); split; try reflexivity; lia.
Qed.

(** * C137: BASE and DECIMAL *)
Theorem C137_decimal : forall i2f pn trim show s r y n, trim_ok trim -> Forall plain s -> coerce_num i2f pn r = inl y ->
  2 <= as_u32 y <= 36 ->
  (f_decimal i2f pn trim show (LText s) r = OInt n <-> signed_text (as_u32 y) s n /\ - 2 ^ 63 <= n < 2 ^ 63) /\
  (f_decimal i2f pn trim show (LText s) r = OErr ENum <-> ~ exists m, signed_text (as_u32 y) s m /\ - 2 ^ 63 <= m < 2 ^ 63).
Proof.
  intros i2f pn trim show s r y n T P C R. unfold f_decimal. cbv zeta. rewrite C.
  assert (negb ((2 <=? as_u32 y) && (as_u32 y <=? 36)) = false) as -> by lia. rewrite (T s P).
  assert (forall k, from_str_radix (as_u32 y) s = Some k <-> signed_text (as_u32 y) s k /\ - 2 ^ 63 <= k < 2 ^ 63) as F
    by (intros k; apply from_str_ok; lia).
  destruct (from_str_radix (as_u32 y) s) as [k|] eqn:E.
  - split.
    + rewrite <- F. split; intros X; inversion X; reflexivity.
    + split; [discriminate|]. intros X. exfalso. apply X. exists k. now apply F.
  - split.
    + rewrite <- F. split; discriminate.
    + split; [|reflexivity]. intros _ [m X]. apply F in X. discriminate.
Qed.
Print Assumptions C137_decimal.

(** BASE writes the digits without leading zeros, then fills up to the length. *)
Theorem C137_base : forall i2f pn v x r y l m, coerce_num i2f pn v = inl x -> coerce_num i2f pn r = inl y ->
  places_arg i2f pn l = inl m -> 2 <= as_i64 y <= 36 -> 0 <= as_i64 x ->
  exists t ds, f_base i2f pn v r l = OText t /\ capital t /\ reads (as_i64 y) t ds /\ pv (as_i64 y) ds = as_i64 x /\
    match m with Some w => w | None => 0 end <= Z.of_nat (length t) /\
    (forall t' es, reads (as_i64 y) t' es -> t' <> [] -> pv (as_i64 y) es = as_i64 x ->
       match m with Some w => w | None => 0 end <= Z.of_nat (length t') -> (length t <= length t')%nat).
Proof.
  intros i2f pn v x r y l m C D P R X.
  destruct (base_ok i2f pn v x r y C D R X l m P) as [ds [k [B1 [B2 [B3 [B4 [B5 [B6 B7]]]]]]]].
  set (b := as_i64 y) in *. set (z := as_i64 x) in *. set (w := match m with Some w => w | None => 0 end) in *.
  assert (Forall (fun d => 0 <= d < b) (repeat 0 k ++ ds)) as F.
  { apply Forall_app. split; [|exact B2]. apply Forall_forall. intros e He. apply repeat_spec in He. lia. }
  exists (List.map char_of (repeat 0 k ++ ds)), (repeat 0 k ++ ds). split; [exact B1|].
  split; [apply (map_char_capital b); [lia|exact F]|]. split; [apply map_char_reads; [lia|exact F]|].
  split; [now rewrite pv_zeros|]. rewrite map_length, app_length, repeat_length. split; [lia|].
  intros t' es H1 H2 H3 H4. pose proof (reads_len _ _ _ H1) as HL.
  assert (length ds <= length t')%nat; [|lia].
  destruct (Z.eq_dec z 0) as [Z0|Z0].
  - rewrite (B5 Z0). destruct t'; [contradiction|cbn; lia].
  - destruct (B6 ltac:(lia)) as [d [q [E Hd]]]. rewrite E in *.
    assert (Z.of_nat (length (d :: q)) <= Z.of_nat (length t')); [|lia].
    apply (shortest b d q); auto; try lia. rewrite B3, <- H3, HL. apply pv_bound; [lia|]. exact (reads_digits _ _ _ H1).
Qed.
Print Assumptions C137_base.

(** DECIMAL reads what BASE writes. *)
Theorem C137_round_trip : forall i2f pn trim show v x r y l m, trim_ok trim -> coerce_num i2f pn v = inl x ->
  coerce_num i2f pn r = inl y -> places_arg i2f pn l = inl m -> 2 <= as_i64 y <= 36 -> 0 <= as_i64 x ->
  exists t, f_base i2f pn v r l = OText t /\ f_decimal i2f pn trim show (LText t) r = OInt (as_i64 x).
Proof.
  intros i2f pn trim show v x r y l m T C D P R X.
  destruct (C137_base i2f pn v x r y l m C D P R X) as [t [ds [B1 [B2 [B3 [B4 _]]]]]].
  exists t. split; [exact B1|]. assert (as_u32 y = as_i64 y) as EQ by (apply cast_u32; [reflexivity|lia]).
  assert (Forall plain t) as PL.
  { eapply Forall_impl; [|eapply reads_ascii with (b := as_i64 y); [lia|exact B3]]. unfold plain. cbn. lia. }
  apply (C137_decimal i2f pn trim show t r y (as_i64 x) T PL D ltac:(lia)). rewrite EQ.
  split; [|pose proof (as_i64_range x); lia].
  exists 1, t, ds. split; [exact B3|]. split.
  - intros ->.
    destruct (base_ok i2f pn v x r y C D R X l m P) as [es [k [A1 [_ [_ [A4 _]]]]]]. rewrite A1 in B1. injection B1 as B1.
    apply map_eq_nil, app_eq_nil in B1. tauto.
  - split; [lia|]. left. auto.
Qed.
Print Assumptions C137_round_trip.
(** Numbers from 2^63 on are written as 2^63-1: the cast saturates. *)
Theorem C137_large_refuted :
  f_base idf nop (LNum (idf (10 ^ 19))) (LInt 10) None = OText (tx "9223372036854775807"%string) /\
  forall z, 2 ^ 63 <= z -> as_i64 (idf z) = 2 ^ 63 - 1.
Proof.
  split; [vm_compute; reflexivity|]. intros z H. unfold as_i64, as_int, idf.
  rewrite (qtrunc_whole (inject_Z z) z) by (cbn; lia). lia.
Qed.
Print Assumptions C137_large_refuted.
Example C137_example :
  f_base idf nop (LInt 31) (LInt 16) (Some (LInt 4)) = OText (tx "001F"%string) /\
  f_decimal idf nop (fun s => s) sh (LText (tx "-zz"%string)) (LInt 36) = OInt (-1295).
Proof. split; vm_compute; reflexivity. Qed.
