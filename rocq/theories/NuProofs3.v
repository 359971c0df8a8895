(** Bit functions, Roman numerals, BASE and DECIMAL, GCD and LCM. *)
From Coq Require Import String ZifyN ZifyNat ZifyBool Znumtheory QArith.
From Verif Require Import Base Maps NuModel NuSpec NuProofs1 NuProofs2.
Close Scope Q_scope.
Local Open Scope Z_scope.

(** Casts. *)
Lemma cast_u32 : forall y r, as_i64 y = r -> 0 <= r < 2 ^ 32 -> as_u32 y = r.
Proof.
  intros [|[|]|q] r H Hr; unfold as_i64, as_u32, as_int in *; try (cbn in H |- *; lia).
Qed.
Lemma cast_back : forall y r, as_u32 y = r -> 0 < r < 2 ^ 32 - 1 -> as_i64 y = r.
Proof. intros [|[|]|q] r H Hr; unfold as_i64, as_u32, as_int in *; try (cbn in H |- *; lia). Qed.
Lemma as_i64_range : forall x, - 2 ^ 63 <= as_i64 x < 2 ^ 63.
Proof. intros [|[|]|q]; unfold as_i64, as_int; try (cbn; lia). Qed.
Lemma as_i32_range : forall x, - 2 ^ 31 <= as_i32 x < 2 ^ 31.
Proof. intros [|[|]|q]; unfold as_i32, as_int; try (cbn; lia). Qed.
Lemma as_usize_nonneg : forall x, 0 <= as_usize x.
Proof. intros [|[|]|q]; unfold as_usize, as_int; try (cbn; lia). Qed.
Lemma qtrunc_whole : forall q n, Qnum q = n * Zpos (Qden q) -> qtrunc q = n.
Proof. intros q n H. unfold qtrunc. rewrite H. apply Z.quot_mul. lia. Qed.
Lemma as_i64_int : forall n, - 2 ^ 63 <= n < 2 ^ 63 -> as_i64 (FFin (inject_Z n)) = n.
Proof. intros n H. unfold as_i64, as_int. rewrite (qtrunc_whole _ n) by (cbn; lia). lia. Qed.
Lemma as_i32_int : forall n, - 2 ^ 31 <= n < 2 ^ 31 -> as_i32 (FFin (inject_Z n)) = n.
Proof. intros n H. unfold as_i32, as_int. rewrite (qtrunc_whole _ n) by (cbn; lia). lia. Qed.
Lemma as_usize_int : forall n, 0 <= n < 2 ^ 64 -> as_usize (FFin (inject_Z n)) = n.
Proof. intros n H. unfold as_usize, as_int. rewrite (qtrunc_whole _ n) by (cbn; lia). lia. Qed.

(** Bit arguments. *)
Lemma whole48_fun : forall x n m, whole48 x n -> whole48 x m -> n = m.
Proof. intros x n m [q [-> [H1 _]]] [q' [E [H2 _]]]. injection E as <-. nia. Qed.
Lemma to_bitwise_ok : forall i2f pn v n,
  to_bitwise_int i2f pn v = inl n <-> exists x, coerce_num i2f pn v = inl x /\ whole48 x n.
Proof.
  intros i2f pn v n. unfold to_bitwise_int. destruct (coerce_num i2f pn v) as [x|e] eqn:C.
  2:{ split; [discriminate|]. intros [x [X _]]. discriminate. }
  destruct x as [|s|q].
  - split; [discriminate|]. intros [x [[= <-] [q [X _]]]]. discriminate.
  - split; [discriminate|]. intros [x [[= <-] [q [X _]]]]. discriminate.
  - set (D := Zpos (Qden q)) in *. assert (0 < D) as HD by (unfold D; lia).
    destruct ((Qnum q <? 0) || negb (Z.rem (Qnum q) D =? 0) || (281474976710656 * D <=? Qnum q)) eqn:G.
    + split; [discriminate|]. intros [x [[= <-] [q' [[= <-] [E R]]]]]. fold D in E. exfalso.
      rewrite E in G. rewrite Z.rem_mul in G by lia. change (2 ^ 48) with 281474976710656 in R. cbn in G. nia.
    + apply orb_false_elim in G as [G G3]. apply orb_false_elim in G as [G1 G2]. apply negb_false_iff in G2.
      assert (Qnum q = Z.quot (Qnum q) D * D) as E.
      { pose proof (Z.quot_rem (Qnum q) D ltac:(lia)) as Q. lia. }
      assert (0 <= Z.quot (Qnum q) D < 2 ^ 48) as R.
      { split; [apply Z.quot_pos; lia|]. change (2 ^ 48) with 281474976710656. nia. }
      assert (as_i64 (FFin q) = Z.quot (Qnum q) D) as ->.
      { unfold as_i64, as_int, qtrunc. fold D. lia. }
      split.
      * intros [= <-]. exists (FFin q). split; [reflexivity|]. exists q. repeat split; auto; apply R.
      * intros [x [[= <-] [q' [[= <-] [E' R']]]]]. fold D in E'. f_equal. nia.
Qed.
Lemma to_bitwise_err : forall i2f pn v e, to_bitwise_int i2f pn v = inr e ->
  coerce_num i2f pn v = inr e \/ e = ENum.
Proof.
  intros i2f pn v e. unfold to_bitwise_int. destruct (coerce_num i2f pn v) as [[|s|q]|e'].
  - intros [= <-]. now right.
  - intros [= <-]. now right.
  - match goal with |- (if ?x then _ else _) = _ -> _ => destruct x end; intros [= <-]. now right.
  - intros [= <-]. now left.
Qed.

Lemma land_range : forall a b k, 0 <= k -> 0 <= a < 2 ^ k -> 0 <= b < 2 ^ k -> 0 <= Z.land a b < 2 ^ k.
Proof.
  intros a b k Hk Ha Hb. split; [apply Z.land_nonneg; lia|].
  destruct (Z.eq_dec (Z.land a b) 0) as [->|E]; [apply Z.pow_pos_nonneg; lia|].
  assert (0 <= Z.land a b) by (apply Z.land_nonneg; lia).
  apply Z.log2_lt_pow2; [lia|]. pose proof (Z.log2_land a b ltac:(lia) ltac:(lia)).
  destruct (Z.eq_dec a 0) as [->|]; [rewrite Z.land_0_l in E; lia|].
  assert (Z.log2 a < k) by (apply Z.log2_lt_pow2; lia). lia.
Qed.
Lemma lor_range : forall a b k, 0 <= k -> 0 <= a < 2 ^ k -> 0 <= b < 2 ^ k -> 0 <= Z.lor a b < 2 ^ k.
Proof.
  intros a b k Hk Ha Hb. assert (0 <= Z.lor a b) by (apply Z.lor_nonneg; lia). split; [assumption|].
  destruct (Z.eq_dec (Z.lor a b) 0) as [->|E]; [apply Z.pow_pos_nonneg; lia|].
  apply Z.log2_lt_pow2; [lia|]. rewrite Z.log2_lor by lia.
  assert (forall z, 0 <= z < 2 ^ k -> Z.log2 z < k \/ (z = 0)) as L.
  { intros z Hz. destruct (Z.eq_dec z 0); [now right|left]. apply Z.log2_lt_pow2; lia. }
  pose proof (Z.log2_nonneg a) as N1. pose proof (Z.log2_nonneg b) as N2.
  destruct (L a Ha) as [La|La], (L b Hb) as [Lb|Lb]; try lia;
    try (rewrite La in *; change (Z.log2 0) with 0 in *; try lia);
    try (rewrite Lb in *; change (Z.log2 0) with 0 in *; try lia).
  exfalso. apply E. reflexivity.
Qed.
Lemma lxor_range : forall a b k, 0 <= k -> 0 <= a < 2 ^ k -> 0 <= b < 2 ^ k -> 0 <= Z.lxor a b < 2 ^ k.
Proof.
  intros a b k Hk Ha Hb. assert (0 <= Z.lxor a b) by (apply Z.lxor_nonneg; lia). split; [assumption|].
  destruct (Z.eq_dec (Z.lxor a b) 0) as [->|E]; [apply Z.pow_pos_nonneg; lia|].
  apply Z.log2_lt_pow2; [lia|]. pose proof (Z.log2_lxor a b ltac:(lia) ltac:(lia)).
  assert (forall z, 0 <= z < 2 ^ k -> Z.log2 z < k \/ (z = 0)) as L.
  { intros z Hz. destruct (Z.eq_dec z 0); [now right|left]. apply Z.log2_lt_pow2; lia. }
  pose proof (Z.log2_nonneg a) as N1. pose proof (Z.log2_nonneg b) as N2.
  destruct (L a Ha) as [La|La], (L b Hb) as [Lb|Lb]; try lia;
    try (rewrite La in *; change (Z.log2 0) with 0 in *; try lia);
    try (rewrite Lb in *; change (Z.log2 0) with 0 in *; try lia).
  exfalso. apply E. reflexivity.
Qed.

(** Shifts. *)
Lemma shl_exact : forall n s, 0 <= n -> 0 <= s -> n * 2 ^ s < 2 ^ 63 -> i64_shl n s = n * 2 ^ s.
Proof.
  intros n s Hn Hs H. unfold i64_shl, wrap_i64.
  assert (0 <= n * 2 ^ s) by (assert (0 < 2 ^ s) by (apply Z.pow_pos_nonneg; lia); nia).
  rewrite Z.mod_small by (change (2 ^ 64) with (2 ^ 63 + 2 ^ 63); lia). lia.
Qed.
Lemma shr_big : forall n s, 0 <= n < 2 ^ 48 -> 48 <= s -> n / 2 ^ s = 0.
Proof.
  intros n s Hn Hs. apply Z.div_small. assert (2 ^ 48 <= 2 ^ s) by (apply Z.pow_le_mono_r; lia). lia.
Qed.

(** Roman numerals. *)
Definition pats (a b c : string) : list text :=
  List.map (fun l => List.concat l)
    [ []; [tx a]; [tx a; tx a]; [tx a; tx a; tx a]; [tx a; tx b]; [tx b]; [tx b; tx a]
    ; [tx b; tx a; tx a]; [tx b; tx a; tx a; tx a]; [tx a; tx c] ].

Definition roman_check (n : Z) : bool :=
  match arabic_go 0 0 (rev (roman_classic n)) with Some m => m =? n | None => false end
  && forallb (fun c => match roman_digit_value c with Some _ => true | None => false end) (roman_classic n)
  && (Z.of_nat (length (roman_classic n)) <=? 15)
  && negb (match roman_classic n with [] => true | _ => false end)
  && text_eqb (roman_classic n)
       (repeat 77%N (Z.to_nat (n / 1000))
        ++ nth (Z.to_nat (n / 100 mod 10)) (pats "C"%string "D"%string "M"%string) []
        ++ nth (Z.to_nat (n / 10 mod 10)) (pats "X"%string "L"%string "C"%string) []
        ++ nth (Z.to_nat (n mod 10)) (pats "I"%string "V"%string "X"%string) []).
Lemma roman_all : forallb (fun k => roman_check (Z.of_nat k)) (seq 1 3999) = true.
Proof. vm_compute. reflexivity. Qed.
Lemma roman_checked : forall n, 1 <= n <= 3999 -> roman_check n = true.
Proof.
  intros n H. pose proof roman_all as T. rewrite forallb_forall in T. specialize (T (Z.to_nat n)).
  rewrite Z2Nat.id in T by lia. apply T. apply in_seq. lia.
Qed.

Lemma rdv_letter : forall c v, roman_digit_value c = Some v <-> letter c v.
Proof.
  intros c v. unfold letter. cbn. split.
  - unfold roman_digit_value. intros H.
    destruct c as [|p]; [discriminate|].
    do 7 (destruct p as [p|p|]; try discriminate); injection H as <-; tauto.
  - intros H. repeat (destruct H as [[= <- <-]|H]; [reflexivity|]). contradiction.
Qed.
Lemma letter_fun : forall c v w, letter c v -> letter c w -> v = w.
Proof. intros c v w H1 H2. apply rdv_letter in H1. apply rdv_letter in H2. congruence. Qed.
Lemma letter_pos : forall c v, letter c v -> 0 < v.
Proof. intros c v H. cbn in H. repeat (destruct H as [[= <- <-]|H]; [lia|]). contradiction. Qed.

Definition maxl (vs : list Z) : Z := fold_right Z.max 0 vs.
Lemma maxl_exists : forall v vs, 0 <= v -> existsb (fun w => v <? w) vs = true <-> v < maxl vs.
Proof.
  intros v vs P. unfold maxl. induction vs as [|w vs IH]; cbn [existsb fold_right].
  - split; [discriminate|lia].
  - rewrite orb_true_iff, IH. lia.
Qed.
Lemma maxl_existsb : forall v vs, 0 <= v -> existsb (fun w => v <? w) vs = (v <? maxl vs).
Proof.
  intros v vs Hv. destruct (existsb (fun w => v <? w) vs) eqn:E.
  - apply maxl_exists in E; lia.
  - destruct (v <? maxl vs) eqn:F; [|reflexivity].
    assert (existsb (fun w => v <? w) vs = true); [|congruence]. apply maxl_exists; lia.
Qed.

Lemma arabic_go_ok : forall pre suf n,
  arabic_go (roman_sum suf) (maxl suf) (rev pre) = Some n <->
  exists vs, Forall2 letter pre vs /\ n = roman_sum (vs ++ suf).
Proof.
  induction pre as [|c pre IH] using rev_ind; intros suf n.
  - cbn. split.
    + intros [= <-]. exists []. split; [constructor|reflexivity].
    + intros [vs [H ->]]. inversion H. reflexivity.
  - rewrite rev_app_distr. cbn [rev app arabic_go].
    destruct (roman_digit_value c) as [v|] eqn:D.
    + assert (letter c v) as Hv by now apply rdv_letter. pose proof (letter_pos _ _ Hv) as Hp.
      assert ((if v <? maxl suf then arabic_go (roman_sum suf - v) (maxl suf) (rev pre)
               else arabic_go (roman_sum suf + v) v (rev pre))
              = arabic_go (roman_sum (v :: suf)) (maxl (v :: suf)) (rev pre)) as ->.
      { change (maxl (v :: suf)) with (Z.max v (maxl suf)). cbn [roman_sum].
        rewrite maxl_existsb by lia. destruct (v <? maxl suf) eqn:E; f_equal; lia. }
      rewrite IH. split.
      * intros [vs [H ->]]. exists (vs ++ [v]). split; [apply Forall2_app; auto|]. now rewrite <- app_assoc.
      * intros [vs [H ->]]. apply Forall2_app_inv_l in H as [v1 [v2 [H1 [H2 ->]]]].
        inversion H2 as [|? w ? r Hw Hr]; subst. inversion Hr; subst. rewrite (letter_fun c w v Hw Hv) in *.
        exists v1. split; [exact H1|]. now rewrite <- app_assoc.
    + split; [discriminate|]. intros [vs [H _]]. apply Forall2_app_inv_l in H as [v1 [v2 [H1 [H2 ->]]]].
      inversion H2 as [|? w ? r Hw Hr]; subst. apply rdv_letter in Hw. congruence.
Qed.

(** Greatest common divisors. *)
Lemma gcd_go_ok : forall f a b, 0 <= a -> 0 <= b -> b < Z.of_nat f -> gcd_go f a b = Z.gcd a b.
Proof.
  induction f as [|f IH]; intros a b Ha Hb Hf; [lia|]. cbn [gcd_go].
  destruct (b =? 0) eqn:E.
  - assert (b = 0) as -> by lia. rewrite Z.gcd_0_r. lia.
  - pose proof (Z.mod_pos_bound a b ltac:(lia)). rewrite IH by lia. rewrite Z.gcd_comm, Z.gcd_mod by lia. apply Z.gcd_comm.
Qed.
Lemma gcd_ok : forall a b, 0 <= a -> 0 <= b -> gcd a b = Z.gcd a b.
Proof. intros a b Ha Hb. apply gcd_go_ok; lia. Qed.

Definition gcdl (a : Z) (ns : list Z) : Z := fold_left Z.gcd ns a.
Lemma gcdl_ok : forall ns a, 0 <= a -> is_gcd (gcdl a ns) (a :: ns).
Proof.
  unfold gcdl. induction ns as [|n ns IH]; intros a Ha; cbn [fold_left].
  - split; [exact Ha|]. split; [intros m [->|[]]; apply Z.divide_refl|]. intros d H. apply H. now left.
  - destruct (IH (Z.gcd a n) (Z.gcd_nonneg a n)) as [G1 [G2 G3]]. split; [exact G1|]. split.
    + intros m [->|[->|H]].
      * eapply Z.divide_trans; [apply G2; now left|]. apply Z.gcd_divide_l.
      * eapply Z.divide_trans; [apply G2; now left|]. apply Z.gcd_divide_r.
      * apply G2. now right.
    + intros d H. apply G3. intros m [<-|Hm]; [|apply H; right; now right].
      apply Z.gcd_greatest; apply H; [now left|right; now left].
Qed.
Lemma is_gcd_fun : forall g h ns, is_gcd g ns -> is_gcd h ns -> g = h.
Proof.
  intros g h ns [G1 [G2 G3]] [H1 [H2 H3]]. apply Z.divide_antisym_nonneg; auto.
Qed.

Definition lcml (a : Z) (ns : list Z) : Z := fold_left Z.lcm ns a.
Lemma lcml_ok : forall ns a, 0 <= a -> is_lcm (lcml a ns) (a :: ns).
Proof.
  unfold lcml. induction ns as [|n ns IH]; intros a Ha; cbn [fold_left].
  - split; [exact Ha|]. split; [intros m [->|[]]; apply Z.divide_refl|]. intros d H. apply H. now left.
  - destruct (IH (Z.lcm a n) (Z.lcm_nonneg a n)) as [G1 [G2 G3]]. split; [exact G1|]. split.
    + intros m [->|[->|H]].
      * eapply Z.divide_trans; [apply Z.divide_lcm_l|apply G2; now left].
      * eapply Z.divide_trans; [apply Z.divide_lcm_r|apply G2; now left].
      * apply G2. now right.
    + intros d H. apply G3. intros m [<-|Hm]; [|apply H; right; now right].
      apply Z.lcm_least; apply H; [now left|right; now left].
Qed.
Lemma is_lcm_fun : forall g h ns, is_lcm g ns -> is_lcm h ns -> g = h.
Proof. intros g h ns [G1 [G2 G3]] [H1 [H2 H3]]. apply Z.divide_antisym_nonneg; auto. Qed.

Lemma lcm_le : forall a n m, 0 < m -> (Z.lcm a n | m) -> Z.lcm a n <= m.
Proof. intros a n m Hm H. apply Z.divide_pos_le; auto. Qed.
Lemma lcml_zero : forall ns, lcml 0 ns = 0.
Proof. unfold lcml. induction ns as [|n ns IH]; cbn; auto. Qed.

Section Loops.
Variable i2f : Z -> fnum.
Variable pn : text -> option fnum.
Variable chk : bool.
Lemma gcd_loop_ok : forall vs ns a, Forall2 (fun v n => gcd_arg i2f pn v = inl n) vs ns -> 0 <= a ->
  gcd_loop i2f pn (Some a) vs = OInt (gcdl a ns).
Proof.
  intros vs ns a H. revert a. induction H as [|v n vs ns Hv H IH]; intros a Ha; cbn [gcd_loop]; [reflexivity|].
  rewrite Hv. assert (0 <= n).
  { unfold gcd_arg in Hv. destruct (coerce_num i2f pn v) as [[|s|q]|e]; try discriminate.
    destruct ((0 <=? qtrunc q) && (qtrunc q <=? 9999999990)) eqn:E; [|discriminate]. injection Hv as <-. lia. }
  rewrite gcd_ok by assumption. apply IH. apply Z.gcd_nonneg.
Qed.
Lemma gcd_arg_range : forall v n, gcd_arg i2f pn v = inl n -> 0 <= n <= 9999999990.
Proof.
  intros v n H. unfold gcd_arg in H. destruct (coerce_num i2f pn v) as [[|s|q]|e]; try discriminate.
  destruct ((0 <=? qtrunc q) && (qtrunc q <=? 9999999990)) eqn:E; [|discriminate]. injection H as <-. lia.
Qed.
Lemma lcm_step : forall a n, 0 <= a -> 0 <= n -> Z.lcm a n < 2 ^ 64 -> lcm chk a n = Some (Z.lcm a n).
Proof.
  intros a n Ha Hn H. unfold lcm. destruct ((a =? 0) || (n =? 0)) eqn:E.
  - apply orb_prop in E as [E|E].
    + assert (a = 0) as -> by lia. reflexivity.
    + assert (n = 0) as -> by lia. now rewrite Z.lcm_0_r.
  - apply orb_false_elim in E as [E1 E2]. rewrite gcd_ok by assumption.
    assert (0 < Z.gcd a n) as HG.
    { pose proof (Z.gcd_nonneg a n). destruct (Z.eq_dec (Z.gcd a n) 0) as [X|X]; [apply Z.gcd_eq_0_l in X; lia|lia]. }
    assert (a / Z.gcd a n * n = Z.lcm a n) as EQ.
    { unfold Z.lcm. rewrite Z.abs_eq.
      - destruct (Z.gcd_divide_l a n) as [x Hx]. destruct (Z.gcd_divide_r a n) as [y Hy].
        set (g := Z.gcd a n) in *. rewrite Hx, Hy. rewrite !Z.div_mul by lia. ring.
      - apply Z.mul_nonneg_nonneg; [lia|]. apply Z.div_pos; lia. }
    unfold u64_mul. rewrite EQ. assert (Z.lcm a n <? 2 ^ 64 = true) as -> by lia. reflexivity.
Qed.
Lemma lcm_loop_ok : forall vs ns a, Forall2 (fun v n => gcd_arg i2f pn v = inl n) vs ns -> 0 <= a ->
  (exists m, 0 < m < 2 ^ 64 /\ (forall n, In n (a :: ns) -> n <> 0 -> (n | m))) ->
  lcm_loop i2f pn chk (Some a) vs = OInt (lcml a ns).
Proof.
  intros vs ns a H. revert a. induction H as [|v n vs ns Hv H IH]; intros a Ha [m [Hm1 Hm2]]; cbn [lcm_loop]; [reflexivity|].
  rewrite Hv. pose proof (gcd_arg_range _ _ Hv) as R.
  assert (Z.lcm a n <= m \/ Z.lcm a n = 0) as LM.
  { destruct (Z.eq_dec (Z.lcm a n) 0) as [X|X]; [now right|left]. apply lcm_le; [lia|].
    apply Z.lcm_least; apply Hm2; cbn; auto; intros ->; apply X; [apply Z.lcm_0_l|apply Z.lcm_0_r]. }
  rewrite lcm_step by lia. change (lcml a (n :: ns)) with (lcml (Z.lcm a n) ns). apply IH; [apply Z.lcm_nonneg|].
  exists m. split; [exact Hm1|]. intros k [<-|Hk] K0.
  - apply Z.lcm_least; apply Hm2; cbn; auto; intros ->; apply K0; [apply Z.lcm_0_l|apply Z.lcm_0_r].
  - apply Hm2; cbn; auto.
Qed.
End Loops.
