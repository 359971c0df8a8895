(** Positional notation. *)
From Coq Require Import String ZifyN ZifyNat ZifyBool.
From Verif Require Import Base Maps NuModel NuSpec.
Local Open Scope Z_scope.

Lemma pv_app : forall b x y, pv b (x ++ y) = pv b x * b ^ Z.of_nat (length y) + pv b y.
Proof.
  intros b x y. induction x as [|d x IH]; cbn [app pv]; [lia|].
  rewrite IH, app_length, Nat2Z.inj_add, Z.pow_add_r by lia. ring.
Qed.
Lemma pv_bound : forall b ds, 2 <= b -> Forall (fun d => 0 <= d < b) ds -> 0 <= pv b ds < b ^ Z.of_nat (length ds).
Proof.
  intros b ds Hb H. induction H as [|d r Hd H IH]; cbn [pv length]; [lia|].
  rewrite Nat2Z.inj_succ, Z.pow_succ_r by lia.
  assert (0 < b ^ Z.of_nat (length r)) by (apply Z.pow_pos_nonneg; lia). nia.
Qed.
Lemma pv_inj : forall b x y, 2 <= b -> Forall (fun d => 0 <= d < b) x -> Forall (fun d => 0 <= d < b) y ->
  length x = length y -> pv b x = pv b y -> x = y.
Proof.
  intros b x y Hb Hx. revert y. induction Hx as [|d r Hd Hx IH]; intros y Hy Hl Hp; destruct y as [|e y]; try discriminate; auto.
  inversion Hy as [|? ? He Hy']; subst. cbn [pv length] in *. injection Hl as Hl. rewrite Hl in Hp.
  pose proof (pv_bound b r Hb Hx) as B1. pose proof (pv_bound b y Hb Hy') as B2. rewrite Hl in B1.
  assert (0 < b ^ Z.of_nat (length y)) as Hpos by (apply Z.pow_pos_nonneg; lia).
  assert (d = e) as -> by nia. f_equal. apply IH; auto. lia.
Qed.
Lemma pv_zeros : forall b k ds, pv b (repeat 0 k ++ ds) = pv b ds.
Proof. intros b k ds. induction k as [|k IH]; cbn [repeat app pv]; [reflexivity|]. rewrite IH. lia. Qed.

Lemma reads_digits : forall b s ds, reads b s ds -> Forall (fun d => 0 <= d < b) ds.
Proof. intros b s ds H. induction H as [|c d s ds [H1 _] H IH]; constructor; auto. Qed.
Lemma reads_len : forall b s ds, reads b s ds -> length s = length ds.
Proof. intros b s ds H. induction H; cbn; congruence. Qed.

(** Digits of a character. *)
Lemma dv_table : forallb (fun k => match nth_error uppers k, nth_error lowers k with
    | Some c, Some e => match digit_val c, digit_val e with Some x, Some y => (x =? Z.of_nat k) && (y =? Z.of_nat k) | _, _ => false end
    | _, _ => false end) (seq 0 36) = true.
Proof. vm_compute. reflexivity. Qed.
Lemma dv_back : forallb (fun k => let c := N.of_nat k in match digit_val c with
    | Some d => (0 <=? d) && (d <? 36) &&
                (match nth_error uppers (Z.to_nat d) with Some u => (u =? c)%N | None => false end
                 || match nth_error lowers (Z.to_nat d) with Some u => (u =? c)%N | None => false end)
    | None => true end) (seq 0 128) = true.
Proof. vm_compute. reflexivity. Qed.

Lemma digit_val_spec : forall c d, digit_val c = Some d <-> isdigit 36 c d.
Proof.
  intros c d. split.
  - intros H. assert (c < 128)%N as Hc.
    { unfold digit_val in H. destruct ((48 <=? Z.of_N c) && (Z.of_N c <=? 57)) eqn:E1; [lia|].
      destruct ((65 <=? Z.of_N c) && (Z.of_N c <=? 90)) eqn:E2; [lia|].
      destruct ((97 <=? Z.of_N c) && (Z.of_N c <=? 122)) eqn:E3; [lia|discriminate]. }
    pose proof dv_back as T. rewrite forallb_forall in T. specialize (T (N.to_nat c)).
    cbv zeta in T. rewrite N2Nat.id, H in T.
    assert (In (N.to_nat c) (seq 0 128)) as Hin by (apply in_seq; lia). specialize (T Hin).
    apply andb_prop in T as [T1 T2]. apply orb_prop in T2. split; [lia|].
    destruct T2 as [T2|T2]; [left|right];
      match type of T2 with context [nth_error ?l ?k] => destruct (nth_error l k) as [u|] eqn:E; [|discriminate] end;
      apply N.eqb_eq in T2; subst u; reflexivity.
  - intros [Hd H]. pose proof dv_table as T. rewrite forallb_forall in T. specialize (T (Z.to_nat d)).
    assert (In (Z.to_nat d) (seq 0 36)) as Hin by (apply in_seq; lia). specialize (T Hin).
    destruct (nth_error uppers (Z.to_nat d)) as [u|] eqn:E1; [|discriminate].
    destruct (nth_error lowers (Z.to_nat d)) as [l|] eqn:E2; [|discriminate].
    destruct (digit_val u) as [x|] eqn:E3; [|discriminate]. destruct (digit_val l) as [y|] eqn:E4; [|discriminate].
    destruct H as [[= ->]|[= ->]]; [rewrite E3|rewrite E4]; f_equal; lia.
Qed.
Lemma digit_of_spec : forall b c d, b <= 36 -> digit_of b c = Some d <-> isdigit b c d.
Proof.
  intros b c d Hb. unfold digit_of. split.
  - intros H. destruct (digit_val c) as [x|] eqn:E; [|discriminate]. destruct (x <? b) eqn:L; [|discriminate].
    injection H as ->. apply digit_val_spec in E. destruct E as [E1 E2]. split; [lia|auto].
  - intros [H1 H2]. assert (digit_val c = Some d) as -> by (apply digit_val_spec; split; [lia|auto]).
    assert (d <? b = true) as -> by lia. reflexivity.
Qed.
Lemma isdigit_ascii : forall b c d, b <= 36 -> isdigit b c d -> (47 < c < 123)%N.
Proof.
  intros b c d Hb H. apply (digit_of_spec b c d Hb) in H. unfold digit_of, digit_val in H.
  destruct ((48 <=? Z.of_N c) && (Z.of_N c <=? 57)) eqn:E1; [lia|].
  destruct ((65 <=? Z.of_N c) && (Z.of_N c <=? 90)) eqn:E2; [lia|].
  destruct ((97 <=? Z.of_N c) && (Z.of_N c <=? 122)) eqn:E3; [lia|discriminate].
Qed.
Lemma reads_ascii : forall b s ds, b <= 36 -> reads b s ds -> Forall (fun c => (47 < c < 123)%N) s.
Proof. intros b s ds Hb H. induction H as [|c d s ds Hd H IH]; constructor; auto. eapply isdigit_ascii; eassumption. Qed.

(** Characters of digits. *)
Lemma char_of_isdigit : forall b d, b <= 36 -> 0 <= d < b -> isdigit b (char_of d) d.
Proof.
  intros b d Hb Hd. apply digit_of_spec; [exact Hb|]. unfold digit_of, digit_val, char_of.
  destruct (d <? 10) eqn:L.
  - rewrite Z2N.id by lia. assert ((48 <=? d + 48) && (d + 48 <=? 57) = true) as -> by lia.
    replace (d + 48 - 48) with d by lia. assert (d <? b = true) as -> by lia. reflexivity.
  - rewrite Z2N.id by lia. assert ((48 <=? d + 55) && (d + 55 <=? 57) = false) as -> by lia.
    assert ((65 <=? d + 55) && (d + 55 <=? 90) = true) as -> by lia.
    replace (d + 55 - 55) with d by lia. assert (d <? b = true) as -> by lia. reflexivity.
Qed.
Lemma char_of_upper : forall d, 0 <= d < 36 -> nth_error uppers (Z.to_nat d) = Some (char_of d).
Proof.
  intros d Hd. assert (forallb (fun k => match nth_error uppers k with Some c => (c =? char_of (Z.of_nat k))%N | None => false end) (seq 0 36) = true) as T
    by (vm_compute; reflexivity).
  rewrite forallb_forall in T. specialize (T (Z.to_nat d)). assert (In (Z.to_nat d) (seq 0 36)) as Hin by (apply in_seq; lia).
  specialize (T Hin). destruct (nth_error uppers (Z.to_nat d)) as [u|]; [|discriminate].
  rewrite Z2Nat.id in T by lia. apply N.eqb_eq in T. now subst u.
Qed.
Lemma map_char_reads : forall b ds, b <= 36 -> Forall (fun d => 0 <= d < b) ds -> reads b (List.map char_of ds) ds.
Proof. intros b ds Hb H. induction H as [|d r Hd H IH]; constructor; auto. now apply char_of_isdigit. Qed.
Lemma map_char_capital : forall b ds, b <= 36 -> Forall (fun d => 0 <= d < b) ds -> capital (List.map char_of ds).
Proof.
  intros b ds Hb H. induction H as [|d r Hd H IH]; constructor; auto.
  apply (nth_error_In uppers (Z.to_nat d)). apply char_of_upper. lia.
Qed.
Lemma capital_unique : forall b c d, b <= 36 -> isdigit b c d -> In c uppers -> c = char_of d.
Proof.
  intros b c d Hb H Hin. apply In_nth_error in Hin as [k Hk].
  assert (k < 36)%nat as Hlt by (change 36%nat with (length uppers); apply nth_error_Some; congruence).
  assert (isdigit 36 c (Z.of_nat k)) as H2 by (split; [lia|left; rewrite Nat2Z.id; exact Hk]).
  assert (isdigit 36 c d) as H1 by (destruct H as [? ?]; split; [lia|auto]).
  apply digit_val_spec in H1. apply digit_val_spec in H2. assert (d = Z.of_nat k) as -> by congruence.
  pose proof (char_of_upper (Z.of_nat k) ltac:(lia)) as E. rewrite Nat2Z.id in E. congruence.
Qed.
Lemma capital_reads : forall b s ds, b <= 36 -> reads b s ds -> capital s -> s = List.map char_of ds.
Proof.
  intros b s ds Hb H. induction H as [|c d s ds Hd H IH]; intros C; [reflexivity|].
  inversion C as [|? ? Hc C']; subst. cbn. f_equal; [now apply (capital_unique b)|auto].
Qed.

(** The digits of a number. *)
Lemma digs_ok : forall b f n, 2 <= b -> 0 <= n < 2 ^ Z.of_nat f ->
  pv b (digs f b n) = n /\ Forall (fun d => 0 <= d < b) (digs f b n).
Proof.
  intros b f. induction f as [|f IH]; intros n Hb Hn; cbn [digs].
  - cbn in Hn. split; [cbn; lia|constructor].
  - destruct (n <=? 0) eqn:E; [split; [cbn; lia|constructor]|].
    assert (0 <= n / b < 2 ^ Z.of_nat f) as Hq.
    { split; [apply Z.div_pos; lia|]. rewrite Nat2Z.inj_succ, Z.pow_succ_r in Hn by lia.
      apply Z.div_lt_upper_bound; nia. }
    destruct (IH (n / b) Hb Hq) as [I1 I2]. pose proof (Z.mod_pos_bound n b ltac:(lia)) as Hm. split.
    + rewrite pv_app. cbn [pv length]. rewrite I1. pose proof (Z.div_mod n b ltac:(lia)) as D.
      change (Z.of_nat 1) with 1. rewrite Z.pow_1_r. cbn [Z.of_nat]. rewrite Z.pow_0_r. lia.
    + apply Forall_app. split; auto.
Qed.
Lemma digs_nil : forall b f, digs f b 0 = [].
Proof. intros b [|f]; reflexivity. Qed.
(** No leading zero. *)
Lemma digs_head : forall b f n, 2 <= b -> 0 < n < 2 ^ Z.of_nat f ->
  exists d r, digs f b n = d :: r /\ 0 < d.
Proof.
  intros b f. induction f as [|f IH]; intros n Hb Hn; [cbn in Hn; lia|]. cbn [digs].
  assert (n <=? 0 = false) as -> by lia.
  destruct (Z.eq_dec (n / b) 0) as [Z0|Z0].
  - rewrite Z0, digs_nil. exists (n mod b), []. split; [reflexivity|].
    pose proof (Z.div_mod n b ltac:(lia)). rewrite Z0 in *. lia.
  - assert (0 <= n / b) by (apply Z.div_pos; lia).
    assert (n / b < 2 ^ Z.of_nat f).
    { rewrite Nat2Z.inj_succ, Z.pow_succ_r in Hn by lia. apply Z.div_lt_upper_bound; nia. }
    destruct (IH (n / b) Hb ltac:(lia)) as [d [r [E Hd]]]. rewrite E. exists d, (r ++ [n mod b]). now split.
Qed.

Lemma log_fuel : forall n, 0 < n -> n < 2 ^ Z.of_nat (S (Z.to_nat (Z.log2 n))).
Proof.
  intros n H. rewrite Nat2Z.inj_succ, Z2Nat.id by apply Z.log2_nonneg. apply Z.log2_spec. exact H.
Qed.

(** [fmt] writes the digits of the number, the first of them not zero. *)
Lemma fmt_ok : forall b n, 2 <= b <= 36 -> 0 <= n ->
  exists ds, fmt b n = List.map char_of ds /\ Forall (fun d => 0 <= d < b) ds /\ pv b ds = n /\ ds <> [] /\
    (n = 0 -> ds = [0]) /\ (0 < n -> exists d r, ds = d :: r /\ 0 < d).
Proof.
  intros b n Hb Hn. unfold fmt. destruct (n =? 0) eqn:E.
  - assert (n = 0) as -> by lia. exists [0]. repeat split; auto; try lia; try discriminate. repeat constructor; lia.
  - assert (0 < n) as Hp by lia. pose proof (log_fuel n Hp) as Hf.
    destruct (digs_ok b _ n ltac:(lia) (conj Hn Hf)) as [D1 D2].
    destruct (digs_head b _ n ltac:(lia) (conj Hp Hf)) as [d [r [D3 D4]]].
    eexists. split; [reflexivity|]. split; [exact D2|]. split; [exact D1|].
    split; [rewrite D3; discriminate|]. split; [lia|]. intros _. eauto.
Qed.

(** The shortest digits: leading digit not zero, so no shorter text. *)
Lemma shortest : forall b d r k, 2 <= b -> 0 < d -> Forall (fun x => 0 <= x < b) (d :: r) ->
  pv b (d :: r) < b ^ k -> 0 <= k -> Z.of_nat (length (d :: r)) <= k.
Proof.
  intros b d r k Hb Hd F H Hk. inversion F as [|? ? Hd' F']; subst. cbn [pv length] in *.
  pose proof (pv_bound b r Hb F') as B.
  destruct (Z_le_gt_dec (Z.of_nat (S (length r))) k) as [L|G]; [exact L|].
  assert (b ^ k <= b ^ Z.of_nat (length r)) by (apply Z.pow_le_mono_r; lia).
  assert (0 < b ^ Z.of_nat (length r)) by (apply Z.pow_pos_nonneg; lia). nia.
Qed.

(** Reading with overflow checks. *)
Lemma radix_go_ok : forall b sgn s acc n, 2 <= b <= 36 -> (sgn = 1 \/ sgn = -1) -> 0 <= sgn * acc ->
  in_i64 acc = true ->
  (radix_go b sgn acc s = Some n <->
   exists ds, reads b s ds /\ n = acc * b ^ Z.of_nat (length s) + sgn * pv b ds /\ in_i64 n = true).
Proof.
  intros b sgn s. induction s as [|c s IH]; intros acc n Hb Hs Ha Hi; cbn [radix_go].
  - split.
    + intros [= <-]. exists []. split; [constructor|]. cbn. split; [|exact Hi]. lia.
    + intros [ds [R [-> _]]]. inversion R; subst. cbn. f_equal. lia.
  - assert (Hc : forall ds, reads b (c :: s) ds -> exists d r, ds = d :: r /\ digit_of b c = Some d /\ 0 <= d < b /\ reads b s r).
    { intros ds R. inversion R as [|? d ? r Hd R']; subst. exists d, r. split; [reflexivity|].
      split; [apply digit_of_spec; [lia|exact Hd]|]. split; [apply Hd|exact R']. }
    destruct (digit_of b c) as [d|] eqn:D.
    2:{ split; [discriminate|]. intros [ds [R _]]. destruct (Hc ds R) as [d [r [_ [E _]]]]. discriminate. }
    assert (isdigit b c d) as Hd by (apply digit_of_spec; [lia|exact D]). pose proof (proj1 Hd) as Hdr.
    set (a := acc * b + sgn * d) in *.
    assert (0 <= sgn * a) as Ha2 by (unfold a; destruct Hs as [-> | ->]; nia).
    assert (Hsplit : forall r, a * b ^ Z.of_nat (length s) + sgn * pv b r = acc * b ^ Z.of_nat (length (c :: s)) + sgn * pv b (d :: r)
              \/ length s <> length r).
    { intros r. destruct (Nat.eq_dec (length s) (length r)) as [E|E]; [left|right; exact E].
      cbn [pv length]. rewrite <- E, Nat2Z.inj_succ, Z.pow_succ_r by lia. unfold a. ring. }
    destruct (in_i64 (acc * b) && in_i64 a) eqn:I.
    + apply andb_prop in I as [I1 I2]. rewrite I1, I2. rewrite (IH a n Hb Hs Ha2 I2). split.
      * intros [ds [R [E F]]]. exists (d :: ds). split; [constructor; assumption|]. split; [|exact F].
        destruct (Hsplit ds) as [X|X]; [lia|]. apply reads_len in R. contradiction.
      * intros [ds [R [E F]]]. destruct (Hc ds R) as [d' [r [-> [[= <-] [_ R']]]]]. exists r. split; [exact R'|].
        split; [|exact F]. destruct (Hsplit r) as [X|X]; [lia|]. apply reads_len in R'. contradiction.
    + assert ((if in_i64 (acc * b) then if in_i64 a then radix_go b sgn a s else None else None) = None) as ->.
      { destruct (in_i64 (acc * b)); [|reflexivity]. cbn in I. now rewrite I. }
      split; [discriminate|]. intros [ds [R [E F]]]. exfalso.
      destruct (Hc ds R) as [d' [r [-> [[= <-] [_ R']]]]].
      pose proof (reads_len _ _ _ R') as L. pose proof (pv_bound b r ltac:(lia) (reads_digits _ _ _ R')) as B.
      assert (n = a * b ^ Z.of_nat (length s) + sgn * pv b r) as En.
      { destruct (Hsplit r) as [X|X]; [lia|contradiction]. }
      assert (1 <= b ^ Z.of_nat (length s)) as P by (assert (0 < b ^ Z.of_nat (length s)) by (apply Z.pow_pos_nonneg; lia); lia).
      unfold in_i64 in *. unfold a in *. destruct Hs as [-> | ->]; nia.
Qed.

Lemma from_str_unsigned : forall b s n, 2 <= b <= 36 -> Forall (fun c => (47 < c)%N) s ->
  (from_str_radix b s = Some n <-> exists ds, reads b s ds /\ s <> [] /\ n = pv b ds /\ in_i64 n = true).
Proof.
  intros b s n Hb Hs.
  assert (G : from_str_radix b s = match s with [] => None | _ => radix_go b 1 0 s end).
  { unfold from_str_radix. destruct s as [|c s]; [reflexivity|].
    inversion Hs as [|? ? Hc Hs']; subst.
    assert ((c =? 43) = false)%N as -> by lia. assert ((c =? 45) = false)%N as -> by lia. destruct s; reflexivity. }
  rewrite G. destruct s as [|c s].
  - split; [discriminate|]. intros [ds [_ [X _]]]. contradiction.
  - rewrite (radix_go_ok b 1 (c :: s) 0 n Hb (or_introl eq_refl) ltac:(lia) eq_refl). split.
    + intros [ds [R [E F]]]. exists ds. repeat split; auto; [discriminate|]. lia.
    + intros [ds [R [_ [E F]]]]. exists ds. repeat split; auto. lia.
Qed.
