(** The functions. *)
From Coq Require Import String ZifyN ZifyNat ZifyBool Znumtheory QArith.
From Verif Require Import Base Maps NuModel NuSpec NuProofs1 NuProofs2 NuProofs3.
Close Scope Q_scope.
Local Open Scope Z_scope.

Lemma up_digit : forall b c d, b <= 36 -> isdigit b (ascii_up c) d <-> isdigit b c d.
Proof.
  intros b c d Hb. unfold ascii_up. destruct ((97 <=? c) && (c <=? 122))%N eqn:E; [|tauto].
  split; intros H; pose proof (proj1 H) as R; apply digit_cases in H; try exact Hb; apply mk_digit; auto; lia.
Qed.
Lemma up_reads : forall b s ds, b <= 36 -> reads b (List.map ascii_up s) ds <-> reads b s ds.
Proof.
  intros b s ds Hb. revert ds. induction s as [|c s IH]; intros ds; cbn [List.map].
  - split; intros H; inversion H; constructor.
  - split; intros H; inversion H as [|? d ? r Hd R]; subst; constructor.
    + exact (proj1 (up_digit b c d Hb) Hd). + exact (proj1 (IH r) R). + exact (proj2 (up_digit b c d Hb) Hd). + exact (proj2 (IH r) R).
Qed.
Lemma up_stands : forall b s n, b <= 36 -> stands b (List.map ascii_up s) n <-> stands b s n.
Proof.
  intros b s n Hb. unfold stands. split; intros [ds [H1 [H2 H3]]]; exists ds; rewrite map_length in *.
  - rewrite up_reads in H1 by exact Hb. auto.
  - rewrite up_reads by exact Hb. auto.
Qed.
Lemma capital_ascii : forall s, capital s -> Forall (fun c => (c < 128)%N) s.
Proof.
  intros s H. eapply Forall_impl; [|exact H]. intros c Hc.
  assert (forallb (fun u => (u <? 128)%N) uppers = true) as T by (vm_compute; reflexivity).
  rewrite forallb_forall in T. specialize (T c Hc). lia.
Qed.
Lemma reads_lt128 : forall b s ds, b <= 36 -> reads b s ds -> Forall (fun c => (c < 128)%N) s.
Proof. intros b s ds Hb H. eapply Forall_impl; [|eapply reads_ascii; [exact Hb|exact H]]. cbn. lia. Qed.

(** Reading. *)
Definition decided (b : Z) (s : text) (o : out) : Prop :=
  (forall n, o = OInt n <-> stands b s n) /\ (o = OErr ENum <-> ~ exists n, stands b s n).
Lemma decide : forall b s s' (read : text -> option Z), (forall t n, read t = Some n <-> stands b t n) ->
  (forall n, stands b s' n <-> stands b s n) ->
  decided b s (match read s' with Some n => OInt n | None => OErr ENum end).
Proof.
  intros b s s' read H E. split.
  - intros n. rewrite <- E, <- H. destruct (read s') as [m|]; split; intros X; inversion X; reflexivity.
  - destruct (read s') as [m|] eqn:R.
    + split; [discriminate|]. intros X. exfalso. apply X. exists m. apply E, H, R.
    + split; [|reflexivity]. intros _ [n X]. apply E, H in X. congruence.
Qed.

Section Go.
Variable i2f : Z -> fnum.
Variable pn : text -> option fnum.

Section Basis.
Variables (b : Z) (isd : N -> bool) (neg : N).
Hypothesis B : basis b isd neg.

Lemma of_dec_free : forall v x, coerce_num i2f pn v = inl x ->
  forall n, as_i64 x = n ->
  of_dec i2f pn b (b ^ 10) (- (b ^ 10 / 2)) (b ^ 10 / 2 - 1) v None =
  if (- (b ^ 10 / 2) <=? n) && (n <=? b ^ 10 / 2 - 1) then write_base b (b ^ 10) n None else OErr ENum.
Proof. intros v x C n <-. unfold of_dec. rewrite C. reflexivity. Qed.
Lemma of_dec_places : forall v x w y, coerce_num i2f pn v = inl x -> coerce_num i2f pn w = inl y ->
  forall n, as_i64 x = n ->
  of_dec i2f pn b (b ^ 10) (- (b ^ 10 / 2)) (b ^ 10 / 2 - 1) v (Some w) =
  if (- (b ^ 10 / 2) <=? n) && (n <=? b ^ 10 / 2 - 1) then write_base b (b ^ 10) n (Some (as_usize y)) else OErr ENum.
Proof. intros v x w y C D n <-. unfold of_dec. rewrite C. cbn [places_arg]. rewrite D. reflexivity. Qed.

Lemma of_dec_ok : forall v x, coerce_num i2f pn v = inl x ->
  let n := as_i64 x in
  let f := of_dec i2f pn b (b ^ 10) (- (b ^ 10 / 2)) (b ^ 10 / 2 - 1) v in
  (- (b ^ 10 / 2) <= n < b ^ 10 / 2 ->
     (exists t, f None = OText t) /\
     (forall t, f None = OText t <-> shortest_for b t n) /\
     (forall w y t, coerce_num i2f pn w = inl y -> (f (Some w) = OText t <-> sized_for b (as_usize y) t n)) /\
     (forall w y, coerce_num i2f pn w = inl y -> (exists t, f (Some w) = OText t) \/ f (Some w) = OErr ENum)) /\
  (~ - (b ^ 10 / 2) <= n < b ^ 10 / 2 -> forall p, f p = OErr ENum).
Proof.
  intros v x C. cbv zeta. split.
  - intros R.
    assert ((- (b ^ 10 / 2) <=? as_i64 x) && (as_i64 x <=? b ^ 10 / 2 - 1) = true) as G by lia. split; [|split; [|split]].
    + rewrite (of_dec_free v x C _ eq_refl), G. apply write_some.
    + intros t. rewrite (of_dec_free v x C _ eq_refl), G. rewrite (write_free b isd neg B) by exact R. reflexivity.
    + intros w y t D. rewrite (of_dec_places v x w y C D _ eq_refl), G.
      rewrite (write_places b isd neg B) by (auto using as_usize_nonneg). reflexivity.
    + intros w y D. rewrite (of_dec_places v x w y C D _ eq_refl), G. unfold write_base.
      match goal with |- context [if ?c then OErr ENum else _] => destruct c end; eauto.
  - intros R p. unfold of_dec. rewrite C.
    assert ((- (b ^ 10 / 2) <=? as_i64 x) && (as_i64 x <=? b ^ 10 / 2 - 1) = false) as -> by lia. reflexivity.
Qed.

(** Every text written stands for the number. *)
Lemma of_dec_stands : forall v x p t, coerce_num i2f pn v = inl x ->
  of_dec i2f pn b (b ^ 10) (- (b ^ 10 / 2)) (b ^ 10 / 2 - 1) v p = OText t -> capital t /\ stands b t (as_i64 x).
Proof.
  intros v x p t C H. destruct (of_dec_ok v x C) as [O1 O2].
  assert (- (b ^ 10 / 2) <= as_i64 x < b ^ 10 / 2 \/ ~ - (b ^ 10 / 2) <= as_i64 x < b ^ 10 / 2) as [R|R] by lia.
  2:{ rewrite O2 in H by exact R. discriminate. }
  destruct (O1 R) as [_ [F [P _]]]. destruct p as [w|].
  - destruct (coerce_num i2f pn w) as [y|e] eqn:D.
    + apply (P w y t D) in H as [H1 [H2 [H3 H4]]]. auto.
    + unfold of_dec in H. rewrite C in H. cbn [places_arg] in H. rewrite D in H.
      match type of H with (if ?c then _ else _) = _ => destruct c end; discriminate.
  - apply F in H as [H1 [H2 [H3 H4]]]. auto.
Qed.

(** Going through decimal. *)
Lemma cross_dec : forall (show : Z -> text) (read : text -> option Z) (up : text -> text) range v p,
  i2f_ok i2f -> (forall s n, read s = Some n -> - 2 ^ 53 <= n <= 2 ^ 53 /\
    match range with Some (lo, hi) => lo = - (b ^ 10 / 2) /\ hi = b ^ 10 / 2 - 1 | None => - (b ^ 10 / 2) <= n < b ^ 10 / 2 end) ->
  cross i2f pn show read up range b (b ^ 10) v p =
  match to_dec show read up v with
  | OInt n => of_dec i2f pn b (b ^ 10) (- (b ^ 10 / 2)) (b ^ 10 / 2 - 1) (LInt n) p
  | o => o
  end.
Proof.
  intros show read up range v p OK RD. unfold cross, to_dec.
  destruct (coerce_base_text show v) as [s|e]; [|reflexivity].
  destruct (read (up s)) as [n|] eqn:E; [|reflexivity].
  destruct (RD _ _ E) as [R1 R2]. unfold of_dec. cbn [coerce_num]. rewrite (OK n R1), as_i64_int by lia.
  destruct range as [[lo hi]|].
  - destruct R2 as [-> ->]. reflexivity.
  - assert ((- (b ^ 10 / 2) <=? n) && (n <=? b ^ 10 / 2 - 1) = true) as -> by lia. reflexivity.
Qed.
End Basis.

Lemma bin_range : forall s n, read_bin s = Some n -> - 512 <= n < 512.
Proof. intros s n H. apply read_bin_ok in H. exact (stands_range 2 is_bin 49 basis_bin s n H). Qed.
Lemma oct_range : forall s n, read_oct s = Some n -> - 2 ^ 29 <= n < 2 ^ 29.
Proof. intros s n H. apply read_oct_ok in H. exact (stands_range 8 is_oct 52 basis_oct s n H). Qed.
Lemma hex_range : forall s n, read_hex s = Some n -> - 2 ^ 39 <= n < 2 ^ 39.
Proof. intros s n H. apply read_hex_ok in H. exact (stands_range 16 is_hex 56 basis_hex s n H). Qed.

(** BASE and DECIMAL. *)
Lemma base_ok : forall v x r y, coerce_num i2f pn v = inl x -> coerce_num i2f pn r = inl y ->
  2 <= as_i64 y <= 36 -> 0 <= as_i64 x ->
  forall l m, places_arg i2f pn l = inl m ->
  exists ds k, f_base i2f pn v r l = OText (List.map char_of (repeat 0 k ++ ds)) /\
    Forall (fun d => 0 <= d < as_i64 y) ds /\ pv (as_i64 y) ds = as_i64 x /\ ds <> [] /\
    (as_i64 x = 0 -> ds = [0]) /\ (0 < as_i64 x -> exists d q, ds = d :: q /\ 0 < d) /\
    k = (Z.to_nat (match m with Some w => w | None => 0 end) - length ds)%nat.
Proof.
  intros v x r y C D R X l m P. destruct (fmt_ok (as_i64 y) (as_i64 x) R X) as [ds [F1 [F2 [F3 [F4 [F5 F6]]]]]].
  exists ds. eexists. split.
  - unfold f_base. rewrite C, D, P.
    assert (negb ((2 <=? as_i64 y) && (as_i64 y <=? 36)) || (as_i64 x <? 0) = false) as -> by lia.
    rewrite F1, pad_map. reflexivity.
  - repeat split; auto.
Qed.
End Go.

Lemma digit_not_sign : forall b c d, b <= 36 -> isdigit b c d -> c <> 43%N /\ c <> 45%N.
Proof. intros b c d Hb H. apply isdigit_ascii in H; [|exact Hb]. lia. Qed.
Lemma from_str_ok : forall b s n, 2 <= b <= 36 ->
  from_str_radix b s = Some n <-> signed_text b s n /\ - 2 ^ 63 <= n < 2 ^ 63.
Proof.
  intros b s n Hb. unfold signed_text.
  assert (I : forall z, in_i64 z = true <-> - 2 ^ 63 <= z < 2 ^ 63) by (intros z; unfold in_i64; lia).
  assert (P : forall sgn t m, (sgn = 1 \/ sgn = -1) -> (radix_go b sgn 0 t = Some m <-> exists ds, reads b t ds /\ m = sgn * pv b ds /\ - 2 ^ 63 <= m < 2 ^ 63)).
  { intros sgn t m Hs. rewrite (radix_go_ok b sgn t 0 m Hb Hs ltac:(destruct Hs; lia) eq_refl). split.
    - intros [ds [R [E F]]]. exists ds. apply I in F. auto.
    - intros [ds [R [E F]]]. exists ds. apply I in F. auto. }
  assert (NS : forall c t ds, reads b (c :: t) ds -> c <> 43%N /\ c <> 45%N).
  { intros c t ds R. inversion R as [|? d ? r Hd]; subst. apply digit_not_sign in Hd; [exact Hd|lia]. }
  destruct s as [|c s].
  { split; [discriminate|]. intros [[sgn [body [ds [H1 [H2 [H3 H4]]]]]] _].
    destruct H4 as [[_ [<-|H4]]|[_ H4]]; try contradiction; discriminate. }
  destruct (N.eq_dec c 43) as [->|N1]; [|destruct (N.eq_dec c 45) as [->|N2]].
  - assert (from_str_radix b (43%N :: s) = match s with [] => None | _ => radix_go b 1 0 s end) as -> by (destruct s; reflexivity).
    split.
    + intros H. destruct s as [|c s]; [discriminate|]. apply P in H as [ds [R [E F]]]; [|now left].
      split; [|exact F]. exists 1, (c :: s), ds. repeat split; auto; try discriminate; left; auto.
    + intros [[sgn [body [ds [H1 [H2 [H3 H4]]]]]] F].
      destruct H4 as [[-> [<-|[= ->]]]|[_ [=]]].
      * apply NS in H1. tauto.
      * destruct body; [contradiction|]. apply P; [now left|]. exists ds. auto.
  - assert (from_str_radix b (45%N :: s) = match s with [] => None | _ => radix_go b (-1) 0 s end) as -> by (destruct s; reflexivity).
    split.
    + intros H. destruct s as [|c s]; [discriminate|]. apply P in H as [ds [R [E F]]]; [|now right].
      split; [|exact F]. exists (-1), (c :: s), ds. repeat split; auto; try discriminate.
    + intros [[sgn [body [ds [H1 [H2 [H3 H4]]]]]] F].
      destruct H4 as [[-> [<-|[=]]]|[-> [= ->]]].
      * apply NS in H1. tauto.
      * destruct body; [contradiction|]. apply P; [now right|]. exists ds. auto.
  - assert (from_str_radix b (c :: s) = radix_go b 1 0 (c :: s)) as ->.
    { unfold from_str_radix. assert ((c =? 43)%N = false) as -> by lia. assert ((c =? 45)%N = false) as -> by lia. destruct s; reflexivity. }
    rewrite P by now left. split.
    + intros [ds [R [E F]]]. split; [|exact F]. exists 1, (c :: s), ds. repeat split; auto; try discriminate; left; auto.
    + intros [[sgn [body [ds [H1 [H2 [H3 H4]]]]]] F].
      destruct H4 as [[-> [<-|[= -> _]]]|[_ [= -> _]]]; try contradiction. exists ds. auto.
Qed.

(** Roman numerals. *)
Lemma text_eqb_true : forall a b, text_eqb a b = true -> a = b.
Proof. intros a b H. now apply text_eqb_spec. Qed.
Lemma roman_facts : forall n, 1 <= n <= 3999 ->
  arabic_go 0 0 (rev (roman_classic n)) = Some n /\
  Forall (fun c => exists v, letter c v) (roman_classic n) /\ (length (roman_classic n) <= 15)%nat /\ roman_classic n <> [] /\
  roman_classic n = repeat 77%N (Z.to_nat (n / 1000))
        ++ nth (Z.to_nat (n / 100 mod 10)) (pats "C"%string "D"%string "M"%string) []
        ++ nth (Z.to_nat (n / 10 mod 10)) (pats "X"%string "L"%string "C"%string) []
        ++ nth (Z.to_nat (n mod 10)) (pats "I"%string "V"%string "X"%string) [].
Proof.
  intros n H. pose proof (roman_checked n H) as T. unfold roman_check in T.
  apply andb_prop in T as [T T5]. apply andb_prop in T as [T T4]. apply andb_prop in T as [T T3]. apply andb_prop in T as [T1 T2].
  split.
  { destruct (arabic_go 0 0 (rev (roman_classic n))) as [m|]; [|discriminate]. f_equal. lia. }
  split.
  { apply Forall_forall. intros c Hc. rewrite forallb_forall in T2. specialize (T2 c Hc).
    destruct (roman_digit_value c) as [v|] eqn:E; [|discriminate]. exists v. now apply rdv_letter. }
  split; [lia|]. split; [destruct (roman_classic n); [discriminate|discriminate]|]. now apply text_eqb_true.
Qed.

Definition form1_value (n : Z) : Z :=
  let h := n / 100 mod 10 in let t := n / 10 mod 10 in let u := n mod 10 in
  n + (if (h =? 4) || (h =? 9) then 50 else 0) + (if t =? 4 then 5 else 0) - (if t =? 9 then 45 else 0) - (if u =? 9 then 5 else 0).
Definition quiet (n : Z) : bool :=
  let h := n / 100 mod 10 in let t := n / 10 mod 10 in let u := n mod 10 in
  negb ((h =? 4) || (h =? 9) || (t =? 4) || (t =? 9) || (u =? 9)).
Lemma forms_all : forallb (fun k => let n := Z.of_nat k in
   match arabic_go 0 0 (rev (form1 (roman_classic n))) with Some m => m =? form1_value n | None => false end
   && (negb (quiet n) || forallb (fun f => text_eqb (roman_apply_form (roman_classic n) f) (roman_classic n)) [1; 2; 3; 4]))
   (seq 1 3999) = true.
Proof. vm_compute. reflexivity. Qed.
Lemma forms_facts : forall n, 1 <= n <= 3999 ->
  arabic_go 0 0 (rev (form1 (roman_classic n))) = Some (form1_value n) /\
  (quiet n = true -> forall f, 1 <= f <= 4 -> roman_apply_form (roman_classic n) f = roman_classic n).
Proof.
  intros n H. pose proof forms_all as T. rewrite forallb_forall in T. specialize (T (Z.to_nat n)). cbv zeta in T.
  rewrite Z2Nat.id in T by lia. assert (In (Z.to_nat n) (seq 1 3999)) as Hin by (apply in_seq; lia). specialize (T Hin).
  apply andb_prop in T as [T1 T2]. split.
  - destruct (arabic_go 0 0 (rev (form1 (roman_classic n)))) as [m|]; [|discriminate]. f_equal. lia.
  - intros Q f Hf. rewrite Q in T2. cbn [negb orb] in T2. rewrite forallb_forall in T2. apply text_eqb_true, T2.
    assert (f = 1 \/ f = 2 \/ f = 3 \/ f = 4) as [->|[->|[->| ->]]] by lia; cbn; auto.
Qed.
Lemma roman_letters : forall s n, arabic_go 0 0 (rev s) = Some n <-> exists vs, Forall2 letter s vs /\ n = roman_sum vs.
Proof.
  intros s n. rewrite (arabic_go_ok s [] n). split; intros [vs [H1 H2]]; exists vs; rewrite app_nil_r in *; auto.
Qed.
