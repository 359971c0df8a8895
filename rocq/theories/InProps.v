(** Functions that ask about a value (C196-C200). *)
From Coq Require Import List Bool NArith ZArith Lia.
From Coq Require Import ZifyN ZifyNat ZifyBool.
From Verif Require Import Base Maps LookupModel EvModel LgModel InModel InSpec.
Import ListNotations.

(** ** C196: every value is of one kind *)
Theorem C196_one_kind : forall T h v, literal_of T h = Ok v ->
  isnumber_fn T [h] = Ok (SBool (is_sort T KNumber v)) /\
  istext_fn T [h] = Ok (SBool (is_sort T KText v)) /\
  islogical_fn T [h] = Ok (SBool (is_sort T KLogical v)) /\
  isblank_fn T [h] = Ok (SBool (is_sort T KBlank v)) /\
  iserror_fn T [h] = Ok (SBool (is_sort T KError v)) /\
  isnontext_fn T [h] = Ok (SBool (negb (is_sort T KText v))).
Proof.
  intros T h v L. unfold isnumber_fn, istext_fn, islogical_fn, isblank_fn, iserror_fn, isnontext_fn, ask. rewrite L.
  destruct v as [[x|z|b|s|e| |a d|]|g]; repeat split; reflexivity.
Qed.
Theorem C196_errors : forall T h v, literal_of T h = Ok v ->
  exists a b, iserr_fn T [h] = Ok (SBool a) /\ isna_fn T [h] = Ok (SBool b) /\
    iserror_fn T [h] = Ok (SBool (a || b)) /\ a && b = false /\ (b = true <-> v = VS (SErr K_NA)).
Proof.
  intros T h v L. unfold iserr_fn, isna_fn, iserror_fn, ask. rewrite L. cbn [rbind].
  exists (err_value T v), (na_value T v). do 2 (split; [reflexivity|]).
  destruct v as [[x|z|b|s|e| |a d|]|g]; cbn; try (repeat split; intros; discriminate).
  destruct (N.eqb_spec e K_NA) as [->|N]; cbn; repeat split; auto; intros H; try discriminate. injection H as E. contradiction.
Qed.
Theorem C196_na : forall T hs h, na_fn T hs = Ok (SErr K_NA) /\ isna_fn T [answer_of T (na_fn T hs)] = Ok (SBool true) /\
  iserr_fn T [answer_of T (na_fn T hs)] = Ok (SBool false) /\
  (literal_of T h = Ok (VS SEmpty) -> isblank_fn T [h] = Ok (SBool true) /\ isnumber_fn T [h] = Ok (SBool false)).
Proof. intros T hs h. repeat split; unfold isblank_fn, isnumber_fn, ask; now rewrite H. Qed.
(** An argument whose evaluation fails: no question answers, not even ISERROR. *)
Theorem C196_failure : forall T h e, literal_of T h = Err e ->
  forall f, In f [isnumber_fn T; istext_fn T; isnontext_fn T; islogical_fn T; isblank_fn T; iserror_fn T; iserr_fn T; isna_fn T] ->
  f [h] = Err e.
Proof.
  intros T h e L f I. cbn in I.
  repeat (destruct I as [<-|I]; [unfold isnumber_fn, istext_fn, isnontext_fn, islogical_fn, isblank_fn, iserror_fn, iserr_fn, isna_fn, ask; now rewrite L|]).
  contradiction.
Qed.
Theorem C196_iserror_refuted : forall T (e : N), exists h,
  value_of T h = Err e /\ iserror_fn T [h] <> Ok (SBool true) /\
  (forall y, snd (iferror_fn T [h; y]) = value_of T y).
Proof. intros T e. exists (HExpr T (Err e)). repeat split. discriminate. Qed.
Theorem C196_arity : forall T hs, List.length hs <> 1%nat ->
  forall f, In f [isnumber_fn T; istext_fn T; isnontext_fn T; islogical_fn T; isblank_fn T; iserror_fn T; iserr_fn T; isna_fn T;
                  type_fn T; n_fn T; t_fn T; error_type_fn T] -> f hs = Ok (SErr K_VALUE).
Proof.
  intros T hs L f I. destruct hs as [|h [|h' hs]]; [|cbn in L; lia|];
    cbn in I; repeat (destruct I as [<-|I]; [reflexivity|]); contradiction.
Qed.
Example C196_ex : literal_of Z (given Z (VS (SText [97%N]))) = Ok (VS (SText [97%N])) /\
  is_sort Z KText (VS (SText [97%N])) = true /\ literal_of Z (given Z (VS (SErr K_NA))) = Ok (VS (SErr K_NA)).
Proof. repeat split. Qed.

(** ** C197: IF(ISERROR(x), y, x) is IFERROR(x, y), IF(ISNA(x), y, x) is IFNA(x, y) *)
Theorem C197_iferror_partial : forall T is_zero x v y, value_of T x = Ok (SeenPlain (PScalar v)) ->
  snd (if_fn T is_zero [answer_of T (iserror_fn T [x]); y; x]) = snd (iferror_fn T [x; y]).
Proof.
  intros T is_zero x v y V. unfold iserror_fn, ask, literal_of, iferror_fn. rewrite V. cbn [rbind literal].
  destruct v as [[a|z|b|s|e| |a d|]|g]; cbn; rewrite ?V; reflexivity.
Qed.
Theorem C197_ifna_partial : forall T is_zero x v y, value_of T x = Ok (SeenPlain (PScalar v)) ->
  snd (if_fn T is_zero [answer_of T (isna_fn T [x]); y; x]) = snd (ifna_fn T [x; y]).
Proof.
  intros T is_zero x v y V. unfold isna_fn, ask, literal_of, ifna_fn. rewrite V. cbn [rbind literal].
  destruct v as [[a|z|b|s|e| |a d|]|g]; cbn; rewrite ?V; try reflexivity.
  destruct (e =? K_NA)%N; cbn; rewrite ?V; reflexivity.
Qed.
Theorem C197_failure_refuted : forall T is_zero (e : N) y, exists x, value_of T x = Err e /\
  snd (if_fn T is_zero [answer_of T (iserror_fn T [x]); y; x]) = Err e /\ snd (iferror_fn T [x; y]) = value_of T y.
Proof. intros T is_zero e y. exists (HExpr T (Err e)). repeat split. Qed.
Theorem C197_one_cell_refuted : forall T is_zero (e : N) y, exists x,
  snd (if_fn T is_zero [answer_of T (iserror_fn T [x]); y; x]) = value_of T y /\
  snd (iferror_fn T [x; y]) = value_of T x.
Proof. intros T is_zero e y. exists (HArray T [[SErr e]]). repeat split. Qed.
Example C197_ex : value_of Z (given Z (VS (SErr K_DIV))) = Ok (SeenPlain (PScalar (VS (SErr K_DIV)))).
Proof. reflexivity. Qed.

(** ** C198: TYPE, N and T *)
Theorem C198_type_partial : forall T h v, literal_of T h = Ok v -> sort_of T v <> KError ->
  exists n, type_number (sort_of T v) = Some n /\ type_fn T [h] = Ok (SInt n).
Proof.
  intros T h v L K. unfold type_fn, ask. rewrite L.
  destruct v as [[a|z|b|s|e| |a d|]|g]; cbn in *; try (eexists; split; reflexivity). contradiction.
Qed.
(** Of an error TYPE is the error, not a number: 16 is never the answer. *)
Theorem C198_type_of_error_refuted : forall T h e, literal_of T h = Ok (VS (SErr e)) -> type_fn T [h] = Ok (SErr e).
Proof. intros T h e L. unfold type_fn, ask. now rewrite L. Qed.
Theorem C198_n : forall T h v, literal_of T h = Ok v ->
  exists s, n_fn T [h] = Ok s /\
    match v with
    | VS (SNum x) => s = SNum x
    | VS (SInt z) => s = SInt z
    | VS (SDate _ x) => s = SNum x
    | VS (SBool b) => s = SInt (Z.b2z b)
    | VS (SErr e) => s = SErr e
    | _ => s = SInt 0
    end /\
    n_fn T [answer_of T (n_fn T [h])] = Ok s /\
    isnumber_fn T [answer_of T (n_fn T [h])] = Ok (SBool (negb (is_sort T KError v))).
Proof.
  intros T h v L. unfold n_fn, isnumber_fn, ask. rewrite L. cbn [rbind].
  exists (n_answer T v). destruct v as [[a|z|b|s|e| |a d|]|g]; repeat split.
Qed.
Theorem C198_t : forall T h v, literal_of T h = Ok v ->
  exists s, t_fn T [h] = Ok s /\
    match v with VS (SText x) => s = SText x | VS (SErr e) => s = SErr e | _ => s = SText [] end /\
    t_fn T [answer_of T (t_fn T [h])] = Ok s /\
    istext_fn T [answer_of T (t_fn T [h])] = Ok (SBool (negb (is_sort T KError v))).
Proof.
  intros T h v L. unfold t_fn, istext_fn, ask. rewrite L. cbn [rbind].
  exists (t_answer T v). destruct v as [[a|z|b|s|e| |a d|]|g]; repeat split.
Qed.
(** One of N and T of a value that is no error is nothing: 0 or the empty text. *)
Theorem C198_n_or_t : forall T h v, literal_of T h = Ok v -> sort_of T v <> KError ->
  n_fn T [h] = Ok (SInt 0) \/ t_fn T [h] = Ok (SText []).
Proof.
  intros T h v L K. unfold n_fn, t_fn, ask. rewrite L. destruct v as [[a|z|b|s|e| |a d|]|g]; cbn in *; auto.
  contradiction.
Qed.
(** Of a range of more than one cell N and T are not those of its first cell. *)
Theorem C198_range_refuted : forall T, exists (s t : scalar T) r,
  literal_of T (HRange T (Ok r)) = Ok (VA (g_cells r)) /\ g_cells r = [[s; t]] /\
  n_fn T [HCell T (Ok s)] = Ok (SInt 7) /\ n_fn T [HRange T (Ok r)] = Ok (SInt 0) /\
  t_fn T [HCell T (Ok t)] = Ok (SText [97%N]) /\
  t_fn T [HRange T (Ok (mkRange false 0 0 [[t; s]]))] = Ok (SText []).
Proof. intros T. exists (SInt 7), (SText [97%N]), (mkRange false 0 0 [[SInt 7; SText [97%N]]]). repeat split. Qed.
Theorem C198_failure : forall T h e, literal_of T h = Err e ->
  type_fn T [h] = Err e /\ n_fn T [h] = Err e /\ t_fn T [h] = Err e /\ error_type_fn T [h] = Err e.
Proof. intros T h e L. unfold type_fn, n_fn, t_fn, error_type_fn, ask. rewrite L. repeat split. Qed.
Example C198_ex : literal_of Z (given Z (VS (SBool true))) = Ok (VS (SBool true)) /\ sort_of Z (VS (SBool true)) <> KError /\
  n_fn Z [given Z (VS (SBool true))] = Ok (SInt 1).
Proof. repeat split. discriminate. Qed.

(** ** C199: ISEVEN and ISODD *)
Lemma rem_even : forall z, (Z.rem z 2 =? 0)%Z = Z.even z.
Proof.
  intros z. pose proof (Z.quot_rem' z 2). pose proof (Zeven_mod z).
  destruct (Z.even z) eqn:E.
  - apply Z.even_spec in E. destruct E as [k E]. apply Z.eqb_eq. apply Z.rem_divide; [lia|]. exists k. lia.
  - apply Z.eqb_neq. intros R. rewrite R in H. assert (Z.even z = true); [|congruence]. apply Z.even_spec. exists (Z.quot z 2). lia.
Qed.
(** The number an argument stands for. *)
Definition stands_for (T : Type) (of_int : Z -> T) (v : value T) : option T :=
  match v with
  | VS (SNum x) => Some x
  | VS (SInt z) => Some (of_int z)
  | VS (SBool b) => Some (of_int (Z.b2z b))
  | _ => None
  end.
Theorem C199_parity_partial : forall T of_int trunc h v x, literal_of T h = Ok v -> stands_for T of_int v = Some x ->
  iseven_fn T of_int trunc [h] = Ok (SBool (Z.even (trunc x))) /\ isodd_fn T of_int trunc [h] = Ok (SBool (Z.odd (trunc x))).
Proof.
  intros T of_int trunc h v x L F. unfold iseven_fn, isodd_fn, ask. rewrite L. cbn [rbind].
  unfold even_answer, odd_answer. rewrite <- Z.negb_even.
  destruct v as [[a|z|b|s|e| |a d|]|g]; cbn in F; try discriminate; injection F as <-; cbn [parity_of]; rewrite ?rem_even; auto.
Qed.
(** One of the two, always, and the other for the next whole number. *)
Theorem C199_next_partial : forall T (of_int : Z -> T) (trunc : T -> Z) z, trunc (of_int z) = z -> trunc (of_int (z + 1)%Z) = (z + 1)%Z ->
  forall h h', literal_of T h = Ok (VS (SInt z)) -> literal_of T h' = Ok (VS (SInt (z + 1)%Z)) ->
  iseven_fn T of_int trunc [h] = Ok (SBool (Z.even z)) /\
  isodd_fn T of_int trunc [h] = Ok (SBool (negb (Z.even z))) /\
  iseven_fn T of_int trunc [h'] = isodd_fn T of_int trunc [h].
Proof.
  intros T of_int trunc z E E' h h' L L'.
  destruct (C199_parity_partial T of_int trunc h _ _ L eq_refl) as [A B].
  destruct (C199_parity_partial T of_int trunc h' _ _ L' eq_refl) as [A' B'].
  rewrite A, B, A', E, E'. rewrite Z.add_1_r, Z.even_succ, Z.negb_even. auto.
Qed.
Theorem C199_others : forall T of_int trunc h v, literal_of T h = Ok v -> stands_for T of_int v = None ->
  exists e, iseven_fn T of_int trunc [h] = Ok (SErr e) /\ isodd_fn T of_int trunc [h] = Ok (SErr e) /\
  (forall k, v = VS (SErr k) -> e = k) /\ (sort_of T v <> KError -> e = K_VALUE).
Proof.
  intros T of_int trunc h v L F. unfold iseven_fn, isodd_fn, ask. rewrite L.
  destruct v as [[a|z|b|s|e| |a d|]|g]; cbn in *; try discriminate; (eexists; split; [reflexivity|]; split; [reflexivity|]);
    (split; [intros k H; try discriminate; now injection H|]); auto. contradiction.
Qed.
Theorem C199_failure : forall T of_int trunc h e hs, literal_of T h = Err e -> List.length hs <> 1%nat ->
  iseven_fn T of_int trunc [h] = Err e /\ isodd_fn T of_int trunc [h] = Err e /\
  iseven_fn T of_int trunc hs = Ok (SErr K_VALUE) /\ isodd_fn T of_int trunc hs = Ok (SErr K_VALUE).
Proof.
  intros T of_int trunc h e hs L N. unfold iseven_fn, isodd_fn, ask. rewrite L.
  destruct hs as [|a [|b hs]]; cbn in N; [|lia|]; repeat split.
Qed.
(** f64 on the whole numbers: up to 2^53 the parity is right, ... *)
Lemma round53_small : forall z, (Z.abs z < 2 ^ 53)%Z -> round53 z = z.
Proof.
  intros z H. unfold round53. cbv zeta.
  assert (E : Z.max 0 (Z.log2 (Z.abs z) - 52) = 0%Z).
  { destruct (Z.eq_dec z 0) as [->|N]; [reflexivity|].
    assert (Z.log2 (Z.abs z) < 53)%Z by (apply Z.log2_lt_pow2; lia). lia. }
  rewrite E. change (2 ^ 0)%Z with 1%Z. rewrite Z.div_1_r, Z.mod_1_r. cbn [Z.mul].
  change (1 <? 0)%Z with false. change (0 =? 1)%Z with false. cbn [orb andb]. lia.
Qed.
Theorem C199_whole_partial : forall h z, (Z.abs z < 2 ^ 53)%Z -> literal_of Z h = Ok (VS (SInt z)) ->
  iseven_fn Z round53 cast64 [h] = Ok (SBool (Z.even z)) /\ isodd_fn Z round53 cast64 [h] = Ok (SBool (Z.odd z)).
Proof.
  intros h z B L. destruct (C199_parity_partial Z round53 cast64 h _ _ L eq_refl) as [A C].
  rewrite A, C, (round53_small z B). assert (E : cast64 z = z) by (unfold cast64; lia). now rewrite E.
Qed.
(** ... above it an odd whole number can count as even, and from 2^63 on powers of two as odd. *)
Theorem C199_large_refuted :
  Z.Odd (2 ^ 53 + 1) /\ iseven_fn Z round53 cast64 [given Z (VS (SInt (2 ^ 53 + 1)))] = Ok (SBool true) /\
  (forall k, (0 <= k)%Z -> isodd_fn Z round53 cast64 [given Z (VS (SNum (2 ^ (63 + k)))%Z)] = Ok (SBool true) /\ Z.Even (2 ^ (63 + k))).
Proof.
  split; [exists (2 ^ 52)%Z; reflexivity|]. split; [vm_compute; reflexivity|]. intros k Hk.
  assert (P : (2 ^ (63 + k) = 2 ^ 63 * 2 ^ k)%Z) by (apply Z.pow_add_r; lia).
  assert (Q : (0 < 2 ^ k)%Z) by (apply Z.pow_pos_nonneg; lia). split.
  - destruct (C199_parity_partial Z round53 cast64 (given Z (VS (SNum (2 ^ (63 + k))%Z))) _ _ eq_refl eq_refl) as [_ E].
    rewrite E. assert (C : cast64 (2 ^ (63 + k)) = (2 ^ 63 - 1)%Z) by (rewrite P; unfold cast64; lia). rewrite C. reflexivity.
  - exists (2 ^ 62 * 2 ^ k)%Z. rewrite P. lia.
Qed.
(** A date is a number, a blank cell counts as 0 in arithmetic: neither has a parity. *)
Theorem C199_dates_refuted : forall T of_int trunc a d, exists h h',
  isnumber_fn T [h] = Ok (SBool true) /\ n_fn T [h] = Ok (SNum d) /\ literal_of T h = Ok (VS (SDate a d)) /\
  iseven_fn T of_int trunc [h] = Ok (SErr K_VALUE) /\ n_fn T [h'] = Ok (SInt 0) /\ iseven_fn T of_int trunc [h'] = Ok (SErr K_VALUE).
Proof. intros T of_int trunc a d. exists (given T (VS (SDate a d))), (given T (VS SEmpty)). repeat split. Qed.
Example C199_ex : (Z.abs (-3) < 2 ^ 53)%Z /\ literal_of Z (given Z (VS (SInt (-3)))) = Ok (VS (SInt (-3))) /\
  round53 (2 ^ 53 + 1) = (2 ^ 53)%Z /\ round53 (2 ^ 53 + 3) = (2 ^ 53 + 4)%Z /\
  cast64 (round53 (-3)) = (-3)%Z /\ isodd_fn Z round53 cast64 [given Z (VS (SInt (-3)))] = Ok (SBool true) /\
  stands_for Z round53 (VS (SText [97%N])) = None.
Proof. repeat split. Qed.

(** ** C200: ERROR.TYPE *)
(** The numbers of Excel for the errors it has. *)
Theorem C200_numbers : map error_type_code [0; 4; 3; 1; 2; 6; 5]%N = [1; 2; 3; 4; 5; 6; 7]%Z /\
  (forall k, (1 <= error_type_code k <= 13)%Z) /\
  (forall k, (k <= 12)%N -> (error_type_code k <= 7 <-> (k <= 6)%N)%Z).
Proof.
  split; [reflexivity|]. split.
  - intros k. destruct k as [|p]; [cbn; lia|]. destruct p as [[[[p|p|]|[p|p|]|]|[[p|p|]|[p|p|]|]|]|[[[p|p|]|[p|p|]|]|[[p|p|]|[p|p|]|]|]|]; cbn; lia.
  - intros k H. assert (In k (map N.of_nat (seq 0 13))) as I.
    { apply in_map_iff. exists (N.to_nat k). split; [lia|]. apply in_seq. lia. }
    cbn in I. repeat (destruct I as [<-|I]; [cbn; lia|]). contradiction.
Qed.
Theorem C200_tells_apart : forall j k, (j <= 12)%N -> (k <= 12)%N -> error_type_code j = error_type_code k -> j = k.
Proof.
  intros j k Hj Hk. assert (A : forall k, (k <= 12)%N -> In k (map N.of_nat (seq 0 13))).
  { intros i H. apply in_map_iff. exists (N.to_nat i). split; [lia|]. apply in_seq. lia. }
  apply A in Hj. apply A in Hk. cbn in Hj, Hk.
  repeat (destruct Hj as [<-|Hj]; [repeat (destruct Hk as [<-|Hk]; [cbn; (reflexivity || discriminate)|]); contradiction|]).
  contradiction.
Qed.
Theorem C200_error_type : forall T h v, literal_of T h = Ok v ->
  match v with
  | VS (SErr e) => error_type_fn T [h] = Ok (SInt (error_type_code e))
  | _ => error_type_fn T [h] = Ok (SErr K_NA)
  end /\
  isnumber_fn T [answer_of T (error_type_fn T [h])] = iserror_fn T [h].
Proof.
  intros T h v L. unfold error_type_fn, isnumber_fn, iserror_fn, ask. rewrite L.
  destruct v as [[a|z|b|s|e| |a d|]|g]; split; reflexivity.
Qed.
Example C200_ex : literal_of Z (given Z (VS (SErr 11%N))) = Ok (VS (SErr 11%N)) /\
  error_type_fn Z [given Z (VS (SErr 11%N))] = Ok (SInt 12) /\ (11 <= 12)%N.
Proof. repeat split. discriminate. Qed.
Print Assumptions C196_one_kind.
Print Assumptions C196_errors.
Print Assumptions C196_na.
Print Assumptions C196_failure.
Print Assumptions C196_iserror_refuted.
Print Assumptions C196_arity.
Print Assumptions C197_iferror_partial.
Print Assumptions C197_ifna_partial.
Print Assumptions C197_failure_refuted.
Print Assumptions C197_one_cell_refuted.
Print Assumptions C198_type_partial.
Print Assumptions C198_type_of_error_refuted.
Print Assumptions C198_n.
Print Assumptions C198_t.
Print Assumptions C198_n_or_t.
Print Assumptions C198_range_refuted.
Print Assumptions C198_failure.
Print Assumptions C199_parity_partial.
Print Assumptions C199_next_partial.
Print Assumptions C199_others.
Print Assumptions C199_failure.
Print Assumptions C199_whole_partial.
Print Assumptions C199_large_refuted.
Print Assumptions C199_dates_refuted.
Print Assumptions C200_numbers.
Print Assumptions C200_tells_apart.
Print Assumptions C200_error_type.
