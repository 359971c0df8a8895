(** More about C199: f64 on the whole numbers rounds to the nearest, ties to even. *)
From Verif Require Import Base InModel.
From Coq Require Import ZArith Lia Bool.
Local Open Scope Z_scope.

(** [w] is [z] rounded to a whole multiple of the unit [u]: nearest, and even on a tie. *)
Definition nearest (u z w : Z) : Prop :=
  exists k, w = k * u /\ 2 * Z.abs (w - z) <= u /\ (2 * Z.abs (w - z) = u -> Z.Even k).

(** An i64 turned into an f64 is the nearest multiple of the unit its 53 leading bits leave. *)
Theorem C199_rounding : forall z, nearest (2 ^ Z.max 0 (Z.log2 (Z.abs z) - 52)) z (round53 z) /\
  (2 ^ 53 <= Z.abs z -> 2 ^ 52 <= Z.abs z / 2 ^ (Z.log2 (Z.abs z) - 52) < 2 ^ 53).
Proof.
  intros z. split.
  - unfold round53. cbv zeta. set (a := Z.abs z). set (e := Z.max 0 (Z.log2 a - 52)). set (u := 2 ^ e).
    assert (U : 0 < u) by (apply Z.pow_pos_nonneg; lia).
    pose proof (Z.div_mod a u ltac:(lia)) as D. pose proof (Z.mod_pos_bound a u U) as R.
    set (q := a / u) in *. set (r := a mod u) in *.
    assert (S : z = Z.sgn z * a) by (unfold a; rewrite Z.mul_comm; symmetry; apply Z.abs_sgn).
    assert (K : forall k, 2 * Z.abs (k * u - a) <= u -> (2 * Z.abs (k * u - a) = u -> Z.Even k) -> nearest u z (Z.sgn z * k * u)).
    { intros k B E. exists (Z.sgn z * k). split; [reflexivity|].
      destruct (Z.sgn_spec z) as [[P Q]|[[P Q]|[P Q]]]; rewrite Q in *; unfold a in *.
      - replace (Z.abs (1 * k * u - z)) with (Z.abs (k * u - Z.abs z)) by (f_equal; lia). rewrite Z.mul_1_l. auto.
      - subst z. split; [cbn; lia|]. intros _. exists 0. lia.
      - replace (Z.abs (- (1) * k * u - z)) with (Z.abs (k * u - Z.abs z)) by (rewrite <- Z.abs_opp; f_equal; lia). split; [exact B|].
        intros T. destruct (E T) as [j ->]. exists (- j). lia. }
    clear S. apply K; destruct (Z.ltb_spec u (2 * r)), (Z.eqb_spec (2 * r) u), (Z.odd q) eqn:O; cbn [orb andb]; try nia.
    + intros _. apply Z.odd_spec in O as [j ->]. exists (j + 1). lia.
    + intros _. apply Z.even_spec. rewrite <- Z.negb_odd, O. reflexivity.
  - intros H. set (a := Z.abs z) in *. set (e := Z.log2 a - 52).
    pose proof (Z.log2_spec a ltac:(lia)) as [L1 L2]. assert (E : 53 <= Z.log2 a) by (apply Z.log2_le_pow2; lia).
    assert (A1 : 2 ^ Z.log2 a = 2 ^ 52 * 2 ^ e) by (rewrite <- Z.pow_add_r by lia; f_equal; lia).
    assert (A2 : 2 ^ Z.succ (Z.log2 a) = 2 ^ 53 * 2 ^ e) by (rewrite <- Z.pow_add_r by lia; f_equal; lia).
    assert (U : 0 < 2 ^ e) by (apply Z.pow_pos_nonneg; lia). split.
    + apply Z.div_le_lower_bound; lia.
    + apply Z.div_lt_upper_bound; lia.
Qed.
Print Assumptions C199_rounding.
Example C199_rounding_example : nearest 2 (2 ^ 53 + 3) (2 ^ 53 + 4) /\ round53 (2 ^ 53 + 3) = 2 ^ 53 + 4 /\
  ~ nearest 2 (2 ^ 53 + 3) (2 ^ 53 + 2).
Proof.
  split; [exists (2 ^ 52 + 2); split; [reflexivity|]; split; [cbn; lia|]; intros _; exists (2 ^ 51 + 1); reflexivity|].
  split; [reflexivity|]. intros (k & A & _ & T). specialize (T eq_refl). destruct T as [j ->]. lia.
Qed.
