(** Bit-field arithmetic on [N]: disjoint [lor] as sum, masked fields as [/] and [mod]. *)
From Verif Require Import Base.
Open Scope N_scope.

Lemma testbit_small b n m : b < 2 ^ n -> n <= m -> N.testbit b m = false.
Proof.
  intros Hb Hm. destruct (N.eq_dec b 0) as [->|Hz]; [apply N.bits_0|].
  apply N.bits_above_log2. apply N.log2_lt_pow2; [lia|].
  eapply N.lt_le_trans; [exact Hb|]. apply N.pow_le_mono_r; lia.
Qed.

Lemma land_shiftl_small a b n : b < 2 ^ n -> N.land (N.shiftl a n) b = 0.
Proof.
  intros Hb. apply N.bits_inj_iff; intros m. rewrite N.land_spec, N.bits_0.
  destruct (N.lt_ge_cases m n) as [H|H].
  - rewrite N.shiftl_spec_low by exact H. reflexivity.
  - rewrite (testbit_small b n m Hb H). apply andb_false_r.
Qed.

Lemma lor_disjoint_add a b : N.land a b = 0 -> N.lor a b = a + b.
Proof.
  intros H. rewrite (N.add_nocarry_lxor a b H). symmetry. apply N.lxor_lor. exact H.
Qed.

Lemma lor_shiftl_small a b n : b < 2 ^ n -> N.lor (N.shiftl a n) b = a * 2 ^ n + b.
Proof.
  intros Hb. rewrite lor_disjoint_add by (apply land_shiftl_small; exact Hb).
  rewrite N.shiftl_mul_pow2. reflexivity.
Qed.

Lemma shiftr_land_field x k n :
  N.shiftr (N.land x (N.shiftl (N.ones k) n)) n = (x / 2 ^ n) mod 2 ^ k.
Proof.
  rewrite N.shiftr_land, N.shiftr_shiftl_l by lia.
  rewrite N.sub_diag, N.shiftl_0_r, N.land_ones, N.shiftr_div_pow2. reflexivity.
Qed.

Lemma land_field x k n :
  N.land x (N.shiftl (N.ones k) n) = ((x / 2 ^ n) mod 2 ^ k) * 2 ^ n.
Proof.
  rewrite <- shiftr_land_field, <- N.shiftl_mul_pow2.
  apply N.bits_inj_iff; intros m. rewrite N.land_spec.
  destruct (N.lt_ge_cases m n) as [H|H].
  - rewrite !N.shiftl_spec_low by exact H. apply andb_false_r.
  - rewrite (N.shiftl_spec_high' _ _ m) by exact H.
    rewrite (N.shiftl_spec_high' (N.shiftr _ _) _ m) by exact H.
    rewrite N.shiftr_spec' . rewrite N.land_spec.
    replace (m - n + n) with m by lia.
    rewrite N.shiftl_spec_high' by exact H. reflexivity.
Qed.

Lemma land_field_0 x k n :
  N.land x (N.shiftl (N.ones k) n) = 0 <-> (x / 2 ^ n) mod 2 ^ k = 0.
Proof.
  rewrite land_field. rewrite N.eq_mul_0. split; [|tauto].
  intros [H|H]; [exact H|]. exfalso. apply (N.pow_nonzero 2 n); [lia|exact H].
Qed.
