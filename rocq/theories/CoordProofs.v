From Verif Require Import Base BitLemmas CoordModel CoordSpec.
From Coq Require Import ZifyBool ZifyN ZifyNat.
Ltac Zify.zify_post_hook ::= Z.div_mod_to_equations.
Open Scope N_scope.

(** ** Packing *)

Definition flag (b : bool) (w : N) : N := if b then w else 0.

Lemma ROW_MASK_field : ROW_MASK = N.shiftl (N.ones 20) 24. Proof. reflexivity. Qed.
Lemma COL_MASK_field : COL_MASK = N.shiftl (N.ones 14) 10. Proof. reflexivity. Qed.
Lemma HIGH_field : RESERVED_HIGH_MASK = N.shiftl (N.ones 20) 44. Proof. reflexivity. Qed.
Lemma LOW_field : RESERVED_LOW_MASK = N.shiftl (N.ones 10) 0. Proof. reflexivity. Qed.
Lemma RLOW_field : RELATIVE_RESERVED_LOW_MASK = N.shiftl (N.ones 8) 2. Proof. reflexivity. Qed.
Lemma ROW_ABS_field : ROW_ABS_BIT = N.shiftl (N.ones 1) 0. Proof. reflexivity. Qed.
Lemma COL_ABS_field : COL_ABS_BIT = N.shiftl (N.ones 1) 1. Proof. reflexivity. Qed.

Definition pack (row col : N) (ra ca : bool) : N :=
  row * 16777216 + col * 1024 + flag ca 2 + flag ra 1.

Lemma pack_plain row col : row <= ROW_MAX -> col <= COL_MAX ->
  N.lor (N.shiftl row ROW_SHIFT) (N.shiftl col COL_SHIFT) = row * 16777216 + col * 1024.
Proof.
  intros Hr Hc. unfold ROW_SHIFT, COL_SHIFT, ROW_MAX, COL_MAX in *.
  rewrite lor_shiftl_small; rewrite N.shiftl_mul_pow2; change (2 ^ 10) with 1024;
    change (2 ^ 24) with 16777216; lia.
Qed.

Lemma rcoord_new_ok row col ra ca : row <= ROW_MAX -> col <= COL_MAX ->
  rcoord_new row col ra ca = Ok (pack row col ra ca).
Proof.
  intros Hr Hc. unfold rcoord_new.
  rewrite (proj2 (N.leb_le _ _) Hr), (proj2 (N.leb_le _ _) Hc). cbn [negb].
  rewrite pack_plain by assumption.
  unfold pack, flag, ROW_ABS_BIT, COL_ABS_BIT. f_equal.
  assert (H1 : N.lor (row * 16777216 + col * 1024) 1 = row * 16777216 + col * 1024 + 1).
  { replace (row * 16777216 + col * 1024) with (N.shiftl (row * 16384 + col) 10)
      by (rewrite N.shiftl_mul_pow2; change (2^10) with 1024; lia).
    rewrite lor_shiftl_small by reflexivity. rewrite N.shiftl_mul_pow2. reflexivity. }
  assert (H2 : N.lor (row * 16777216 + col * 1024) 2 = row * 16777216 + col * 1024 + 2).
  { replace (row * 16777216 + col * 1024) with (N.shiftl (row * 16384 + col) 10)
      by (rewrite N.shiftl_mul_pow2; change (2^10) with 1024; lia).
    rewrite lor_shiftl_small by reflexivity. rewrite N.shiftl_mul_pow2. reflexivity. }
  destruct ra, ca; try lia.
  rewrite <- N.lor_assoc. change (N.lor 1 2) with 3.
  replace (row * 16777216 + col * 1024) with (N.shiftl (row * 16384 + col) 10)
    by (rewrite N.shiftl_mul_pow2; change (2^10) with 1024; lia).
  rewrite lor_shiftl_small by reflexivity. rewrite N.shiftl_mul_pow2. change (2^10) with 1024. lia.
Qed.

Lemma rcoord_new_panic row col ra ca : ~ (row <= ROW_MAX /\ col <= COL_MAX) ->
  rcoord_new row col ra ca = Panic.
Proof.
  intros H. unfold rcoord_new.
  destruct (N.leb_spec row ROW_MAX); [|reflexivity].
  destruct (N.leb_spec col COL_MAX); [|reflexivity]. exfalso; tauto.
Qed.

Lemma coord_new_ok row col : row <= ROW_MAX -> col <= COL_MAX ->
  coord_new row col = Ok (pack row col false false).
Proof.
  intros Hr Hc. unfold coord_new.
  rewrite (proj2 (N.leb_le _ _) Hr), (proj2 (N.leb_le _ _) Hc). cbn [negb].
  rewrite pack_plain by assumption. unfold pack, flag. f_equal; lia.
Qed.

Lemma row_field_spec w : trunc_u32 (N.shiftr (N.land w ROW_MASK) ROW_SHIFT) = (w / 16777216) mod 1048576.
Proof.
  rewrite ROW_MASK_field. unfold ROW_SHIFT. rewrite shiftr_land_field.
  change (2^24) with 16777216. change (2^20) with 1048576.
  unfold trunc_u32. apply N.mod_small. unfold U32. change (2^32) with 4294967296.
  pose proof (N.mod_lt (w / 16777216) 1048576). lia.
Qed.
Lemma col_field_spec w : trunc_u32 (N.shiftr (N.land w COL_MASK) COL_SHIFT) = (w / 1024) mod 16384.
Proof.
  rewrite COL_MASK_field. unfold COL_SHIFT. rewrite shiftr_land_field.
  change (2^10) with 1024. change (2^14) with 16384.
  unfold trunc_u32. apply N.mod_small. unfold U32. change (2^32) with 4294967296.
  pose proof (N.mod_lt (w / 1024) 16384). lia.
Qed.
Lemma row_abs_spec w : rcoord_row_abs w = negb (w mod 2 =? 0).
Proof.
  unfold rcoord_row_abs. f_equal. rewrite ROW_ABS_field, land_field.
  change (2^0) with 1. change (2^1) with 2. rewrite N.div_1_r, N.mul_1_r. reflexivity.
Qed.
Lemma col_abs_spec w : rcoord_col_abs w = negb ((w / 2) mod 2 =? 0).
Proof.
  unfold rcoord_col_abs. f_equal. rewrite COL_ABS_field, land_field.
  change (2^1) with 2. pose proof (N.mod_lt (w/2) 2). lia.
Qed.

Lemma unpack_pack row col ra ca : row <= ROW_MAX -> col <= COL_MAX ->
  rcoord_row (pack row col ra ca) = row /\ rcoord_col (pack row col ra ca) = col /\
  rcoord_row_abs (pack row col ra ca) = ra /\ rcoord_col_abs (pack row col ra ca) = ca.
Proof.
  intros Hr Hc. unfold ROW_MAX, COL_MAX in *.
  unfold rcoord_row, rcoord_col. rewrite row_field_spec, col_field_spec, row_abs_spec, col_abs_spec.
  unfold pack, flag. destruct ra, ca; repeat split; lia.
Qed.

Lemma pack_bound row col ra ca : row <= ROW_MAX -> col <= COL_MAX ->
  pack row col ra ca < 17592186044416.
Proof. unfold pack, flag, ROW_MAX, COL_MAX; destruct ra, ca; lia. Qed.

(** ** Raw words *)

Lemma coord_reserved_clear raw :
  N.land raw coord_RESERVED_MASK = 0 <->
  (raw / 17592186044416) mod 1048576 = 0 /\ raw mod 1024 = 0.
Proof.
  unfold coord_RESERVED_MASK. rewrite N.land_lor_distr_r, N.lor_eq_0_iff.
  rewrite HIGH_field, LOW_field, !land_field_0.
  change (2^44) with 17592186044416. change (2^20) with 1048576.
  change (2^0) with 1. change (2^10) with 1024. rewrite N.div_1_r. reflexivity.
Qed.

Lemma rcoord_reserved_clear raw :
  N.land raw rcoord_RESERVED_MASK = 0 <->
  (raw / 17592186044416) mod 1048576 = 0 /\ (raw / 4) mod 256 = 0.
Proof.
  unfold rcoord_RESERVED_MASK. rewrite N.land_lor_distr_r, N.lor_eq_0_iff.
  rewrite HIGH_field, RLOW_field, !land_field_0.
  change (2^44) with 17592186044416. change (2^20) with 1048576.
  change (2^2) with 4. change (2^8) with 256. reflexivity.
Qed.

Lemma coord_from_raw_iff raw c : raw < U64 ->
  (coord_from_raw raw = Ok c <->
   c = raw /\ (raw = U64_MAX \/ exists row col, row <= ROW_MAX /\ col <= COL_MAX /\
                                               raw = pack row col false false)).
Proof.
  intros Hraw. unfold U64 in Hraw. change (2^64) with 18446744073709551616 in Hraw.
  unfold coord_from_raw, coord_INVALID.
  destruct (N.eqb_spec raw U64_MAX) as [->|Hne].
  - split; [intros H; inversion H; auto | intros [-> _]; reflexivity].
  - destruct (N.eqb_spec (N.land raw coord_RESERVED_MASK) 0) as [H0|H0]; cbn [negb].
    + apply coord_reserved_clear in H0. destruct H0 as [Hh Hl]. split.
      * intros H; inversion H; subst c. split; [reflexivity|]. right.
        exists (raw / 16777216), ((raw / 1024) mod 16384).
        unfold ROW_MAX, COL_MAX, pack, flag. repeat split; lia.
      * intros [-> _]. reflexivity.
    + split; [discriminate|]. intros [-> [H|(row & col & Hr & Hc & H)]]; [contradiction|].
      exfalso. apply H0. apply coord_reserved_clear. rewrite H.
      unfold pack, flag, ROW_MAX, COL_MAX in *. split; lia.
Qed.

Lemma rcoord_from_raw_iff raw c : raw < U64 ->
  (rcoord_from_raw raw = Ok c <->
   c = raw /\ exists row col ra ca, row <= ROW_MAX /\ col <= COL_MAX /\ raw = pack row col ra ca).
Proof.
  intros Hraw. unfold U64 in Hraw. change (2^64) with 18446744073709551616 in Hraw.
  unfold rcoord_from_raw.
  destruct (N.eqb_spec (N.land raw rcoord_RESERVED_MASK) 0) as [H0|H0]; cbn [negb].
  - apply rcoord_reserved_clear in H0. destruct H0 as [Hh Hl]. split.
    + intros H; inversion H; subst c. split; [reflexivity|].
      exists (raw / 16777216), ((raw / 1024) mod 16384),
        (negb (raw mod 2 =? 0)), (negb ((raw / 2) mod 2 =? 0)).
      unfold ROW_MAX, COL_MAX, pack, flag. split; [lia|]. split; [lia|].
      destruct (N.eqb_spec (raw mod 2) 0), (N.eqb_spec ((raw / 2) mod 2) 0); cbn [negb]; lia.
    + intros [-> _]. reflexivity.
  - split; [discriminate|]. intros [-> (row & col & ra & ca & Hr & Hc & H)].
    exfalso. apply H0. apply rcoord_reserved_clear. rewrite H.
    unfold pack, flag, ROW_MAX, COL_MAX in *. destruct ra, ca; split; lia.
Qed.

(** ** Signed conversion *)
Lemma z_as_u32_small z : (0 <= z < 4294967296)%Z -> z_as_u32 z = Z.to_N z.
Proof. intros H. unfold z_as_u32. change (2^32)%Z with 4294967296%Z. rewrite Z.mod_small by lia. reflexivity. Qed.

Lemma coord_try_new_iff row col c :
  coord_try_new row col = Ok c <->
  row <= ROW_MAX /\ col <= COL_MAX /\ c = pack row col false false.
Proof.
  unfold coord_try_new.
  destruct (N.ltb_spec ROW_MAX row); [split; [discriminate|lia]|].
  destruct (N.ltb_spec COL_MAX col); [split; [discriminate|lia]|].
  rewrite coord_new_ok by assumption. split; [intros H1; inversion H1; auto|].
  intros (_ & _ & ->). reflexivity.
Qed.

Lemma rcoord_try_new_iff row col ra ca c :
  rcoord_try_new row col ra ca = Ok c <->
  row <= ROW_MAX /\ col <= COL_MAX /\ c = pack row col ra ca.
Proof.
  unfold rcoord_try_new.
  destruct (N.ltb_spec ROW_MAX row); [split; [discriminate|lia]|].
  destruct (N.ltb_spec COL_MAX col); [split; [discriminate|lia]|].
  rewrite rcoord_new_ok by assumption. split; [intros H1; inversion H1; auto|].
  intros (_ & _ & ->). reflexivity.
Qed.

(** ** Column letters *)
Lemma letter_value_upper b : is_ascii_upper b = true -> letter_value b = b - 64.
Proof. unfold is_ascii_upper, letter_value. intros H. destruct (N.leb_spec b 90); lia. Qed.

Lemma fold_col_app acc s1 s2 :
  fold_left (fun a b => a * 26 + letter_value b) (s1 ++ s2) acc =
  fold_left (fun a b => a * 26 + letter_value b) s2
    (fold_left (fun a b => a * 26 + letter_value b) s1 acc).
Proof. apply fold_left_app. Qed.

Fixpoint suffix_pow (s : list N) : N := match s with [] => 1 | _ :: r => 26 * suffix_pow r end.
Lemma fold_col_acc s acc :
  fold_left (fun a b => a * 26 + letter_value b) s acc =
  acc * suffix_pow s + fold_left (fun a b => a * 26 + letter_value b) s 0.
Proof.
  revert acc; induction s as [|x s IH]; intros acc; cbn [fold_left suffix_pow]; [lia|].
  rewrite IH. rewrite (IH (0 * 26 + letter_value x)). lia.
Qed.

Lemma suffix_pow_pos s : 1 <= suffix_pow s.
Proof. induction s; cbn [suffix_pow]; lia. Qed.

(** The loop produces the bijective base-26 numeral of [col + 1]. *)
Lemma col_letters_loop_spec fuel : forall col buf,
  col < 26 ^ N.of_nat (S fuel) ->
  exists pre, col_letters_loop (S fuel) col buf = Some (pre ++ buf) /\ upper_letters pre /\
    pre <> [] /\ column_value pre = col + 1.
Proof.
  induction fuel as [|fuel IH]; intros col buf Hf.
  - change (26 ^ N.of_nat 1) with 26 in Hf. cbn [col_letters_loop].
    replace (col / 26) with 0 by lia. cbn [N.eqb].
    exists [65 + col mod 26]. repeat split.
    + constructor; [lia|constructor].
    + discriminate.
    + unfold column_value, letter_value. cbn [fold_left]. destruct (N.leb_spec (65 + col mod 26) 90); lia.
  - remember (S fuel) as f1. cbn [col_letters_loop].
    destruct (N.eqb_spec (col / 26) 0) as [H0|H0].
    + exists [65 + col mod 26]. repeat split.
      * constructor; [lia|constructor].
      * discriminate.
      * unfold column_value, letter_value. cbn [fold_left]. destruct (N.leb_spec (65 + col mod 26) 90); lia.
    + assert (Hp : 26 ^ N.of_nat (S f1) = 26 * 26 ^ N.of_nat f1)
        by (rewrite Nat2N.inj_succ, N.pow_succ_r' ; reflexivity).
      rewrite Hp in Hf.
      set (q := 26 ^ N.of_nat f1) in *.
      destruct (IH (col / 26 - 1) ((65 + col mod 26) :: buf)) as (pre & E & Hu & Hn & Hv).
      { fold q. lia. }
      exists (pre ++ [65 + col mod 26]). repeat split.
      * rewrite E. rewrite <- app_assoc. reflexivity.
      * apply Forall_app. split; [exact Hu|]. constructor; [lia|constructor].
      * destruct pre; discriminate.
      * unfold column_value in *. rewrite fold_left_app, Hv. cbn [fold_left]. unfold letter_value.
        destruct (N.leb_spec (65 + col mod 26) 90); lia.
Qed.

Lemma column_to_letters_spec col : col < U32 ->
  exists l, column_to_letters col = Some l /\ upper_letters l /\ l <> [] /\ column_value l = col + 1.
Proof.
  intros H. destruct (col_letters_loop_spec 39 col []) as (pre & E & Hu & Hn & Hv).
  - eapply N.lt_le_trans; [exact H|]. vm_compute. discriminate.
  - exists pre. unfold column_to_letters. rewrite E, app_nil_r. auto.
Qed.

Lemma letter_range b : 65 <= b <= 90 \/ 97 <= b <= 122 -> 1 <= letter_value b <= 26.
Proof. unfold letter_value. intros H. destruct (N.leb_spec b 90); lia. Qed.

(** Column numerals are injective: a bijective numeration. *)
Lemma column_value_snoc s b : column_value (s ++ [b]) = column_value s * 26 + letter_value b.
Proof. unfold column_value. rewrite fold_left_app. reflexivity. Qed.

Lemma column_value_inj s1 : forall s2, upper_letters s1 -> upper_letters s2 ->
  column_value s1 = column_value s2 -> s1 = s2.
Proof.
  induction s1 as [|b1 s1 IH] using rev_ind; intros s2 H1 H2 E.
  - destruct s2 as [|b2 s2 _] using rev_ind; [reflexivity|].
    rewrite column_value_snoc in E. apply Forall_app in H2. destruct H2 as [_ H2].
    inversion H2; subst. pose proof (letter_range b2 ltac:(auto)). cbn in E. lia.
  - apply Forall_app in H1. destruct H1 as [H1 Hb1]. inversion Hb1 as [|? ? Hr1 _]; subst.
    destruct s2 as [|b2 s2 _] using rev_ind.
    + rewrite column_value_snoc in E. pose proof (letter_range b1 ltac:(auto)). cbn in E. lia.
    + rewrite !column_value_snoc in E. apply Forall_app in H2. destruct H2 as [H2 Hb2].
      inversion Hb2 as [|? ? Hr2 _]; subst.
      pose proof (letter_range b1 ltac:(auto)). pose proof (letter_range b2 ltac:(auto)).
      assert (letter_value b1 = letter_value b2) as Hl by lia.
      f_equal; [apply IH; auto; lia|].
      unfold letter_value in Hl. f_equal.
      destruct (N.leb_spec b1 90), (N.leb_spec b2 90); lia.
Qed.

Lemma to_upper_letter b : (65 <= b <= 90 \/ 97 <= b <= 122) <-> is_ascii_upper (to_ascii_upper b) = true.
Proof.
  unfold is_ascii_upper, to_ascii_upper, is_ascii_lower.
  destruct ((97 <=? b) && (b <=? 122)) eqn:E; lia.
Qed.
Lemma to_upper_value b : 65 <= b <= 90 \/ 97 <= b <= 122 ->
  to_ascii_upper b - 65 + 1 = letter_value b.
Proof.
  unfold to_ascii_upper, is_ascii_lower, letter_value. intros H.
  destruct ((97 <=? b) && (b <=? 122)) eqn:E, (N.leb_spec b 90); lia.
Qed.
Lemma is_alpha_iff b : is_ascii_alpha b = true <-> (65 <= b <= 90 \/ 97 <= b <= 122).
Proof. unfold is_ascii_alpha, is_ascii_upper, is_ascii_lower. lia. Qed.

(** What [letters_loop] computes, for every accumulator. *)
Lemma fold_col_ge s acc : acc <= fold_left (fun a b => a * 26 + letter_value b) s acc.
Proof. rewrite fold_col_acc. pose proof (suffix_pow_pos s). nia. Qed.

Lemma letters_loop_spec s : forall col c, s <> [] ->
  (letters_loop s col = Some c <->
   ascii_letters s /\ fold_left (fun a b => a * 26 + letter_value b) s col = c + 1 /\ c < U32).
Proof.
  induction s as [|b s IH]; intros col c Hn; [contradiction|]. clear Hn.
  cbn [letters_loop fold_left].
  destruct (is_ascii_upper (to_ascii_upper b)) eqn:Eu; cbn [negb].
  2:{ split; [discriminate|]. intros (Hl & _). inversion Hl as [|? ? Hb _]; subst.
      apply to_upper_letter in Hb. congruence. }
  apply to_upper_letter in Eu. pose proof (to_upper_value b Eu) as Hv.
  pose proof (letter_range b Eu) as Hr.
  set (v := to_ascii_upper b - 65) in *.
  unfold checked_u32.
  assert (Hbig : forall x, x <= col * 26 + letter_value b ->
            fold_left (fun a b => a * 26 + letter_value b) s (col * 26 + letter_value b) = c + 1 ->
            x <= c + 1).
  { intros x Hx E. rewrite <- E. etransitivity; [exact Hx|]. apply fold_col_ge. }
  destruct (N.ltb_spec (col * 26) U32) as [H1|H1].
  2:{ split; [discriminate|]. intros (_ & E & Hc). exfalso.
      specialize (Hbig (col * 26 + 1) ltac:(lia) E). lia. }
  destruct (N.ltb_spec (col * 26 + v) U32) as [H2|H2].
  2:{ split; [discriminate|]. intros (_ & E & Hc). exfalso.
      specialize (Hbig (col * 26 + letter_value b) ltac:(lia) E). lia. }
  destruct s as [|b2 s2].
  - cbn [letters_loop fold_left]. split.
    + intros E; inversion E; subst c. repeat split; [constructor; auto; constructor | lia | exact H2].
    + intros (_ & E & Hc). f_equal. lia.
  - destruct (N.ltb_spec (col * 26 + v + 1) U32) as [H3|H3].
    + replace (col * 26 + v + 1) with (col * 26 + letter_value b) by lia.
      rewrite IH by discriminate. split.
      * intros (Hl & E & Hc). repeat split; auto. constructor; auto.
      * intros (Hl & E & Hc). inversion Hl; subst. auto.
    + split; [discriminate|]. intros (Hl & E & Hc). exfalso.
      cbn [fold_left] in E. inversion Hl as [|? ? _ Hl2]; subst. inversion Hl2 as [|? ? Hb2 _]; subst.
      pose proof (letter_range b2 Hb2).
      pose proof (fold_col_ge s2 ((col * 26 + letter_value b) * 26 + letter_value b2)). lia.
Qed.

Lemma letters_to_column_index_iff s c :
  letters_to_column_index s = Some c <->
  s <> [] /\ ascii_letters s /\ column_value s = c + 1 /\ c < U32.
Proof.
  unfold letters_to_column_index. destruct s as [|b s].
  - split; [discriminate|]. intros (H & _). contradiction.
  - rewrite letters_loop_spec by discriminate. unfold column_value. intuition discriminate.
Qed.

Lemma upper_is_letters s : upper_letters s -> ascii_letters s.
Proof. apply Forall_impl. intros; auto. Qed.

Lemma column_value_upper s : ascii_letters s -> column_value (map to_ascii_upper s) = column_value s.
Proof.
  unfold column_value. generalize 0. induction s as [|b s IH]; intros acc H; [reflexivity|].
  inversion H as [|? ? Hb Hs]; subst. cbn [map fold_left]. rewrite IH by exact Hs. f_equal.
  pose proof (to_upper_value b Hb).
  assert (is_ascii_upper (to_ascii_upper b) = true) as Hu by (apply to_upper_letter; exact Hb).
  rewrite (letter_value_upper _ Hu). unfold is_ascii_upper in Hu. lia.
Qed.
Lemma upper_map s : ascii_letters s -> upper_letters (map to_ascii_upper s).
Proof.
  induction 1 as [|b s Hb Hs IH]; cbn; constructor; [|exact IH].
  apply to_upper_letter in Hb. unfold is_ascii_upper in Hb. lia.
Qed.

Lemma find_none_alpha s :
  find (fun b => negb (is_ascii_alpha b)) s = None <-> ascii_letters s.
Proof.
  induction s as [|b s IH]; cbn [find].
  - split; [constructor|reflexivity].
  - destruct (is_ascii_alpha b) eqn:E; cbn [negb].
    + rewrite IH. apply is_alpha_iff in E. split; [constructor; auto | intros H; inversion H; auto].
    + split; [discriminate|]. intros H; inversion H as [|? ? Hb _]; subst.
      apply is_alpha_iff in Hb. congruence.
Qed.

Lemma col_index_1based_iff s c :
  col_index_from_letters_1based s = Ok c <->
  s <> [] /\ ascii_letters s /\ column_value s = c /\ 1 <= c <= 16384.
Proof.
  unfold col_index_from_letters_1based. destruct s as [|b s].
  { split; [discriminate|]. intros (H & _). contradiction. }
  destruct (find (fun b0 => negb (is_ascii_alpha b0)) (b :: s)) eqn:Ef.
  { split; [discriminate|]. intros (_ & H & _). apply find_none_alpha in H. congruence. }
  apply find_none_alpha in Ef.
  destruct (letters_to_column_index (b :: s)) as [z|] eqn:El.
  - apply letters_to_column_index_iff in El. destruct El as (_ & _ & Ev & Hz).
    unfold COL_MAX. destruct (N.leb_spec z 16383).
    + split.
      * intros E; inversion E; subst. repeat split; try discriminate; auto; lia.
      * intros (_ & _ & E & _). f_equal. lia.
    + unfold checked_u32. destruct (z + 1 <? U32); (split; [discriminate|]);
        intros (_ & _ & E & Hc); lia.
  - split; [discriminate|]. intros (_ & _ & E & Hc). exfalso.
    assert (letters_to_column_index (b :: s) = Some (c - 1)) as Hx; [|congruence].
    apply letters_to_column_index_iff. repeat split; [discriminate|exact Ef|lia|].
    unfold U32. change (2^32) with 4294967296. lia.
Qed.

(** ** Decimal numerals *)
Definition decf (a b : N) : N := a * 10 + (b - 48).
Lemma fold_dec_ge s acc : acc <= fold_left decf s acc.
Proof. revert acc; induction s as [|b s IH]; intros acc; cbn [fold_left]; [lia|].
  etransitivity; [|apply IH]. unfold decf. lia. Qed.

Lemma parse_digits_iff s : forall acc v, acc < U32 ->
  (parse_digits s acc = Some v <-> fold_left decf s acc = v /\ v < U32).
Proof.
  induction s as [|b s IH]; intros acc v Ha; cbn [parse_digits fold_left].
  - split; [intros E; inversion E; subst; auto | intros [-> _]; reflexivity].
  - unfold checked_u32. fold (decf acc b). destruct (N.ltb_spec (decf acc b) U32) as [H|H].
    + apply IH. exact H.
    + split; [discriminate|]. intros [E Hv]. pose proof (fold_dec_ge s (decf acc b)). lia.
Qed.

Lemma dec_loop_spec fuel : forall n acc, n < 10 ^ N.of_nat (S fuel) ->
  exists ds, dec_loop (S fuel) n acc = ds ++ acc /\ ascii_digits ds /\ ds <> [] /\ decimal_value ds = n.
Proof.
  induction fuel as [|fuel IH]; intros n acc Hn.
  - change (10 ^ N.of_nat 1) with 10 in Hn. cbn [dec_loop]. exists [48 + n mod 10].
    replace (n / 10) with 0 by lia. cbn [N.eqb]. repeat split.
    + constructor; [lia|constructor].
    + discriminate.
    + unfold decimal_value; cbn [fold_left]. lia.
  - remember (S fuel) as f1. cbn [dec_loop]. destruct (N.eqb_spec (n / 10) 0) as [H0|H0].
    + exists [48 + n mod 10]. repeat split.
      * constructor; [lia|constructor].
      * discriminate.
      * unfold decimal_value; cbn [fold_left]. lia.
    + assert (Hp : 10 ^ N.of_nat (S f1) = 10 * 10 ^ N.of_nat f1)
        by (rewrite Nat2N.inj_succ, N.pow_succ_r'; reflexivity).
      rewrite Hp in Hn. set (q := 10 ^ N.of_nat f1) in *.
      destruct (IH (n / 10) ((48 + n mod 10) :: acc)) as (ds & E & Hd & Hne & Hv); [fold q; lia|].
      exists (ds ++ [48 + n mod 10]). repeat split.
      * rewrite E, <- app_assoc. reflexivity.
      * apply Forall_app; split; [exact Hd|]. constructor; [lia|constructor].
      * destruct ds; discriminate.
      * unfold decimal_value in *. rewrite fold_left_app, Hv. cbn [fold_left]. lia.
Qed.

Lemma show_u32_spec n : n < 10 ^ 20 ->
  ascii_digits (show_u32 n) /\ show_u32 n <> [] /\ decimal_value (show_u32 n) = n.
Proof.
  intros H. destruct (dec_loop_spec 19 n []) as (ds & E & Hd & Hne & Hv); [exact H|].
  unfold show_u32. rewrite E, app_nil_r. auto.
Qed.

(** ** A1 parsing *)
Lemma span_forall {A} (p : A -> bool) l a b :
  span p l = (a, b) -> l = a ++ b /\ Forall (fun x => p x = true) a /\
                        match b with [] => True | x :: _ => p x = false end.
Proof.
  revert a b; induction l as [|x l IH]; intros a b E; cbn [span] in E.
  - inversion E; subst. repeat split; constructor.
  - destruct (p x) eqn:Ep.
    + destruct (span p l) as [a' b'] eqn:Es. inversion E; subst.
      destruct (IH a' b eq_refl) as (-> & Hf & Hb). repeat split; auto.
    + inversion E; subst. repeat split; auto.
Qed.

Lemma span_app {A} (p : A -> bool) a b :
  Forall (fun x => p x = true) a -> match b with [] => True | x :: _ => p x = false end ->
  span p (a ++ b) = (a, b).
Proof.
  induction 1 as [|x a Hx Ha IH]; intros Hb; cbn [app span].
  - destruct b as [|y b]; [reflexivity|]. cbn [span]. rewrite Hb. reflexivity.
  - rewrite Hx, IH by exact Hb. reflexivity.
Qed.

Lemma letters_alpha s : ascii_letters s <-> Forall (fun x => is_ascii_alpha x = true) s.
Proof. unfold ascii_letters. rewrite !Forall_forall. setoid_rewrite is_alpha_iff. reflexivity. Qed.
Lemma digit_iff b : is_ascii_digit b = true <-> 48 <= b <= 57.
Proof. unfold is_ascii_digit. lia. Qed.
Lemma digits_digit s : ascii_digits s <-> Forall (fun x => is_ascii_digit x = true) s.
Proof. unfold ascii_digits. rewrite !Forall_forall. setoid_rewrite digit_iff. reflexivity. Qed.

(** The part of the parser after the leading marker. *)
Definition parse_tail (col_abs : bool) (s1 : list N) : res a1_error (N * N * bool * bool) :=
  let '(letters, s2) := span is_ascii_alpha s1 in
  match letters with
  | [] => Err MissingColumn
  | _ =>
      let '(row_abs, s3) :=
        match s2 with
        | b :: tl => if b =? 36 then (true, tl) else (false, s2)
        | [] => (false, s2)
        end in
      match s3 with
      | [] => Err MissingRow
      | first :: _ =>
          let '(digits, s4) := span is_ascii_digit s3 in
          match digits with
          | [] => if first =? 0 then Err MissingRow else Err (InvalidRowChar first)
          | _ =>
              match s4 with
              | _ :: _ => Err (TrailingCharacters s4)
              | [] =>
                  rbind (col_index_from_letters_1based letters) (fun col =>
                    match parse_digits digits 0 with
                    | None => Err (RowOutOfRange (ROW_MAX_1BASED + 1))
                    | Some row =>
                        if (row =? 0) || (ROW_MAX_1BASED <? row)
                        then Err (RowOutOfRange row)
                        else Ok (row, col, row_abs, col_abs)
                    end)
              end
          end
      end
  end.

Lemma parse_a1_unfold input :
  parse_a1_components input =
  match input with
  | [] => Err A1Empty
  | b0 :: tl0 =>
      if b0 =? 36 then match tl0 with [] => Err MissingColumn | _ => parse_tail true tl0 end
      else parse_tail false input
  end.
Proof.
  destruct input as [|b0 tl0]; [reflexivity|]. unfold parse_a1_components.
  destruct (b0 =? 36); [destruct tl0|]; reflexivity.
Qed.

Definition tail_reference (s : list N) (row col : N) (ra : bool) : Prop :=
  exists letters digits,
    s = letters ++ dollar ra ++ digits /\
    letters <> [] /\ ascii_letters letters /\ column_value letters = col /\
    digits <> [] /\ ascii_digits digits /\ decimal_value digits = row /\
    1 <= row <= 1048576 /\ 1 <= col <= 16384.

Lemma parse_tail_iff ca s row col ra ca' :
  parse_tail ca s = Ok (row, col, ra, ca') <-> ca' = ca /\ tail_reference s row col ra.
Proof.
  unfold parse_tail. split.
  - destruct (span is_ascii_alpha s) as [letters s2] eqn:Es.
    apply span_forall in Es. destruct Es as (-> & Hl & Hs2).
    destruct letters as [|l0 letters]; [discriminate|].
    set (L := l0 :: letters) in *.
    assert (HL : L <> []) by discriminate. clearbody L.
    destruct (match s2 with
        | b :: tl => if b =? 36 then (true, tl) else (false, s2)
        | [] => (false, s2)
        end) as [ra0 s3] eqn:E3.
    assert (Es2 : s2 = dollar ra0 ++ s3).
    { destruct s2 as [|b tl]; [inversion E3; reflexivity|].
      destruct (N.eqb_spec b 36) as [->|]; inversion E3; reflexivity. }
    destruct s3 as [|f0 f1] eqn:Ef3; [discriminate|].
    destruct (span is_ascii_digit (f0 :: f1)) as [digits s4] eqn:Ed.
    apply span_forall in Ed. destruct Ed as (Ed & Hd & Hs4).
    destruct digits as [|d0 digits]; [destruct (f0 =? 0); discriminate|].
    destruct s4; [|discriminate]. rewrite app_nil_r in Ed.
    set (D := d0 :: digits) in *. assert (HD : D <> []) by discriminate. clearbody D.
    destruct (col_index_from_letters_1based L) as [c| |] eqn:Ec; cbn [rbind]; try discriminate.
    apply col_index_1based_iff in Ec. destruct Ec as (_ & HLa & Hcv & Hc).
    destruct (parse_digits D 0) as [r|] eqn:Er; [|discriminate].
    apply parse_digits_iff in Er; [|reflexivity]. destruct Er as [Er _].
    unfold ROW_MAX_1BASED, ROW_MAX.
    destruct (N.eqb_spec r 0); [discriminate|]. cbn [orb].
    destruct (N.ltb_spec (1048575 + 1) r); [discriminate|].
    intros E; inversion E; subst row col ra ca'. split; [reflexivity|].
    exists L, D. rewrite Es2, Ed. repeat split; auto; try lia.
    apply digits_digit; exact Hd.
  - intros [-> (L & D & -> & HL & HLa & Hcv & HD & HDd & Hdv & Hr & Hc)].
    rewrite (span_app is_ascii_alpha L (dollar ra ++ D)).
    2:{ apply letters_alpha; exact HLa. }
    2:{ destruct ra; cbn [dollar app]; [reflexivity|]. destruct D as [|d D]; [exact I|].
        inversion HDd; subst. unfold is_ascii_alpha, is_ascii_upper, is_ascii_lower. lia. }
    destruct L as [|l0 L0]; [contradiction|]. set (L := l0 :: L0) in *.
    assert (E3 : match dollar ra ++ D with
        | b :: tl => if b =? 36 then (true, tl) else (false, dollar ra ++ D)
        | [] => (false, dollar ra ++ D)
        end = (ra, D)).
    { destruct ra; cbn [dollar app]; [reflexivity|]. destruct D as [|d D]; [reflexivity|].
      inversion HDd as [|? ? Hd _]; subst. destruct (N.eqb_spec d 36); [lia|reflexivity]. }
    rewrite E3. destruct D as [|d0 D0]; [contradiction|]. set (D := d0 :: D0) in *.
    assert (Hsp : span is_ascii_digit D = (D, [])).
    { rewrite <- (app_nil_r D) at 1. apply span_app; [|exact I]. apply digits_digit; exact HDd. }
    rewrite Hsp. unfold D at 1.
    assert (Hci : col_index_from_letters_1based L = Ok col)
      by (apply col_index_1based_iff; repeat split; auto; try discriminate; lia).
    rewrite Hci. cbn [rbind].
    assert (Hpd : parse_digits D 0 = Some row).
    { apply parse_digits_iff; [reflexivity|]. split; [exact Hdv|].
      unfold U32; change (2^32) with 4294967296; lia. }
    rewrite Hpd. unfold ROW_MAX_1BASED, ROW_MAX.
    destruct (N.eqb_spec row 0); [lia|]. cbn [orb].
    destruct (N.ltb_spec (1048575 + 1) row); [lia|reflexivity].
Qed.

Lemma tail_reference_head s row col ra : tail_reference s row col ra ->
  exists b t, s = b :: t /\ (65 <= b <= 90 \/ 97 <= b <= 122).
Proof.
  intros (L & D & -> & HL & HLa & _). destruct L as [|l L]; [contradiction|].
  inversion HLa; subst. exists l, (L ++ dollar ra ++ D). auto.
Qed.

Lemma parse_a1_iff s row col ra ca :
  parse_a1_components s = Ok (row, col, ra, ca) <-> a1_reference s row col ra ca.
Proof.
  rewrite parse_a1_unfold. split.
  - destruct s as [|b0 tl0]; [discriminate|].
    destruct (N.eqb_spec b0 36) as [->|Hb].
    + destruct tl0 as [|b1 tl1]; [discriminate|]. intros E.
      apply parse_tail_iff in E. destruct E as [-> (L & D & E & H)].
      exists L, D. split; [cbn [dollar app]; f_equal; exact E|]. tauto.
    + intros E. apply parse_tail_iff in E. destruct E as [-> (L & D & E & H)].
      exists L, D. split; [exact E|]. tauto.
  - intros (L & D & -> & H).
    assert (HT : tail_reference (L ++ dollar ra ++ D) row col ra)
      by (exists L, D; split; [reflexivity|exact H]).
    destruct (tail_reference_head _ _ _ _ HT) as (b & t & Et & Hb).
    destruct ca; cbn [dollar app].
    + cbn [N.eqb Pos.eqb]. rewrite Et. rewrite <- Et. apply parse_tail_iff. auto.
    + rewrite Et. destruct (N.eqb_spec b 36); [lia|]. rewrite <- Et. apply parse_tail_iff. auto.
Qed.

Lemma rcoord_try_from_a1_iff s c :
  rcoord_try_from_a1 s = Ok c <->
  exists row col ra ca, a1_reference s (row + 1) (col + 1) ra ca /\ c = pack row col ra ca.
Proof.
  unfold rcoord_try_from_a1. split.
  - destruct (parse_a1_components s) as [[[[row col] ra] ca]| |] eqn:E; cbn [rbind]; try discriminate.
    apply parse_a1_iff in E. pose proof E as (L & D & _ & _ & _ & _ & _ & _ & _ & Hr & Hc).
    destruct (N.eqb_spec row 0); [lia|]. destruct (N.eqb_spec col 0); [lia|].
    destruct (rcoord_try_new (row - 1) (col - 1) ra ca) as [x| |] eqn:Ex; cbn [rmap_err]; try discriminate.
    intros H; inversion H; subst x. apply rcoord_try_new_iff in Ex. destruct Ex as (_ & _ & ->).
    exists (row - 1), (col - 1), ra, ca. split; [|reflexivity].
    replace (row - 1 + 1) with row by lia. replace (col - 1 + 1) with col by lia. exact E.
  - intros (row & col & ra & ca & H & ->).
    pose proof H as (L & D & _ & _ & _ & _ & _ & _ & _ & Hr & Hc).
    apply parse_a1_iff in H. rewrite H. cbn [rbind].
    destruct (N.eqb_spec (row + 1) 0); [lia|]. destruct (N.eqb_spec (col + 1) 0); [lia|].
    replace (row + 1 - 1) with row by lia. replace (col + 1 - 1) with col by lia.
    assert (rcoord_try_new row col ra ca = Ok (pack row col ra ca)) as ->; [|reflexivity].
    apply rcoord_try_new_iff. unfold ROW_MAX, COL_MAX. repeat split; lia.
Qed.

Lemma display_a1 row col ra ca : row <= ROW_MAX -> col <= COL_MAX ->
  exists s, rcoord_display (pack row col ra ca) = Some s /\ a1_reference s (row + 1) (col + 1) ra ca.
Proof.
  intros Hr Hc. unfold rcoord_display.
  destruct (unpack_pack row col ra ca Hr Hc) as (-> & -> & -> & ->).
  unfold ROW_MAX, COL_MAX in *.
  destruct (column_to_letters_spec col) as (l & -> & Hu & Hn & Hv).
  { unfold U32; change (2^32) with 4294967296; lia. }
  eexists. split; [reflexivity|].
  destruct (show_u32_spec (row + 1)) as (Hd & Hdn & Hdv); [change (10^20) with 100000000000000000000; lia|].
  exists l, (show_u32 (row + 1)). repeat split; auto; try lia.
  apply upper_is_letters; exact Hu.
Qed.

(** ** Rebase *)
Lemma rebase_pack r c ra ca o_r o_c ora oca t_r t_c tra tca :
  on_sheet r c -> on_sheet o_r o_c -> on_sheet t_r t_c ->
  rcoord_rebase (pack r c ra ca) (pack o_r o_c ora oca) (pack t_r t_c tra tca) =
  let r' := if ra then Z.of_N r else (Z.of_N r + Z.of_N t_r - Z.of_N o_r)%Z in
  let c' := if ca then Z.of_N c else (Z.of_N c + Z.of_N t_c - Z.of_N o_c)%Z in
  if ((0 <=? r') && (r' <? 1048576) && (0 <=? c') && (c' <? 16384))%Z
  then Ok (pack (Z.to_N r') (Z.to_N c') ra ca) else Panic.
Proof.
  intros [H1 H2] [H3 H4] [H5 H6]. unfold rcoord_rebase.
  destruct (unpack_pack r c ra ca) as (E1 & E2 & E3 & E4); [unfold ROW_MAX; lia|unfold COL_MAX; lia|].
  destruct (unpack_pack o_r o_c ora oca) as (E5 & E6 & _); [unfold ROW_MAX; lia|unfold COL_MAX; lia|].
  destruct (unpack_pack t_r t_c tra tca) as (E7 & E8 & _); [unfold ROW_MAX; lia|unfold COL_MAX; lia|].
  rewrite E1, E2, E3, E4, E5, E6, E7, E8. cbv zeta.
  set (nr := if ra then r else z_as_u32 (Z.of_N r + (Z.of_N t_r - Z.of_N o_r))%Z).
  set (nc := if ca then c else z_as_u32 (Z.of_N c + (Z.of_N t_c - Z.of_N o_c))%Z).
  set (r' := if ra then Z.of_N r else (Z.of_N r + Z.of_N t_r - Z.of_N o_r)%Z).
  set (c' := if ca then Z.of_N c else (Z.of_N c + Z.of_N t_c - Z.of_N o_c)%Z).
  assert (Hnr : nr = Z.to_N (r' mod 4294967296)%Z /\ (-1048576 < r' < 2097152)%Z).
  { unfold nr, r', z_as_u32. change (2^32)%Z with 4294967296%Z.
    destruct ra; split; lia. }
  assert (Hnc : nc = Z.to_N (c' mod 4294967296)%Z /\ (-16384 < c' < 32768)%Z).
  { unfold nc, c', z_as_u32. change (2^32)%Z with 4294967296%Z.
    destruct ca; split; lia. }
  destruct Hnr as [Hnr Hr']. destruct Hnc as [Hnc Hc']. clearbody nr nc r' c'.
  destruct ((0 <=? r') && (r' <? 1048576) && (0 <=? c') && (c' <? 16384))%Z eqn:E.
  - assert (nr = Z.to_N r') as -> by lia. assert (nc = Z.to_N c') as -> by lia.
    apply rcoord_new_ok; unfold ROW_MAX, COL_MAX; lia.
  - apply rcoord_new_panic. unfold ROW_MAX, COL_MAX. lia.
Qed.

(** ** Vertex addresses *)
Lemma high_zero_iff a : a < U64 -> (N.land a RESERVED_HIGH_MASK = 0 <-> a < 17592186044416).
Proof.
  intros Ha. unfold U64 in Ha. change (2^64) with 18446744073709551616 in Ha.
  rewrite HIGH_field, land_field_0. change (2^44) with 17592186044416. change (2^20) with 1048576. lia.
Qed.
Lemma symbol_add i : i < U32 -> vaddr_symbol i = 9223372036854775808 + i.
Proof.
  intros Hi. unfold vaddr_symbol, SYMBOL_TAG. rewrite lor_shiftl_small.
  - reflexivity.
  - unfold U32 in Hi. eapply N.lt_le_trans; [exact Hi|]. vm_compute; discriminate.
Qed.
Lemma high_symbol_iff a : a < U64 ->
  (N.land a RESERVED_HIGH_MASK = SYMBOL_TAG <->
   9223372036854775808 <= a < 9223372036854775808 + 17592186044416).
Proof.
  intros Ha. unfold U64 in Ha. change (2^64) with 18446744073709551616 in Ha.
  rewrite HIGH_field, land_field. change (2^44) with 17592186044416. change (2^20) with 1048576.
  change SYMBOL_TAG with 9223372036854775808. lia.
Qed.
Lemma payload_field : SYMBOL_PAYLOAD_MASK = N.shiftl (N.ones 44) 0. Proof. reflexivity. Qed.
Lemma as_symbol_spec i : i < U32 -> vaddr_as_symbol (vaddr_symbol i) = Some i.
Proof.
  intros Hi. pose proof (symbol_add i Hi) as E. unfold U32 in Hi. change (2^32) with 4294967296 in Hi.
  unfold vaddr_as_symbol, vaddr_is_symbol.
  assert (vaddr_symbol i < U64) by (rewrite E; unfold U64; change (2^64) with 18446744073709551616; lia).
  destruct (N.eqb_spec (N.land (vaddr_symbol i) RESERVED_HIGH_MASK) SYMBOL_TAG) as [_|Hn].
  - rewrite payload_field, land_field. change (2^0) with 1. change (2^44) with 17592186044416.
    rewrite N.div_1_r, N.mul_1_r. rewrite E. f_equal. unfold trunc_u32, U32. change (2^32) with 4294967296. lia.
  - exfalso. apply Hn. apply high_symbol_iff; [assumption|]. rewrite E. lia.
Qed.
Lemma grid_bound row col : on_sheet row col -> pack row col false false < 17592186044416.
Proof. intros [H1 H2]. unfold pack, flag. lia. Qed.

Lemma as_grid_spec row col : on_sheet row col ->
  vaddr_as_grid (vaddr_grid (pack row col false false)) = Some (pack row col false false).
Proof.
  intros H. pose proof (grid_bound row col H) as Hb. unfold vaddr_as_grid, vaddr_is_grid, vaddr_grid.
  set (w := pack row col false false) in *.
  assert (HU : w < U64) by (unfold U64; change (2^64) with 18446744073709551616; lia).
  assert (N.land w RESERVED_HIGH_MASK = 0) as -> by (apply high_zero_iff; assumption).
  cbn [N.eqb]. f_equal. unfold unsafe_coord_from_raw.
  assert (coord_from_raw w = Ok w) as ->; [|reflexivity].
  apply coord_from_raw_iff; [exact HU|]. split; [reflexivity|]. right.
  exists row, col. destruct H. unfold ROW_MAX, COL_MAX. repeat split; lia.
Qed.
