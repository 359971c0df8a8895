(** Lemmas in the exact form used by CoordProps. *)
From Verif Require Import Base BitLemmas CoordModel CoordSpec CoordProofs.
From Coq Require Import ZifyBool ZifyN ZifyNat.
Ltac Zify.zify_post_hook ::= Z.div_mod_to_equations.
Open Scope N_scope.

Lemma on_sheet_max row col : on_sheet row col <-> row <= ROW_MAX /\ col <= COL_MAX.
Proof. unfold on_sheet, ROW_MAX, COL_MAX. lia. Qed.

Lemma rcoord_roundtrip row col ra ca : on_sheet row col ->
  exists w, rcoord_try_new row col ra ca = Ok w /\ w < U64 /\
    rcoord_row w = row /\ rcoord_col w = col /\ rcoord_row_abs w = ra /\ rcoord_col_abs w = ca.
Proof.
  intros H. apply on_sheet_max in H. destruct H as [Hr Hc]. exists (pack row col ra ca).
  split; [apply rcoord_try_new_iff; auto|]. split.
  - pose proof (pack_bound row col ra ca Hr Hc). unfold U64; change (2^64) with 18446744073709551616; lia.
  - apply unpack_pack; assumption.
Qed.

Lemma coord_roundtrip row col : on_sheet row col ->
  exists w, coord_try_new row col = Ok w /\ coord_new row col = Ok w /\
    coord_row w = row /\ coord_col w = col /\ coord_is_valid w = true.
Proof.
  intros H. apply on_sheet_max in H. destruct H as [Hr Hc]. exists (pack row col false false).
  split; [apply coord_try_new_iff; auto|]. split; [apply coord_new_ok; auto|].
  destruct (unpack_pack row col false false Hr Hc) as (E1 & E2 & _).
  split; [exact E1|]. split; [exact E2|].
  pose proof (pack_bound row col false false Hr Hc). unfold coord_is_valid, U64_MAX.
  destruct (N.eqb_spec (pack row col false false) 18446744073709551615); [lia|reflexivity].
Qed.

Lemma rcoord_injective r1 c1 a1 b1 r2 c2 a2 b2 w :
  rcoord_try_new r1 c1 a1 b1 = Ok w -> rcoord_try_new r2 c2 a2 b2 = Ok w ->
  r1 = r2 /\ c1 = c2 /\ a1 = a2 /\ b1 = b2.
Proof.
  intros H1 H2. apply rcoord_try_new_iff in H1, H2.
  destruct H1 as (Hr1 & Hc1 & ->). destruct H2 as (Hr2 & Hc2 & E).
  destruct (unpack_pack r1 c1 a1 b1 Hr1 Hc1) as (E1 & E2 & E3 & E4).
  destruct (unpack_pack r2 c2 a2 b2 Hr2 Hc2) as (F1 & F2 & F3 & F4).
  rewrite E in E1, E2, E3, E4. repeat split; congruence.
Qed.

Lemma coord_refuses row col ra ca : ~ on_sheet row col ->
  (exists e, rcoord_try_new row col ra ca = Err e) /\ (exists e, coord_try_new row col = Err e) /\
  rcoord_new row col ra ca = Panic /\ coord_new row col = Panic.
Proof.
  intros H. rewrite on_sheet_max in H.
  unfold rcoord_try_new, coord_try_new, rcoord_new, coord_new.
  destruct (N.ltb_spec ROW_MAX row), (N.leb_spec row ROW_MAX); try lia; cbn [negb].
  - repeat split; eexists; reflexivity.
  - destruct (N.ltb_spec COL_MAX col), (N.leb_spec col COL_MAX); try lia; cbn [negb].
    repeat split; eexists; reflexivity.
Qed.

Lemma ldiff_not64 x m : x < 2 ^ 64 -> N.land x (not64 m) = N.ldiff x m.
Proof.
  intros Hx. unfold not64. apply N.bits_inj_iff; intros k.
  rewrite N.land_spec, !N.ldiff_spec.
  destruct (N.lt_ge_cases k 64) as [H|H].
  - rewrite N.ones_spec_low by exact H. reflexivity.
  - rewrite (testbit_small x 64 k Hx H). reflexivity.
Qed.

Lemma ldiff_field x k n : N.ldiff x (N.shiftl (N.ones k) n) + N.land x (N.shiftl (N.ones k) n) = x.
Proof.
  rewrite <- lor_disjoint_add.
  - apply N.bits_inj_iff; intros m. rewrite N.lor_spec, N.ldiff_spec, N.land_spec.
    destruct (N.testbit x m), (N.testbit (N.shiftl (N.ones k) n) m); reflexivity.
  - apply N.bits_inj_iff; intros m. rewrite N.land_spec, N.ldiff_spec, N.land_spec, N.bits_0.
    destruct (N.testbit x m), (N.testbit (N.shiftl (N.ones k) n) m); reflexivity.
Qed.

Lemma pack_lt64 row col ra ca : row <= ROW_MAX -> col <= COL_MAX -> pack row col ra ca < 2 ^ 64.
Proof.
  intros Hr Hc. pose proof (pack_bound row col ra ca Hr Hc).
  change (2^64) with 18446744073709551616. lia.
Qed.

Lemma lor_bit_add x k : (x / 2 ^ k) mod 2 = 0 -> N.lor x (2 ^ k) = x + 2 ^ k.
Proof.
  intros H. apply lor_disjoint_add.
  replace (2 ^ k) with (N.shiftl (N.ones 1) k) by (rewrite N.shiftl_mul_pow2; change (N.ones 1) with 1; rewrite N.mul_1_l; reflexivity).
  apply land_field_0. exact H.
Qed.
Lemma lor_bit_same x k : (x / 2 ^ k) mod 2 = 1 -> N.lor x (2 ^ k) = x.
Proof.
  intros H. apply N.testbit_true in H. apply N.bits_inj_iff; intros m.
  rewrite N.lor_spec, N.pow2_bits_eqb. destruct (N.eqb_spec k m) as [<-|].
  - rewrite H. reflexivity.
  - apply orb_false_r.
Qed.

Lemma with_abs_spec row col ra ca b w : on_sheet row col ->
  rcoord_try_new row col ra ca = Ok w ->
  rcoord_try_new row col b ca = Ok (rcoord_with_row_abs w b) /\
  rcoord_try_new row col ra b = Ok (rcoord_with_col_abs w b).
Proof.
  intros Hs H. apply rcoord_try_new_iff in H. destruct H as (Hr & Hc & ->).
  pose proof (pack_lt64 row col ra ca Hr Hc) as H64. unfold ROW_MAX, COL_MAX in *.
  split; apply rcoord_try_new_iff; (split; [unfold ROW_MAX; lia|]; split; [unfold COL_MAX; lia|]).
  - unfold rcoord_with_row_abs. destruct b.
    + change ROW_ABS_BIT with (2 ^ 0). destruct ra.
      * rewrite lor_bit_same; [reflexivity|]. change (2^0) with 1. unfold pack, flag. destruct ca; lia.
      * rewrite lor_bit_add; change (2^0) with 1; unfold pack, flag; destruct ca; lia.
    + rewrite ldiff_not64 by exact H64. rewrite ROW_ABS_field.
      pose proof (ldiff_field (pack row col ra ca) 1 0) as E. rewrite land_field in E.
      change (2^1) with 2 in E. change (2^0) with 1 in E. unfold pack, flag in *. destruct ra, ca; lia.
  - unfold rcoord_with_col_abs. destruct b.
    + change COL_ABS_BIT with (2 ^ 1). destruct ca.
      * rewrite lor_bit_same; [reflexivity|]. change (2^1) with 2. unfold pack, flag. destruct ra; lia.
      * rewrite lor_bit_add; change (2^1) with 2; unfold pack, flag; destruct ra; lia.
    + rewrite ldiff_not64 by exact H64. rewrite COL_ABS_field.
      pose proof (ldiff_field (pack row col ra ca) 1 1) as E. rewrite land_field in E.
      change (2^1) with 2 in E. unfold pack, flag in *. destruct ra, ca; lia.
Qed.

(** C02 *)
Lemma coord_raw_exact raw c : raw < U64 ->
  (coord_from_raw raw = Ok c <->
   c = raw /\ (raw = 18446744073709551615 \/ exists row col, on_sheet row col /\ coord_new row col = Ok raw)).
Proof.
  intros H. rewrite coord_from_raw_iff by exact H. change U64_MAX with 18446744073709551615.
  split; (intros [E [E2|(row & col & E2)]]; split; [exact E| left; exact E2 | exact E | right; exists row, col]).
  - destruct E2 as (Hr & Hc & ->). split; [apply on_sheet_max; auto|apply coord_new_ok; auto].
  - destruct E2 as (Hs & E2). apply on_sheet_max in Hs. destruct Hs as [Hr Hc].
    rewrite coord_new_ok in E2 by assumption. inversion E2; auto.
Qed.
Lemma rcoord_raw_exact raw c : raw < U64 ->
  (rcoord_from_raw raw = Ok c <->
   c = raw /\ exists row col ra ca, on_sheet row col /\ rcoord_new row col ra ca = Ok raw).
Proof.
  intros H. rewrite rcoord_from_raw_iff by exact H.
  split; intros [E (row & col & ra & ca & E2)]; (split; [exact E|exists row, col, ra, ca]).
  - destruct E2 as (Hr & Hc & ->). split; [apply on_sheet_max; auto|apply rcoord_new_ok; auto].
  - destruct E2 as (Hs & E2). apply on_sheet_max in Hs. destruct Hs as [Hr Hc].
    rewrite rcoord_new_ok in E2 by assumption. inversion E2; auto.
Qed.

Lemma normalize_arith raw : raw < U64 ->
  coord_normalize raw = (raw / 1024 mod 17179869184) * 1024.
Proof.
  intros H. unfold coord_normalize. rewrite ldiff_not64 by exact H.
  assert (E : N.ldiff raw coord_RESERVED_MASK = N.land raw (N.shiftl (N.ones 34) 10)).
  { apply N.bits_inj_iff; intros k. rewrite N.ldiff_spec, N.land_spec.
    destruct (N.lt_ge_cases k 64) as [Hk|Hk].
    - unfold coord_RESERVED_MASK. rewrite HIGH_field, LOW_field.
      rewrite N.lor_spec. destruct (N.testbit raw k); [|reflexivity]. cbn [andb].
      destruct (N.lt_ge_cases k 10) as [H1|H1].
      + rewrite (N.shiftl_spec_low _ 10) by exact H1. rewrite (N.shiftl_spec_low _ 44) by lia.
        rewrite N.shiftl_0_r, N.ones_spec_low by exact H1. reflexivity.
      + rewrite (N.shiftl_spec_high' _ 10) by exact H1. rewrite N.shiftl_0_r.
        rewrite (N.ones_spec_high 10) by exact H1. rewrite orb_false_r.
        destruct (N.lt_ge_cases k 44) as [H2|H2].
        * rewrite N.shiftl_spec_low by exact H2. rewrite N.ones_spec_low by lia. reflexivity.
        * rewrite N.shiftl_spec_high' by exact H2. rewrite N.ones_spec_low by lia.
          rewrite N.ones_spec_high by lia. reflexivity.
    - rewrite (testbit_small raw 64 k H Hk). reflexivity. }
  rewrite E, land_field. reflexivity.
Qed.

Lemma normalize_spec raw : raw < U64 ->
  coord_from_raw (coord_normalize raw) = Ok (coord_normalize raw) /\
  coord_row (coord_normalize raw) = coord_row raw /\ coord_col (coord_normalize raw) = coord_col raw /\
  coord_normalize (coord_normalize raw) = coord_normalize raw.
Proof.
  intros H. pose proof (normalize_arith raw H) as E.
  assert (Hb : coord_normalize raw < U64).
  { rewrite E. unfold U64 in *. change (2^64) with 18446744073709551616 in *. lia. }
  split; [|split; [|split]].
  - apply coord_from_raw_iff; [exact Hb|]. split; [reflexivity|]. right.
    rewrite E. exists (raw / 16777216 mod 1048576), (raw / 1024 mod 16384).
    unfold ROW_MAX, COL_MAX, pack, flag. repeat split; lia.
  - unfold coord_row. rewrite !row_field_spec, E. lia.
  - unfold coord_col. rewrite !col_field_spec, E. lia.
  - rewrite (normalize_arith _ Hb), E. lia.
Qed.

(** C03 *)
Lemma letters_of_column col : col < U32 ->
  exists l, column_to_letters col = Some l /\ l <> [] /\ upper_letters l /\ column_value l = col + 1.
Proof. intros H. destruct (column_to_letters_spec col H) as (l & ? & ? & ? & ?). exists l; auto. Qed.

Lemma column_roundtrip col l : col < U32 ->
  column_to_letters col = Some l -> letters_to_column_index l = Some col.
Proof.
  intros H E. destruct (column_to_letters_spec col H) as (l' & E' & Hu & Hn & Hv).
  rewrite E in E'; inversion E'; subst l'. apply letters_to_column_index_iff.
  repeat split; auto. apply upper_is_letters; exact Hu.
Qed.

Lemma letters_roundtrip s c :
  letters_to_column_index s = Some c -> column_to_letters c = Some (map to_ascii_upper s).
Proof.
  intros H. apply letters_to_column_index_iff in H. destruct H as (Hn & Hl & Hv & Hc).
  destruct (column_to_letters_spec c Hc) as (l & E & Hu & Hnl & Hv2). rewrite E. f_equal.
  apply column_value_inj; [exact Hu|apply upper_map; exact Hl|].
  rewrite column_value_upper by exact Hl. congruence.
Qed.

Lemma columns_distinct c1 c2 l : c1 < U32 -> c2 < U32 ->
  column_to_letters c1 = Some l -> column_to_letters c2 = Some l -> c1 = c2.
Proof.
  intros H1 H2 E1 E2. apply column_roundtrip in E1, E2; auto. congruence.
Qed.

Lemma one_based_roundtrip col l :
  col_letters_from_1based col = Ok l -> col_index_from_letters_1based l = Ok col.
Proof.
  unfold col_letters_from_1based, COL_MAX_1BASED, COL_MAX.
  destruct (N.eqb_spec col 0); [discriminate|]. destruct (N.ltb_spec (16383 + 1) col); [discriminate|].
  cbn [orb]. destruct (column_to_letters_spec (col - 1)) as (l' & E & Hu & Hn & Hv).
  { unfold U32; change (2^32) with 4294967296; lia. }
  rewrite E. intros E2; inversion E2; subst l'. apply col_index_1based_iff.
  repeat split; auto; try lia. apply upper_is_letters; exact Hu.
Qed.

Lemma one_based_panic_exact s :
  col_index_from_letters_1based s = Panic <->
  map to_ascii_upper s = [77; 87; 76; 81; 75; 87; 86].
Proof.
  unfold col_index_from_letters_1based. destruct s as [|b s]; [split; discriminate|].
  destruct (find (fun b0 => negb (is_ascii_alpha b0)) (b :: s)) eqn:Ef.
  { split; [discriminate|]. intros E. exfalso. apply find_some in Ef. destruct Ef as [Hin Hna].
    apply (in_map to_ascii_upper) in Hin. rewrite E in Hin.
    assert (Hu : is_ascii_upper (to_ascii_upper n) = true).
    { cbn [In] in Hin. unfold is_ascii_upper. lia. }
    apply to_upper_letter in Hu. apply is_alpha_iff in Hu. rewrite Hu in Hna. discriminate. }
  apply find_none_alpha in Ef.
  destruct (letters_to_column_index (b :: s)) as [z|] eqn:El.
  - pose proof El as El2. apply letters_to_column_index_iff in El. destruct El as (_ & _ & Ev & Hz).
    unfold COL_MAX, checked_u32. unfold U32 in *. change (2^32) with 4294967296 in *.
    destruct (N.leb_spec z 16383).
    { split; [discriminate|]. intros E. exfalso.
      pose proof (column_value_upper _ Ef) as Ec. rewrite E, Ev in Ec. change (column_value [77; 87; 76; 81; 75; 87; 86]) with 4294967296 in Ec. lia. }
    destruct (N.ltb_spec (z + 1) 4294967296).
    { split; [discriminate|]. intros E. exfalso.
      pose proof (column_value_upper _ Ef) as Ec. rewrite E, Ev in Ec. change (column_value [77; 87; 76; 81; 75; 87; 86]) with 4294967296 in Ec. lia. }
    split; [intros _|reflexivity].
    apply letters_roundtrip in El2. assert (z = 4294967295) as -> by lia.
    assert (column_to_letters 4294967295 = Some [77; 87; 76; 81; 75; 87; 86]) as E3 by (vm_compute; reflexivity).
    rewrite E3 in El2. congruence.
  - split; [discriminate|]. intros E. exfalso.
    assert (letters_to_column_index (b :: s) = Some 4294967295) as Hx; [|congruence].
    apply letters_to_column_index_iff. split; [discriminate|]. split; [exact Ef|].
    split; [|reflexivity]. rewrite <- (column_value_upper _ Ef), E. vm_compute. reflexivity.
Qed.

Lemma one_based_panics : exists s, ascii_letters s /\ col_index_from_letters_1based s = Panic.
Proof.
  exists [77; 87; 76; 81; 75; 87; 86]. split; [repeat constructor; vm_compute; discriminate|].
  vm_compute. reflexivity.
Qed.

(** C04 *)
Lemma a1_roundtrip row col ra ca : on_sheet row col ->
  exists w s, rcoord_try_new row col ra ca = Ok w /\ rcoord_display w = Some s /\
              rcoord_try_from_a1 s = Ok w.
Proof.
  intros H. apply on_sheet_max in H. destruct H as [Hr Hc].
  destruct (display_a1 row col ra ca Hr Hc) as (s & E & Ha).
  exists (pack row col ra ca), s. split; [apply rcoord_try_new_iff; auto|]. split; [exact E|].
  apply rcoord_try_from_a1_iff. exists row, col, ra, ca. auto.
Qed.

Lemma a1_accepts_on_sheet s w :
  rcoord_try_from_a1 s = Ok w ->
  on_sheet (rcoord_row w) (rcoord_col w) /\
  a1_reference s (rcoord_row w + 1) (rcoord_col w + 1) (rcoord_row_abs w) (rcoord_col_abs w).
Proof.
  intros H. apply rcoord_try_from_a1_iff in H. destruct H as (row & col & ra & ca & Ha & ->).
  pose proof Ha as (L & D & _ & _ & _ & _ & _ & _ & _ & Hr & Hc).
  destruct (unpack_pack row col ra ca) as (-> & -> & -> & ->);
    [unfold ROW_MAX; lia|unfold COL_MAX; lia|].
  split; [unfold on_sheet; lia|exact Ha].
Qed.

Lemma plain_parse_agrees s w :
  rcoord_try_from_a1 s = Ok w ->
  exists c, coord_try_from_a1 s = Ok c /\ coord_new (rcoord_row w) (rcoord_col w) = Ok c.
Proof.
  intros H. apply a1_accepts_on_sheet in H. destruct H as [[Hr Hc] Ha].
  apply parse_a1_iff in Ha. unfold coord_try_from_a1. rewrite Ha. cbn [rbind].
  set (r := rcoord_row w) in *. set (c := rcoord_col w) in *. clearbody r c.
  destruct (N.eqb_spec (r + 1) 0); [lia|]. destruct (N.eqb_spec (c + 1) 0); [lia|].
  replace (r + 1 - 1) with r by lia. replace (c + 1 - 1) with c by lia.
  exists (pack r c false false). rewrite coord_new_ok by (unfold ROW_MAX, COL_MAX; lia).
  split; [|reflexivity].
  assert (coord_try_new r c = Ok (pack r c false false)) as ->; [|reflexivity].
  apply coord_try_new_iff. unfold ROW_MAX, COL_MAX. repeat split; lia.
Qed.

(** C05 *)
Lemma signed_conversion_refuted :
  exists row col c, coord_try_from_i64 row col = Ok c /\
    ~ (0 <= row < 1048576)%Z /\ coord_row c = 0 /\ (row < 2 ^ 63)%Z.
Proof.
  exists 4294967296%Z, 3%Z, 3072. split; [vm_compute; reflexivity|]. split; [lia|].
  split; vm_compute; reflexivity.
Qed.

Lemma signed_conversion_exact row col c :
  coord_try_from_i64 row col = Ok c <->
  (0 <= row)%Z /\ (0 <= col)%Z /\ (row mod 2 ^ 32 < 1048576)%Z /\ (col mod 2 ^ 32 < 16384)%Z /\
  coord_new (Z.to_N (row mod 2 ^ 32)) (Z.to_N (col mod 2 ^ 32)) = Ok c.
Proof.
  unfold coord_try_from_i64, z_as_u32. change (2 ^ 32)%Z with 4294967296%Z.
  destruct (Z.ltb_spec row 0); [split; [discriminate|lia]|].
  destruct (Z.ltb_spec col 0); [split; [discriminate|lia]|].
  rewrite coord_try_new_iff. unfold ROW_MAX, COL_MAX. split.
  - intros (H1 & H2 & ->). repeat split; try lia. apply coord_new_ok; unfold ROW_MAX, COL_MAX; assumption.
  - intros (_ & _ & H1 & H2 & H3).
    assert (H4 : Z.to_N (row mod 4294967296) <= 1048575) by lia.
    assert (H5 : Z.to_N (col mod 4294967296) <= 16383) by lia.
    rewrite (coord_new_ok _ _ H4 H5) in H3. inversion H3; auto.
Qed.

Lemma signed_conversion_small row col c :
  (row < 2 ^ 32)%Z -> (col < 2 ^ 32)%Z -> coord_try_from_i64 row col = Ok c ->
  (0 <= row < 1048576)%Z /\ (0 <= col < 16384)%Z /\
  Z.of_N (coord_row c) = row /\ Z.of_N (coord_col c) = col.
Proof.
  intros Hr Hc H. apply signed_conversion_exact in H. change (2 ^ 32)%Z with 4294967296%Z in *.
  destruct H as (H1 & H2 & H3 & H4 & H5).
  rewrite Z.mod_small in H3, H5 by lia. rewrite Z.mod_small in H4, H5 by lia.
  rewrite coord_new_ok in H5 by (unfold ROW_MAX, COL_MAX; lia). inversion H5; subst c.
  destruct (unpack_pack (Z.to_N row) (Z.to_N col) false false) as (E1 & E2 & _);
    [unfold ROW_MAX; lia|unfold COL_MAX; lia|].
  change coord_row with rcoord_row. change coord_col with rcoord_col. rewrite E1, E2. lia.
Qed.

(** C06 *)
Definition valid_rcoord (w : rcoord) : Prop :=
  exists row col ra ca, on_sheet row col /\ rcoord_new row col ra ca = Ok w.

Lemma valid_rcoord_pack w : valid_rcoord w ->
  exists row col ra ca, on_sheet row col /\ w = pack row col ra ca.
Proof.
  intros (row & col & ra & ca & Hs & H). exists row, col, ra, ca. split; [exact Hs|].
  apply on_sheet_max in Hs. rewrite rcoord_new_ok in H by tauto. inversion H; reflexivity.
Qed.

Lemma rebase_exact r c ra ca w o_r o_c oa ob o t_r t_c ta tb t :
  rcoord_try_new r c ra ca = Ok w -> rcoord_try_new o_r o_c oa ob = Ok o ->
  rcoord_try_new t_r t_c ta tb = Ok t ->
  let r' := if ra then Z.of_N r else (Z.of_N r + Z.of_N t_r - Z.of_N o_r)%Z in
  let c' := if ca then Z.of_N c else (Z.of_N c + Z.of_N t_c - Z.of_N o_c)%Z in
  ((0 <= r' < 1048576)%Z /\ (0 <= c' < 16384)%Z ->
     rcoord_rebase w o t = rcoord_new (Z.to_N r') (Z.to_N c') ra ca /\
     rcoord_rebase w o t <> Panic) /\
  (~ ((0 <= r' < 1048576)%Z /\ (0 <= c' < 16384)%Z) -> rcoord_rebase w o t = Panic).
Proof.
  intros H1 H2 H3. apply rcoord_try_new_iff in H1, H2, H3.
  destruct H1 as (H1a & H1b & ->). destruct H2 as (H2a & H2b & ->). destruct H3 as (H3a & H3b & ->).
  unfold ROW_MAX, COL_MAX in *. cbv zeta.
  rewrite rebase_pack by (unfold on_sheet; lia). cbv zeta.
  set (r' := if ra then _ else _). set (c' := if ca then _ else _). clearbody r' c'.
  destruct ((0 <=? r') && (r' <? 1048576) && (0 <=? c') && (c' <? 16384))%Z eqn:E.
  - split; [|lia]. intros _. rewrite rcoord_new_ok by (unfold ROW_MAX, COL_MAX; lia).
    split; [reflexivity|discriminate].
  - split; [lia|reflexivity].
Qed.

Lemma rebase_compose w o m t w1 w2 :
  valid_rcoord w -> valid_rcoord o -> valid_rcoord m -> valid_rcoord t ->
  rcoord_rebase w o m = Ok w1 -> rcoord_rebase w1 m t = Ok w2 -> rcoord_rebase w o t = Ok w2.
Proof.
  intros Hw Ho Hm Ht.
  apply valid_rcoord_pack in Hw, Ho, Hm, Ht.
  destruct Hw as (r & c & ra & ca & Hw & ->). destruct Ho as (o_r & o_c & oa & ob & Ho & ->).
  destruct Hm as (m_r & m_c & ma & mb & Hm & ->). destruct Ht as (t_r & t_c & ta & tb & Ht & ->).
  rewrite rebase_pack by assumption. cbv zeta.
  set (r1 := if ra then _ else _). set (c1 := if ca then _ else _).
  destruct ((0 <=? r1) && (r1 <? 1048576) && (0 <=? c1) && (c1 <? 16384))%Z eqn:E; [|discriminate].
  intros H; inversion H; subst w1.
  rewrite rebase_pack; [|unfold on_sheet; lia|assumption|assumption]. cbv zeta.
  rewrite rebase_pack by assumption. cbv zeta.
  assert (E1 : (if ra then Z.of_N (Z.to_N r1) else (Z.of_N (Z.to_N r1) + Z.of_N t_r - Z.of_N m_r)%Z) =
               (if ra then Z.of_N r else (Z.of_N r + Z.of_N t_r - Z.of_N o_r)%Z)).
  { rewrite Z2N.id by lia. unfold r1. destruct ra; lia. }
  assert (E2 : (if ca then Z.of_N (Z.to_N c1) else (Z.of_N (Z.to_N c1) + Z.of_N t_c - Z.of_N m_c)%Z) =
               (if ca then Z.of_N c else (Z.of_N c + Z.of_N t_c - Z.of_N o_c)%Z)).
  { rewrite Z2N.id by lia. unfold c1. destruct ca; lia. }
  rewrite E1, E2. auto.
Qed.

Lemma rebase_undo w o t w1 :
  valid_rcoord w -> valid_rcoord o -> valid_rcoord t ->
  rcoord_rebase w o t = Ok w1 -> rcoord_rebase w1 t o = Ok w.
Proof.
  intros Hw Ho Ht.
  apply valid_rcoord_pack in Hw, Ho, Ht.
  destruct Hw as (r & c & ra & ca & [Hw1 Hw2] & ->). destruct Ho as (o_r & o_c & oa & ob & Ho & ->).
  destruct Ht as (t_r & t_c & ta & tb & Ht & ->).
  rewrite rebase_pack by (assumption || (split; assumption)). cbv zeta.
  set (r1 := if ra then _ else _). set (c1 := if ca then _ else _).
  destruct ((0 <=? r1) && (r1 <? 1048576) && (0 <=? c1) && (c1 <? 16384))%Z eqn:E; [|discriminate].
  intros H; inversion H; subst w1.
  rewrite rebase_pack; [|unfold on_sheet; lia|assumption|assumption]. cbv zeta.
  assert (E1 : (if ra then Z.of_N (Z.to_N r1) else (Z.of_N (Z.to_N r1) + Z.of_N o_r - Z.of_N t_r)%Z) = Z.of_N r).
  { rewrite Z2N.id by lia. unfold r1. destruct ra; lia. }
  assert (E2 : (if ca then Z.of_N (Z.to_N c1) else (Z.of_N (Z.to_N c1) + Z.of_N o_c - Z.of_N t_c)%Z) = Z.of_N c).
  { rewrite Z2N.id by lia. unfold c1. destruct ca; lia. }
  rewrite E1, E2.
  replace ((0 <=? Z.of_N r) && (Z.of_N r <? 1048576) && (0 <=? Z.of_N c) && (Z.of_N c <? 16384))%Z with true by lia.
  rewrite !N2Z.id. reflexivity.
Qed.

Lemma offset_exact r c ra ca w dr dc :
  rcoord_try_new r c ra ca = Ok w -> (- 2 ^ 31 <= dr < 2 ^ 31)%Z -> (- 2 ^ 31 <= dc < 2 ^ 31)%Z ->
  rcoord_offset w dr dc =
  if ((0 <=? Z.of_N r + dr) && (Z.of_N r + dr <? 1048576) &&
      (0 <=? Z.of_N c + dc) && (Z.of_N c + dc <? 16384))%Z
  then rcoord_new (Z.to_N (Z.of_N r + dr)) (Z.to_N (Z.of_N c + dc)) ra ca else Panic.
Proof.
  intros H Hdr Hdc. apply rcoord_try_new_iff in H. destruct H as (Hr & Hc & ->).
  unfold rcoord_offset. destruct (unpack_pack r c ra ca Hr Hc) as (-> & -> & -> & ->).
  unfold ROW_MAX, COL_MAX in *. change (2^31)%Z with 2147483648%Z in *.
  set (a := (Z.of_N r + dr)%Z) in *. set (b := (Z.of_N c + dc)%Z) in *.
  unfold i32_add. change (2^31)%Z with 2147483648%Z. fold a b.
  assert (Ha : (-2147483648 <= a < 2148532224)%Z) by lia.
  assert (Hb : (-2147483648 <= b < 2147500032)%Z) by lia. clearbody a b.
  destruct ((0 <=? a) && (a <? 1048576) && (0 <=? b) && (b <? 16384))%Z eqn:E.
  - replace ((-(2147483648) <=? a) && (a <? 2147483648))%Z with true by lia.
    replace ((-(2147483648) <=? b) && (b <? 2147483648))%Z with true by lia.
    rewrite !z_as_u32_small by lia. reflexivity.
  - destruct ((-(2147483648) <=? a) && (a <? 2147483648))%Z eqn:Ea; [|reflexivity].
    destruct ((-(2147483648) <=? b) && (b <? 2147483648))%Z eqn:Eb; [|reflexivity].
    apply rcoord_new_panic. unfold ROW_MAX, COL_MAX, z_as_u32.
    change (2^32)%Z with 4294967296%Z. lia.
Qed.

(** C07 *)
Lemma coord_new_inv row col w : coord_new row col = Ok w -> on_sheet row col /\ w = pack row col false false.
Proof.
  unfold coord_new. destruct (N.leb_spec row ROW_MAX) as [Hr|]; [|discriminate].
  destruct (N.leb_spec col COL_MAX) as [Hc|]; [|discriminate]. cbn [negb].
  rewrite pack_plain by assumption. intros H; inversion H. split; [apply on_sheet_max; auto|].
  unfold pack, flag. lia.
Qed.
Lemma pack_lt_U64 row col : on_sheet row col -> pack row col false false < U64.
Proof. intros H. pose proof (grid_bound row col H). unfold U64; change (2^64) with 18446744073709551616; lia. Qed.

Lemma grid_decodes row col w : coord_new row col = Ok w ->
  vaddr_as_grid (vaddr_grid w) = Some w /\ vaddr_as_symbol (vaddr_grid w) = None /\
  vaddr_grid w <> vaddr_INVALID.
Proof.
  intros H. apply coord_new_inv in H. destruct H as [Hs ->].
  split; [apply as_grid_spec; exact Hs|]. pose proof (grid_bound row col Hs) as Hb.
  pose proof (pack_lt_U64 row col Hs) as HU. unfold vaddr_grid. split.
  - unfold vaddr_as_symbol, vaddr_is_symbol.
    destruct (N.eqb_spec (N.land (pack row col false false) RESERVED_HIGH_MASK) SYMBOL_TAG) as [E|]; [|reflexivity].
    apply high_symbol_iff in E; [|exact HU]. lia.
  - unfold vaddr_INVALID, U64_MAX. lia.
Qed.
Lemma symbol_lt_U64 i : i < U32 -> vaddr_symbol i < U64.
Proof. intros H. rewrite symbol_add by exact H. unfold U32, U64 in *. change (2^32) with 4294967296 in *.
  change (2^64) with 18446744073709551616. lia. Qed.
Lemma symbol_decodes i : i < U32 ->
  vaddr_as_symbol (vaddr_symbol i) = Some i /\ vaddr_as_grid (vaddr_symbol i) = None /\
  vaddr_symbol i <> vaddr_INVALID.
Proof.
  intros H. split; [apply as_symbol_spec; exact H|].
  pose proof (symbol_add i H) as E. pose proof (symbol_lt_U64 i H) as HU.
  unfold U32 in H. change (2^32) with 4294967296 in H. split.
  - unfold vaddr_as_grid, vaddr_is_grid.
    destruct (N.eqb_spec (N.land (vaddr_symbol i) RESERVED_HIGH_MASK) 0) as [E0|]; [|reflexivity].
    apply high_zero_iff in E0; [|exact HU]. lia.
  - rewrite E. unfold vaddr_INVALID, U64_MAX. lia.
Qed.
Lemma invalid_decodes : vaddr_as_grid vaddr_INVALID = None /\ vaddr_as_symbol vaddr_INVALID = None.
Proof. split; reflexivity. Qed.

Lemma addr_disjoint row col w i j : coord_new row col = Ok w -> i < U32 -> j < U32 ->
  vaddr_grid w <> vaddr_symbol i /\ (vaddr_symbol i = vaddr_symbol j -> i = j).
Proof.
  intros H Hi Hj. apply coord_new_inv in H. destruct H as [Hs ->].
  pose proof (grid_bound row col Hs). rewrite !symbol_add by assumption. unfold vaddr_grid. lia.
Qed.

Lemma kinds_exclusive a : a < U64 -> vaddr_as_grid a = None \/ vaddr_as_symbol a = None.
Proof.
  intros H. unfold vaddr_as_grid, vaddr_as_symbol, vaddr_is_grid, vaddr_is_symbol.
  destruct (N.eqb_spec (N.land a RESERVED_HIGH_MASK) 0) as [E|]; [right|left; reflexivity].
  rewrite E. reflexivity.
Qed.

Definition key_lt (a b : N * N) : Prop := fst a < fst b \/ (fst a = fst b /\ snd a < snd b).

Lemma addr_order r1 c1 w1 r2 c2 w2 i j :
  coord_new r1 c1 = Ok w1 -> coord_new r2 c2 = Ok w2 -> i < U32 -> j < U32 ->
  vaddr_order_key (vaddr_grid w1) = (r1, c1) /\
  (key_lt (vaddr_order_key (vaddr_grid w1)) (vaddr_order_key (vaddr_grid w2)) <->
     r1 < r2 \/ (r1 = r2 /\ c1 < c2)) /\
  key_lt (vaddr_order_key (vaddr_grid w1)) (vaddr_order_key (vaddr_symbol i)) /\
  (key_lt (vaddr_order_key (vaddr_symbol i)) (vaddr_order_key (vaddr_symbol j)) <-> i < j).
Proof.
  intros H1 H2 Hi Hj.
  assert (K : forall r c w, coord_new r c = Ok w -> vaddr_order_key (vaddr_grid w) = (r, c) /\ on_sheet r c).
  { intros r c w H. destruct (grid_decodes r c w H) as (Eg & _). unfold vaddr_order_key. rewrite Eg.
    apply coord_new_inv in H. destruct H as [Hs ->]. split; [|exact Hs].
    apply on_sheet_max in Hs. destruct Hs as [Hr Hc].
    destruct (unpack_pack r c false false Hr Hc) as (E1 & E2 & _).
    change coord_row with rcoord_row. change coord_col with rcoord_col. rewrite E1, E2. reflexivity. }
  assert (S : forall i, i < U32 -> vaddr_order_key (vaddr_symbol i) = (U32_MAX, i)).
  { intros k Hk. destruct (symbol_decodes k Hk) as (E1 & E2 & _). unfold vaddr_order_key.
    rewrite E1, E2. reflexivity. }
  destruct (K _ _ _ H1) as [-> [Hs1 Hs1']]. destruct (K _ _ _ H2) as [-> _].
  rewrite !S by assumption. unfold key_lt, U32_MAX. cbn [fst snd]. repeat split; lia.
Qed.
