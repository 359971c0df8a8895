(** Property theorems C01-C07: coordinates, column letters, A1 text, addresses. *)
From Verif Require Import Base CoordModel CoordSpec CoordProofs CoordProofs2.
Open Scope N_scope.

(** C01 — construction and reading back, for every u32 row/column and flags. *)
Theorem C01_coord_roundtrip : forall row col ra ca, on_sheet row col ->
  exists w, rcoord_try_new row col ra ca = Ok w /\ w < U64 /\
    rcoord_row w = row /\ rcoord_col w = col /\ rcoord_row_abs w = ra /\ rcoord_col_abs w = ca.
Proof. exact rcoord_roundtrip. Qed.
Print Assumptions C01_coord_roundtrip.

Theorem C01_plain_coord_roundtrip : forall row col, on_sheet row col ->
  exists w, coord_try_new row col = Ok w /\ coord_new row col = Ok w /\
    coord_row w = row /\ coord_col w = col /\ coord_is_valid w = true.
Proof. exact coord_roundtrip. Qed.
Print Assumptions C01_plain_coord_roundtrip.

Theorem C01_coord_injective : forall r1 c1 a1 b1 r2 c2 a2 b2 w,
  rcoord_try_new r1 c1 a1 b1 = Ok w -> rcoord_try_new r2 c2 a2 b2 = Ok w ->
  r1 = r2 /\ c1 = c2 /\ a1 = a2 /\ b1 = b2.
Proof. exact rcoord_injective. Qed.
Print Assumptions C01_coord_injective.

(** Off-sheet arguments are refused by the fallible constructors and panic in [new]. *)
Theorem C01_coord_refuses : forall row col ra ca, ~ on_sheet row col ->
  (exists e, rcoord_try_new row col ra ca = Err e) /\ (exists e, coord_try_new row col = Err e) /\
  rcoord_new row col ra ca = Panic /\ coord_new row col = Panic.
Proof. exact coord_refuses. Qed.
Print Assumptions C01_coord_refuses.

(** Changing one marker changes nothing else. *)
Theorem C01_with_abs : forall row col ra ca b w, on_sheet row col ->
  rcoord_try_new row col ra ca = Ok w ->
  rcoord_try_new row col b ca = Ok (rcoord_with_row_abs w b) /\
  rcoord_try_new row col ra b = Ok (rcoord_with_col_abs w b).
Proof. exact with_abs_spec. Qed.
Print Assumptions C01_with_abs.

Example C01_nonvacuous : on_sheet 1048575 16383 /\ on_sheet 0 0 /\ ~ on_sheet 1048576 0.
Proof. unfold on_sheet; repeat split; try reflexivity. intros [H _]; vm_compute in H; discriminate. Qed.

(** C02 — a raw word is accepted exactly if a legal coordinate (or the sentinel) produces it. *)
Theorem C02_raw_exact : forall raw c, raw < U64 ->
  (coord_from_raw raw = Ok c <->
   c = raw /\ (raw = 18446744073709551615 \/ exists row col, on_sheet row col /\ coord_new row col = Ok raw)).
Proof. exact coord_raw_exact. Qed.
Print Assumptions C02_raw_exact.

Theorem C02_raw_relative_exact : forall raw c, raw < U64 ->
  (rcoord_from_raw raw = Ok c <->
   c = raw /\ exists row col ra ca, on_sheet row col /\ rcoord_new row col ra ca = Ok raw).
Proof. exact rcoord_raw_exact. Qed.
Print Assumptions C02_raw_relative_exact.

(** [normalize] always yields an acceptable word with the same row and column. *)
Theorem C02_normalize : forall raw, raw < U64 ->
  coord_from_raw (coord_normalize raw) = Ok (coord_normalize raw) /\
  coord_row (coord_normalize raw) = coord_row raw /\ coord_col (coord_normalize raw) = coord_col raw /\
  coord_normalize (coord_normalize raw) = coord_normalize raw.
Proof. exact normalize_spec. Qed.
Print Assumptions C02_normalize.

Example C02_nonvacuous : (0x123456789 < U64) /\ (exists e, coord_from_raw 0x123456789 = Err e) /\
  coord_from_raw 0x12345400 = Ok 0x12345400.
Proof. split; [reflexivity|]. split; [eexists|]; vm_compute; reflexivity. Qed.

(** C03 — column letters. *)
Theorem C03_letters_of_column : forall col, col < U32 ->
  exists l, column_to_letters col = Some l /\ l <> [] /\ upper_letters l /\ column_value l = col + 1.
Proof. exact letters_of_column. Qed.
Print Assumptions C03_letters_of_column.

Theorem C03_column_roundtrip : forall col l, col < U32 ->
  column_to_letters col = Some l -> letters_to_column_index l = Some col.
Proof. exact column_roundtrip. Qed.
Print Assumptions C03_column_roundtrip.

Theorem C03_letters_roundtrip : forall s c,
  letters_to_column_index s = Some c -> column_to_letters c = Some (map to_ascii_upper s).
Proof. exact letters_roundtrip. Qed.
Print Assumptions C03_letters_roundtrip.

(** Acceptance is exactly "non-empty ASCII letters whose value fits in u32". *)
Theorem C03_letters_accept : forall s c,
  letters_to_column_index s = Some c <->
  s <> [] /\ ascii_letters s /\ column_value s = c + 1 /\ c < U32.
Proof. exact letters_to_column_index_iff. Qed.
Print Assumptions C03_letters_accept.

Theorem C03_columns_distinct : forall c1 c2 l, c1 < U32 -> c2 < U32 ->
  column_to_letters c1 = Some l -> column_to_letters c2 = Some l -> c1 = c2.
Proof. exact columns_distinct. Qed.
Print Assumptions C03_columns_distinct.

(** The one-based, sheet-bounded API. *)
Theorem C03_one_based_roundtrip : forall col l,
  col_letters_from_1based col = Ok l -> col_index_from_letters_1based l = Ok col.
Proof. exact one_based_roundtrip. Qed.
Print Assumptions C03_one_based_roundtrip.

Theorem C03_one_based_accept : forall s c,
  col_index_from_letters_1based s = Ok c <->
  s <> [] /\ ascii_letters s /\ column_value s = c /\ 1 <= c <= 16384.
Proof. exact col_index_1based_iff. Qed.
Print Assumptions C03_one_based_accept.

(** Finding: one (and only one, up to case) letter string makes the one-based
    conversion overflow its u32 arithmetic instead of reporting an error. *)
Theorem C03_one_based_never_panics_refuted :
  exists s, ascii_letters s /\ col_index_from_letters_1based s = Panic.
Proof. exact one_based_panics. Qed.
Print Assumptions C03_one_based_never_panics_refuted.

Theorem C03_one_based_panic_exact : forall s,
  col_index_from_letters_1based s = Panic <->
  map to_ascii_upper s = [77; 87; 76; 81; 75; 87; 86] (* MWLQKWV *) .
Proof. exact one_based_panic_exact. Qed.
Print Assumptions C03_one_based_panic_exact.

Example C03_nonvacuous : column_to_letters 16383 = Some [88; 70; 68] (* XFD *) /\
  letters_to_column_index [120; 102; 68] (* xfD *) = Some 16383.
Proof. split; vm_compute; reflexivity. Qed.

(** C04 — A1 text. *)
Theorem C04_a1_roundtrip : forall row col ra ca, on_sheet row col ->
  exists w s, rcoord_try_new row col ra ca = Ok w /\ rcoord_display w = Some s /\
              rcoord_try_from_a1 s = Ok w.
Proof. exact a1_roundtrip. Qed.
Print Assumptions C04_a1_roundtrip.

(** The parser accepts exactly the A1 grammar. *)
Theorem C04_a1_exact : forall s row col ra ca,
  parse_a1_components s = Ok (row, col, ra, ca) <-> a1_reference s row col ra ca.
Proof. exact parse_a1_iff. Qed.
Print Assumptions C04_a1_exact.

Theorem C04_a1_accepts_on_sheet : forall s w,
  rcoord_try_from_a1 s = Ok w ->
  on_sheet (rcoord_row w) (rcoord_col w) /\
  a1_reference s (rcoord_row w + 1) (rcoord_col w + 1) (rcoord_row_abs w) (rcoord_col_abs w).
Proof. exact a1_accepts_on_sheet. Qed.
Print Assumptions C04_a1_accepts_on_sheet.

(** The marker-less parse denotes the same cell. *)
Theorem C04_plain_parse_agrees : forall s w,
  rcoord_try_from_a1 s = Ok w ->
  exists c, coord_try_from_a1 s = Ok c /\ coord_new (rcoord_row w) (rcoord_col w) = Ok c.
Proof. exact plain_parse_agrees. Qed.
Print Assumptions C04_plain_parse_agrees.

Example C04_nonvacuous : exists w, rcoord_try_from_a1 [36; 98; 36; 49; 50] (* $b$12 *) = Ok w /\ rcoord_new 11 1 true true = Ok w.
Proof. eexists. split; vm_compute; reflexivity. Qed.

(** C05 — signed conversion.  Full statement:
      forall row col c, coord_try_from_i64 row col = Ok c ->
        (0 <= row < 2^20) /\ (0 <= col < 2^14) /\ coord_row c = row /\ coord_col c = col.
    It is false: the casts truncate. *)
Theorem C05_signed_conversion_refuted :
  exists row col c, coord_try_from_i64 row col = Ok c /\
    ~ (0 <= row < 1048576)%Z /\ coord_row c = 0 /\ (row < 2 ^ 63)%Z.
Proof. exact signed_conversion_refuted. Qed.
Print Assumptions C05_signed_conversion_refuted.

(** What holds: exactly the residues modulo 2^32 are accepted ... *)
Theorem C05_signed_conversion_exact : forall row col c,
  coord_try_from_i64 row col = Ok c <->
  (0 <= row)%Z /\ (0 <= col)%Z /\ (row mod 2 ^ 32 < 1048576)%Z /\ (col mod 2 ^ 32 < 16384)%Z /\
  coord_new (Z.to_N (row mod 2 ^ 32)) (Z.to_N (col mod 2 ^ 32)) = Ok c.
Proof. exact signed_conversion_exact. Qed.
Print Assumptions C05_signed_conversion_exact.

(** ... so the property holds for arguments below 2^32. *)
Theorem C05_signed_conversion_partial : forall row col c,
  (row < 2 ^ 32)%Z -> (col < 2 ^ 32)%Z -> coord_try_from_i64 row col = Ok c ->
  (0 <= row < 1048576)%Z /\ (0 <= col < 16384)%Z /\
  Z.of_N (coord_row c) = row /\ Z.of_N (coord_col c) = col.
Proof. exact signed_conversion_small. Qed.
Print Assumptions C05_signed_conversion_partial.

(** C06 — rebasing. *)
Theorem C06_rebase_exact : forall r c ra ca w o_r o_c oa ob o t_r t_c ta tb t,
  rcoord_try_new r c ra ca = Ok w -> rcoord_try_new o_r o_c oa ob = Ok o ->
  rcoord_try_new t_r t_c ta tb = Ok t ->
  let r' := if ra then Z.of_N r else (Z.of_N r + Z.of_N t_r - Z.of_N o_r)%Z in
  let c' := if ca then Z.of_N c else (Z.of_N c + Z.of_N t_c - Z.of_N o_c)%Z in
  ((0 <= r' < 1048576)%Z /\ (0 <= c' < 16384)%Z ->
     rcoord_rebase w o t = rcoord_new (Z.to_N r') (Z.to_N c') ra ca /\
     rcoord_rebase w o t <> Panic) /\
  (~ ((0 <= r' < 1048576)%Z /\ (0 <= c' < 16384)%Z) -> rcoord_rebase w o t = Panic).
Proof. exact rebase_exact. Qed.
Print Assumptions C06_rebase_exact.

Theorem C06_rebase_compose : forall w o m t w1 w2,
  valid_rcoord w -> valid_rcoord o -> valid_rcoord m -> valid_rcoord t ->
  rcoord_rebase w o m = Ok w1 -> rcoord_rebase w1 m t = Ok w2 -> rcoord_rebase w o t = Ok w2.
Proof. exact rebase_compose. Qed.
Print Assumptions C06_rebase_compose.

Theorem C06_rebase_undo : forall w o t w1,
  valid_rcoord w -> valid_rcoord o -> valid_rcoord t ->
  rcoord_rebase w o t = Ok w1 -> rcoord_rebase w1 t o = Ok w.
Proof. exact rebase_undo. Qed.
Print Assumptions C06_rebase_undo.

(** [offset] moves both axes regardless of markers, and panics exactly off the sheet. *)
Theorem C06_offset_exact : forall r c ra ca w dr dc,
  rcoord_try_new r c ra ca = Ok w -> (- 2 ^ 31 <= dr < 2 ^ 31)%Z -> (- 2 ^ 31 <= dc < 2 ^ 31)%Z ->
  rcoord_offset w dr dc =
  if ((0 <=? Z.of_N r + dr) && (Z.of_N r + dr <? 1048576) &&
      (0 <=? Z.of_N c + dc) && (Z.of_N c + dc <? 16384))%Z
  then rcoord_new (Z.to_N (Z.of_N r + dr)) (Z.to_N (Z.of_N c + dc)) ra ca else Panic.
Proof. exact offset_exact. Qed.
Print Assumptions C06_offset_exact.

Example C06_nonvacuous :
  exists w o t, rcoord_new 5 2 false true = Ok w /\ rcoord_new 4 0 false false = Ok o /\
    rcoord_new 9 7 false false = Ok t /\ rcoord_rebase w o t = rcoord_new 10 2 false true /\
    valid_rcoord w.
Proof.
  do 3 eexists. split; [reflexivity|]. split; [reflexivity|]. split; [reflexivity|].
  split; [vm_compute; reflexivity|]. exists 5, 2, false, true. split; [split; reflexivity|reflexivity].
Qed.

(** C07 — vertex addresses. *)
Theorem C07_grid_decodes : forall row col w, coord_new row col = Ok w ->
  vaddr_as_grid (vaddr_grid w) = Some w /\ vaddr_as_symbol (vaddr_grid w) = None /\
  vaddr_grid w <> vaddr_INVALID.
Proof. exact grid_decodes. Qed.
Print Assumptions C07_grid_decodes.

Theorem C07_symbol_decodes : forall i, i < U32 ->
  vaddr_as_symbol (vaddr_symbol i) = Some i /\ vaddr_as_grid (vaddr_symbol i) = None /\
  vaddr_symbol i <> vaddr_INVALID.
Proof. exact symbol_decodes. Qed.
Print Assumptions C07_symbol_decodes.

Theorem C07_invalid_decodes :
  vaddr_as_grid vaddr_INVALID = None /\ vaddr_as_symbol vaddr_INVALID = None.
Proof. exact invalid_decodes. Qed.
Print Assumptions C07_invalid_decodes.

Theorem C07_disjoint : forall row col w i j, coord_new row col = Ok w -> i < U32 -> j < U32 ->
  vaddr_grid w <> vaddr_symbol i /\ (vaddr_symbol i = vaddr_symbol j -> i = j).
Proof. exact addr_disjoint. Qed.
Print Assumptions C07_disjoint.

(** No word decodes as both kinds. *)
Theorem C07_kinds_exclusive : forall a, a < U64 ->
  vaddr_as_grid a = None \/ vaddr_as_symbol a = None.
Proof. exact kinds_exclusive. Qed.
Print Assumptions C07_kinds_exclusive.

Theorem C07_order : forall r1 c1 w1 r2 c2 w2 i j,
  coord_new r1 c1 = Ok w1 -> coord_new r2 c2 = Ok w2 -> i < U32 -> j < U32 ->
  vaddr_order_key (vaddr_grid w1) = (r1, c1) /\
  (key_lt (vaddr_order_key (vaddr_grid w1)) (vaddr_order_key (vaddr_grid w2)) <->
     r1 < r2 \/ (r1 = r2 /\ c1 < c2)) /\
  key_lt (vaddr_order_key (vaddr_grid w1)) (vaddr_order_key (vaddr_symbol i)) /\
  (key_lt (vaddr_order_key (vaddr_symbol i)) (vaddr_order_key (vaddr_symbol j)) <-> i < j).
Proof. exact addr_order. Qed.
Print Assumptions C07_order.

Example C07_nonvacuous : exists w, coord_new 1048575 16383 = Ok w /\ 4294967295 < U32.
Proof. eexists; split; [vm_compute; reflexivity|reflexivity]. Qed.
