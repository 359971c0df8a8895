(* The functions that take and give references: INDEX, OFFSET, ROW, ROWS, COLUMN, COLUMNS,
   ADDRESS and INDIRECT (RfModel.v). *)
From Coq Require Import List Bool NArith ZArith Lia String.
From Coq Require Import ZifyN ZifyNat ZifyBool.
From Verif Require Import Base CoordModel LexModel RtModel RfModel RfSpec RfProofs RfProofs2.
Import ListNotations.
Open Scope Z_scope.
Notation on_sheet := RfSpec.on_sheet.

(** ** C179: INDEX names the cell, row or column at an index *)
Theorem C179_index_names_the_cell_partial : forall checks view base sheet q row col,
  bounds view base = Ok (sheet, q) -> on_sheet q -> small row -> small col ->
  match picked q row col with
  | Some p => exists r, index_ref checks view base (ANum row) (Some (ANum col)) = Ok r /\ rect_of r = Some (sheet, p)
  | None => index_ref checks view base (ANum row) (Some (ANum col)) = Err K_REF
  end.
Proof. exact index_ref_ok. Qed.
Theorem C179_one_index_partial : forall checks view base sheet q i,
  bounds view base = Ok (sheet, q) -> on_sheet q -> small i ->
  match picked1 q i with
  | Some p => exists r, index_ref checks view base (ANum i) None = Ok r /\ rect_of r = Some (sheet, p)
  | None => index_ref checks view base (ANum i) None = Err K_REF
  end.
Proof. exact index_ref1_ok. Qed.

(** INDEX(INDEX(r,i,0),j) and INDEX(INDEX(r,0,j),i) are INDEX(r,i,j), errors included. *)
Definition then_index checks view (r : res N reft) (i : Z) : res N reft :=
  rbind r (fun r => index_ref checks view r (ANum i) None).
Definition same_cells (x y : res N reft) : Prop :=
  match x, y with
  | Ok a, Ok b => rect_of a = rect_of b /\ rect_of a <> None
  | Err k, Err l => k = l
  | _, _ => False
  end.
Theorem C179_row_then_column_partial : forall checks view base sheet q i j,
  bounds view base = Ok (sheet, q) -> on_sheet q -> 1 <= i -> 1 <= j -> small i -> small j ->
  same_cells (then_index checks view (index_ref checks view base (ANum i) (Some (ANum 0))) j)
             (index_ref checks view base (ANum i) (Some (ANum j))) /\
  same_cells (then_index checks view (index_ref checks view base (ANum 0) (Some (ANum j))) i)
             (index_ref checks view base (ANum i) (Some (ANum j))).
Proof.
  intros checks view base sheet q i j B O Hi Hj Si Sj. assert (S0 : small 0) by (unfold small; lia).
  destruct (picked_twice q i j O Hi Hj) as [T1 T2].
  pose proof (index_ref_ok checks view base sheet q i j B O Si Sj) as D.
  assert (K : forall x y z, small x -> small y -> small z ->
     match picked q x y with Some p => picked1 p z | None => None end = picked q i j ->
     same_cells (then_index checks view (index_ref checks view base (ANum x) (Some (ANum y))) z)
       (index_ref checks view base (ANum i) (Some (ANum j)))).
  { intros x y z Sx Sy Sz T. pose proof (index_ref_ok checks view base sheet q x y B O Sx Sy) as A.
    destruct (picked q x y) as [p|] eqn:P.
    - destruct A as (r & -> & R). cbn [then_index rbind].
      pose proof (picked_on_sheet q x y p O P) as Op.
      pose proof (index_ref1_ok checks view r sheet p z (rect_bounds view r sheet p R) Op Sz) as E.
      rewrite T in E. destruct (picked q i j) as [p'|].
      + destruct D as (d & -> & D). destruct E as (e & -> & E). cbn. rewrite D, E. split; congruence.
      + rewrite D, E. reflexivity.
    - rewrite A. cbn [then_index rbind]. rewrite <- T in D. rewrite D. reflexivity. }
  split; [apply (K i 0 j)|apply (K 0 j i)]; auto.
Qed.

(** The index is cut to 32 bits: a far too large one names the first cell; and with
    overflow checks one index makes the engine panic. *)
Theorem C179_large_index_refuted :
  exists base sheet q i, (forall view, bounds view base = Ok (sheet, q)) /\ on_sheet q /\ picked q i 1 = None /\
    (forall checks view, index_ref checks view base (ANum i) (Some (ANum 1)) = Ok (cell_ref sheet 1 1)).
Proof.
  exists (range_ref None 1 1 3 1), None, (1, 1, 3, 1)%N, 4294967297.
  split; [reflexivity|]. split; [cbn; lia|]. split; [reflexivity|]. intros [|] view; vm_compute; reflexivity.
Qed.
Theorem C179_panic_refuted :
  exists base sheet q i, (forall view, bounds view base = Ok (sheet, q)) /\ on_sheet q /\
    (forall view, index_ref true view base (ANum i) (Some (ANum 1)) = Panic).
Proof.
  exists (range_ref None 1 1 3 1), None, (1, 1, 3, 1)%N, 4294967295.
  split; [reflexivity|]. split; [cbn; lia|]. intros view; vm_compute; reflexivity.
Qed.
(** Of an open range only the used part counts for INDEX, all of it for ROWS: the last row
    of column A is outside column A. *)
Theorem C179_open_range_refuted :
  exists base view n, rows_of view base = Ok n /\
    (forall checks, index_ref checks view base (ANum n) (Some (ANum 1)) = Err K_REF).
Proof.
  exists (RRange None (Box None (Some (1%N, false)) None (Some (1%N, false)))), (fun _ => Ok (Some (1, 1, 3, 1)%N)), 1048576.
  split; [reflexivity|]. intros [|]; vm_compute; reflexivity.
Qed.
(** An open range keeps its sheet: what INDEX gives of its used part is on that sheet. *)
Theorem C179_open_range_sheet_partial : forall checks view sheet er ec q i j p,
  view (RRange sheet (Box None None er ec)) = Ok (Some q) -> on_sheet q -> small i -> small j -> picked q i j = Some p ->
  exists r, index_ref checks view (RRange sheet (Box None None er ec)) (ANum i) (Some (ANum j)) = Ok r /\
    rect_of r = Some (sheet, p).
Proof.
  intros checks view sheet er ec q i j p Hv O Si Sj P.
  assert (B : bounds view (RRange sheet (Box None None er ec)) = Ok (sheet, q)) by (cbn; now rewrite Hv).
  pose proof (index_ref_ok checks view _ sheet q i j B O Si Sj) as A. now rewrite P in A.
Qed.
Theorem C179_errors_pass : forall checks view base k col,
  index_ref checks view base (AFail k) col = Err k /\
  index_ref checks view base AOther col = Err K_VALUE /\
  (forall z, index_ref checks view base (ANum z) (Some (AFail k)) = Err k /\
             index_ref checks view base (ANum z) (Some AOther) = Err K_VALUE) /\
  (forall z, bounds view base = Err k -> index_ref checks view base (ANum z) None = Err k).
Proof.
  intros checks view base k col. repeat split. intros z B. unfold index_ref. cbn [index_arg rbind]. now rewrite B.
Qed.
Example C179_ex : let b := range_ref None 2 2 4 5 in
  (forall view, bounds view b = Ok (None, (2, 2, 4, 5)%N)) /\ on_sheet (2, 2, 4, 5)%N /\ small 3 /\
  picked (2, 2, 4, 5)%N 3 2 = Some (4, 3, 4, 3)%N /\ picked (2, 2, 4, 5)%N 0 2 = Some (2, 3, 4, 3)%N /\
  picked (2, 2, 4, 5)%N 4 2 = None.
Proof. cbn zeta. split; [reflexivity|]. unfold small. cbn. repeat split; lia. Qed.

(** ** C180: INDEX of an array literal is INDEX of a range with the same cells *)
Theorem C180_literal_as_range_partial : forall V empty error cellv checks view base sheet q row col,
  bounds view base = Ok (sheet, q) -> on_sheet q -> small row -> small col ->
  exists a b, index_of_ref checks view V error cellv base (ANum row) (Some (ANum col)) = Ok a /\
              index_of_table V empty error (cells_of V cellv sheet q) (ANum row) (Some (ANum col)) = Ok b /\
              seen a = seen b.
Proof.
  intros V empty error cellv checks view base sheet q row col B O Sr Sc.
  destruct (ref_ok V error cellv checks view base sheet q (ANum row) (Some (ANum col)) (picked q row col) B
              (index_ref_ok checks view base sheet q row col B O Sr Sc)) as (a & E1 & S1).
  destruct (table_ok V empty error cellv sheet q row col O) as (b & E2 & S2).
  exists a, b. repeat split; auto. now rewrite S1, S2.
Qed.
Theorem C180_one_index_partial : forall V empty error cellv checks view base sheet q i,
  bounds view base = Ok (sheet, q) -> on_sheet q -> small i ->
  exists a b, index_of_ref checks view V error cellv base (ANum i) None = Ok a /\
              index_of_table V empty error (cells_of V cellv sheet q) (ANum i) None = Ok b /\
              seen a = seen b.
Proof.
  intros V empty error cellv checks view base sheet q i B O Si.
  destruct (ref_ok V error cellv checks view base sheet q (ANum i) None (picked1 q i) B
              (index_ref1_ok checks view base sheet q i B O Si)) as (a & E1 & S1).
  destruct (table1_ok V empty error cellv sheet q i O) as (b & E2 & S2).
  exists a, b. repeat split; auto. now rewrite S1, S2.
Qed.
Theorem C180_literal_value : forall V empty error cellv sheet q row col, on_sheet q ->
  exists o, index_of_table V empty error (cells_of V cellv sheet q) (ANum row) (Some (ANum col)) = Ok o /\
    seen o = match picked q row col with Some p => cells_of V cellv sheet p | None => [[error K_REF]] end.
Proof. intros V empty error cellv sheet q row col O. exact (table_ok V empty error cellv sheet q row col O). Qed.
(** A cell of the literal that its row does not reach is empty as part of a column, #REF! alone. *)
Theorem C180_ragged_rows : forall V empty error (x y z : V),
  index_of_table V empty error [[x]; [y; z]] (ANum 1) (Some (ANum 2)) = Ok (OScalar V (error K_REF)) /\
  index_of_table V empty error [[x]; [y; z]] (ANum 0) (Some (ANum 2)) = Ok (OGrid V [[empty]; [z]]).
Proof. intros. split; reflexivity. Qed.
Theorem C180_other_index : forall V empty error table k c,
  index_of_table V empty error table AOther c = Ok (OScalar V (error K_VALUE)) /\
  index_of_table V empty error table (AFail k) c = Err k /\
  (forall z, index_of_table V empty error table (ANum z) (Some AOther) = Ok (OScalar V (error K_VALUE))) /\
  (forall z, index_of_table V empty error table (ANum z) (Some (AFail k)) = Err k).
Proof. intros. repeat split. Qed.
Theorem C180_large_index_refuted :
  exists base sheet q i, (forall view, bounds view base = Ok (sheet, q)) /\ on_sheet q /\
    forall checks view V empty error cellv,
      index_of_ref checks view V error cellv base (ANum i) (Some (ANum 1)) = Ok (OScalar V (cellv sheet 1%N 1%N)) /\
      index_of_table V empty error (cells_of V cellv sheet q) (ANum i) (Some (ANum 1)) = Ok (OScalar V (error K_REF)).
Proof.
  exists (range_ref None 1 1 3 1), None, (1, 1, 3, 1)%N, 4294967297.
  split; [reflexivity|]. split; [cbn; lia|]. intros [|] view V empty error cellv; split; vm_compute; reflexivity.
Qed.

(** ** C181: OFFSET moves a range and gives it a size *)
Theorem C181_offset_moves_partial : forall checks view base sheet q dr dc h w q',
  bounds view base = Ok (sheet, q) -> on_sheet q ->
  inside (moved q dr dc (size q h height) (size q w width)) q' ->
  exists r, offset_ref checks view base (ANum dr) (ANum dc) (num h) (num w) = Ok r /\
    rect_of r = Some (sheet, q').
Proof. exact offset_ok. Qed.
(** Before the first row or column, or with no size, the reference is an error. *)
Theorem C181_offset_off_the_top_partial : forall checks view base sheet q dr dc h w,
  bounds view base = Ok (sheet, q) -> on_sheet q -> far dr -> far dc ->
  (let '(a, b, c, d) := moved q dr dc (size q h height) (size q w width) in
   a <= 0 \/ b <= 0 \/ c < a \/ d < b) ->
  offset_ref checks view base (ANum dr) (ANum dc) (num h) (num w) = Err K_REF.
Proof. exact offset_out. Qed.
(** Two moves are one. *)
Theorem C181_moves_add_partial : forall checks view base sheet q dr dc dr2 dc2 q1 q2,
  bounds view base = Ok (sheet, q) -> on_sheet q ->
  inside (moved q dr dc (height q) (width q)) q1 ->
  inside (moved q (dr + dr2) (dc + dc2) (height q) (width q)) q2 ->
  exists r1 r2 r, offset_ref checks view base (ANum dr) (ANum dc) None None = Ok r1 /\
    offset_ref checks view r1 (ANum dr2) (ANum dc2) None None = Ok r2 /\
    offset_ref checks view base (ANum (dr + dr2)) (ANum (dc + dc2)) None None = Ok r /\
    rect_of r2 = Some (sheet, q2) /\ rect_of r = Some (sheet, q2).
Proof.
  intros checks view base sheet q dr dc dr2 dc2 q1 q2 B O I1 I2.
  destruct (offset_ok checks view base sheet q dr dc None None q1 B O I1) as (r1 & E1 & R1).
  destruct (offset_ok checks view base sheet q (dr + dr2) (dc + dc2) None None q2 B O I2) as (r & E & R).
  assert (O1 : on_sheet q1) by (destruct q as [[[? ?] ?] ?], q1 as [[[? ?] ?] ?]; apply I1).
  assert (I3 : inside (moved q1 dr2 dc2 (size q1 None height) (size q1 None width)) q2).
  { destruct q as [[[a b] c] d], q1 as [[[a1 b1] c1] d1], q2 as [[[a2 b2] c2] d2].
    cbn [inside moved size height width] in *. destruct I1 as (X1 & X2 & X3 & X4 & _), I2 as (Y1 & Y2 & Y3 & Y4 & Y5).
    repeat split; try apply Y5; lia. }
  destruct (offset_ok checks view r1 sheet q1 dr2 dc2 None None q2 (rect_bounds view r1 sheet q1 R1) O1 I3) as (r2 & E2 & R2).
  exists r1, r2, r. repeat split; auto.
Qed.
(** A cell inside: INDEX(r,i,j) is OFFSET(r,i-1,j-1,1,1). *)
Theorem C181_offset_as_index_partial : forall checks view base sheet q i j p,
  bounds view base = Ok (sheet, q) -> on_sheet q -> 1 <= i -> 1 <= j -> small i -> small j -> picked q i j = Some p ->
  exists r r', index_ref checks view base (ANum i) (Some (ANum j)) = Ok r /\
    offset_ref checks view base (ANum (i - 1)) (ANum (j - 1)) (Some (ANum 1)) (Some (ANum 1)) = Ok r' /\
    rect_of r = Some (sheet, p) /\ rect_of r' = Some (sheet, p).
Proof.
  intros checks view base sheet q i j p B O Hi Hj Si Sj P.
  pose proof (index_ref_ok checks view base sheet q i j B O Si Sj) as A. rewrite P in A. destruct A as (r & E & R).
  pose proof (picked_on_sheet q i j p O P) as Op.
  assert (I : inside (moved q (i - 1) (j - 1) (size q (Some 1) height) (size q (Some 1) width)) p).
  { destruct q as [[[a b] c] d]. unfold picked, nth_line in P.
    destruct (Z.ltb_spec i 0); [lia|]. destruct (Z.eqb_spec i 0); [lia|].
    destruct (Z.ltb_spec j 0); [lia|]. destruct (Z.eqb_spec j 0); [lia|].
    destruct (Z.leb_spec (Z.of_N a + i - 1) (Z.of_N c)); [|discriminate].
    destruct (Z.leb_spec (Z.of_N b + j - 1) (Z.of_N d)); [|discriminate]. injection P as <-.
    cbn [inside moved size]. split; [|split; [|split; [|split; [|exact Op]]]]; destruct O as (? & ? & ? & ?); lia. }
  destruct (offset_ok checks view base sheet q (i - 1) (j - 1) (Some 1) (Some 1) p B O I) as (r' & E' & R').
  exists r, r'. repeat split; auto.
Qed.
(** There is no last row or column, and far moves come back to the sheet. *)
Theorem C181_below_the_sheet_refuted :
  exists base sheet q dr, (forall view, bounds view base = Ok (sheet, q)) /\ on_sheet q /\
    (forall q', ~ inside (moved q dr 0 1 1) q') /\
    (forall checks view, offset_ref checks view base (ANum dr) (ANum 0) None None = Ok (cell_ref sheet 1048577 1)).
Proof.
  exists (cell_ref None 1 1), None, (1, 1, 1, 1)%N, 1048576.
  split; [reflexivity|]. split; [cbn; lia|]. split.
  - intros [[[a b] c] d]. cbn [inside moved on_sheet]. unfold RfSpec.on_sheet. lia.
  - intros [|] view; vm_compute; reflexivity.
Qed.
Theorem C181_far_move_refuted :
  exists base sheet q dr, (forall view, bounds view base = Ok (sheet, q)) /\ on_sheet q /\ dr <> 0 /\
    (forall checks view, offset_ref checks view base (ANum dr) (ANum 0) None None = Ok base).
Proof.
  exists (cell_ref None 1 1), None, (1, 1, 1, 1)%N, 4294967296.
  split; [reflexivity|]. split; [cbn; lia|]. split; [lia|]. intros [|] view; vm_compute; reflexivity.
Qed.
Theorem C181_panic_refuted :
  exists base sheet q dr, (forall view, bounds view base = Ok (sheet, q)) /\ on_sheet q /\
    (forall view, offset_ref true view base (ANum dr) (ANum 0) None None = Panic).
Proof.
  exists (cell_ref None 1 1), None, (1, 1, 1, 1)%N, 9223372036854775807.
  split; [reflexivity|]. split; [cbn; lia|]. intros view; vm_compute; reflexivity.
Qed.
Example C181_ex : 
  on_sheet (2, 2, 4, 5)%N /\
  inside (moved (2, 2, 4, 5)%N 3 (-1) (size (2, 2, 4, 5)%N None height) (size (2, 2, 4, 5)%N (Some 2) width)) (5, 1, 7, 2)%N /\
  far (-2) /\ (let '(a, b, c, d) := moved (2, 2, 4, 5)%N (-2) 0 3 4 in a <= 0 \/ b <= 0 \/ c < a \/ d < b).
Proof. unfold far. cbn. repeat split; lia. Qed.

(** ** C182: ROW, COLUMN, ROWS and COLUMNS give place and size *)
Theorem C182_place_and_size : forall view r sheet q, rect_of r = Some (sheet, q) -> on_sheet q ->
  let '(sr, sc, er, ec) := q in
  row_of view r = Ok (Z.of_N sr) /\ column_of view r = Ok (Z.of_N sc) /\
  rows_of view r = Ok (height q) /\ columns_of view r = Ok (width q).
Proof.
  intros view r sheet [[[sr sc] er] ec] R (A & B & C & D).
  apply (measure view r sheet sr sc er ec R); lia.
Qed.
(** What OFFSET was told is what they tell. *)
Theorem C182_of_offset : forall checks view base sheet q dr dc h w q',
  bounds view base = Ok (sheet, q) -> on_sheet q -> inside (moved q dr dc h w) q' ->
  exists r, offset_ref checks view base (ANum dr) (ANum dc) (Some (ANum h)) (Some (ANum w)) = Ok r /\
    row_of view r = Ok (let '(sr, _, _, _) := q in Z.of_N sr + dr) /\
    column_of view r = Ok (let '(_, sc, _, _) := q in Z.of_N sc + dc) /\
    rows_of view r = Ok h /\ columns_of view r = Ok w.
Proof.
  intros checks view base sheet q dr dc h w q' B O I.
  destruct (offset_ok checks view base sheet q dr dc (Some h) (Some w) q' B O I) as (r & E & R).
  exists r. split; [exact E|]. destruct q as [[[a b] c] d], q' as [[[a' b'] c'] d'].
  cbn [inside moved] in I. destruct I as (X1 & X2 & X3 & X4 & (Y1 & Y2 & Y3 & Y4)).
  destruct (measure view r sheet a' b' c' d' R) as (M1 & M2 & M3 & M4); [lia|lia|].
  rewrite M1, M2, M3, M4. repeat split; apply f_equal; lia.
Qed.
(** An open side reaches to the end of the sheet. *)
Theorem C182_open_sides : forall view sheet (s c : N) f g, (1 <= s <= 1048576)%N -> (1 <= c <= 16384)%N ->
  rows_of view (RRange sheet (Box None (Some (c, f)) None (Some (c, g)))) = Ok 1048576 /\
  row_of view (RRange sheet (Box None (Some (c, f)) None (Some (c, g)))) = Ok 1 /\
  columns_of view (RRange sheet (Box None (Some (c, f)) None (Some (c, g)))) = Ok 1 /\
  rows_of view (RRange sheet (Box (Some (s, f)) (Some (c, f)) None (Some (c, g)))) = Ok (1048577 - Z.of_N s) /\
  columns_of view (RRange sheet (Box (Some (s, f)) None (Some (s, g)) None)) = Ok 16384 /\
  column_of view (RRange sheet (Box (Some (s, f)) None (Some (s, g)) None)) = Ok 1.
Proof.
  intros view sheet s c f g Hs Hc. unfold rows_of, row_of, columns_of, column_of, size_of. cbn [b_sr b_sc b_er b_ec].
  destruct (N.leb_spec c c); [|lia]. unfold MAX_ROWS. repeat split; apply f_equal; lia.
Qed.
Example C182_ex : on_sheet (5, 1, 7, 2)%N /\ rect_of (range_ref None 5 1 7 2) = Some (None, (5, 1, 7, 2)%N) /\
  height (5, 1, 7, 2)%N = 3 /\ width (5, 1, 7, 2)%N = 2 /\ inside (moved (2, 2, 4, 5)%N 3 (-1) 3 2) (5, 1, 7, 2)%N.
Proof. cbn. repeat split; lia. Qed.

(** ** C183: INDIRECT of ADDRESS is the cell *)
Theorem C183_indirect_of_address_partial : forall row col abs_num sheet,
  1 <= row <= 1048576 -> 1 <= col <= 16384 -> 1 <= abs_num <= 4 -> addressable sheet ->
  exists t ra ca, address row col abs_num true sheet = Ok t /\
    indirect t true = Ok (RCell sheet (Z.to_N row) (Z.to_N col) ra ca) /\
    (ra = true <-> abs_num = 1 \/ abs_num = 2) /\ (ca = true <-> abs_num = 1 \/ abs_num = 3).
Proof.
  intros row col abs_num sheet Hr Hc Ha Hs.
  destruct (address_back row col abs_num sheet Hr Hc Ha Hs) as (t & E & I).
  exists t, (snd (abs_flags abs_num)), (fst (abs_flags abs_num)). split; [exact E|]. split; [exact I|].
  assert (abs_num = 1 \/ abs_num = 2 \/ abs_num = 3 \/ abs_num = 4) as [->|[->|[->| ->]]] by lia; cbn;
    repeat split; intros; try discriminate; lia.
Qed.
(** ADDRESS refuses what no cell has. *)
Theorem C183_address_refuses : forall row col abs_num a1 sheet,
  (exists t, address row col abs_num a1 sheet = Ok t) <-> 1 <= row <= 1048576 /\ 1 <= col <= 16384 /\ 1 <= abs_num <= 4.
Proof.
  intros row col abs_num a1 sheet. unfold address.
  destruct ((1 <=? row) && (row <=? 1048576)) eqn:E1; cbn [negb]; [|split; [intros (t & Q); discriminate|lia]].
  destruct ((1 <=? col) && (col <=? 16384)) eqn:E2; cbn [negb]; [|split; [intros (t & Q); discriminate|lia]].
  destruct ((1 <=? abs_num) && (abs_num <=? 4)) eqn:E3; cbn [negb]; [|split; [intros (t & Q); discriminate|lia]].
  destruct (abs_flags abs_num). split; [lia|]. intros _. eexists. reflexivity.
Qed.
(** A sheet name with a colon is not quoted; and no R1C1 text of ADDRESS is understood. *)
Theorem C183_colon_refuted :
  exists n t, address 1 1 1 true (Some n) = Ok t /\ n <> [] /\
    (forall ra ca, indirect t true <> Ok (RCell (Some n) 1 1 ra ca)).
Proof.
  exists (tx "a:b"%string). eexists. split; [vm_compute; reflexivity|]. split; [discriminate|].
  intros ra ca. vm_compute. discriminate.
Qed.
Theorem C183_r1c1_refuted :
  exists t, address 2 3 1 false None = Ok t /\ (forall ra ca, indirect t false <> Ok (RCell None 2 3 ra ca)).
Proof. eexists. split; [vm_compute; reflexivity|]. intros ra ca. vm_compute. discriminate. Qed.
(** Names and tables are read alike with and without A1; a cell or a range only with it. *)
Theorem C183_indirect_names : forall s r, parse_ref s = Some r ->
  match r with
  | RName _ | RTable _ _ => indirect s false = Ok r /\ (sheet_ref s = None -> indirect s true = Ok r)
  | _ => indirect s false = Err K_NIMPL /\ (sheet_ref s = None -> indirect s true = Err K_REF)
  end.
Proof.
  intros s r P. unfold indirect. rewrite P.
  destruct r; (split; [reflexivity|intros ->; reflexivity]).
Qed.
Theorem C183_indirect_nothing : forall s, parse_ref s = None -> sheet_ref s = None ->
  indirect s false = Err K_NIMPL /\ indirect s true = Err K_REF.
Proof. intros s P Q. unfold indirect. rewrite P, Q. split; reflexivity. Qed.
Example C183_names_ex :
  parse_ref (tx "sales"%string) = Some (RName (tx "sales"%string)) /\ sheet_ref (tx "sales"%string) = None /\
  indirect (tx "B7"%string) false = Err K_NIMPL /\ indirect (tx "B7"%string) true = Ok (RCell None 7 2 false false).
Proof. repeat split; vm_compute; reflexivity. Qed.
Example C183_ex : addressable (Some (tx "It's here"%string)) /\
  address 7 28 2 true (Some (tx "It's here"%string)) = Ok (tx "'It''s here'!AB$7"%string).
Proof. split; [cbn; split; [discriminate|right; left; reflexivity]|vm_compute; reflexivity]. Qed.
Print Assumptions C179_index_names_the_cell_partial.
Print Assumptions C179_one_index_partial.
Print Assumptions C179_row_then_column_partial.
Print Assumptions C179_large_index_refuted.
Print Assumptions C179_panic_refuted.
Print Assumptions C179_open_range_refuted.
Print Assumptions C179_open_range_sheet_partial.
Print Assumptions C179_errors_pass.
Print Assumptions C180_literal_as_range_partial.
Print Assumptions C180_one_index_partial.
Print Assumptions C180_literal_value.
Print Assumptions C180_ragged_rows.
Print Assumptions C180_other_index.
Print Assumptions C180_large_index_refuted.
Print Assumptions C181_offset_moves_partial.
Print Assumptions C181_offset_off_the_top_partial.
Print Assumptions C181_moves_add_partial.
Print Assumptions C181_offset_as_index_partial.
Print Assumptions C181_below_the_sheet_refuted.
Print Assumptions C181_far_move_refuted.
Print Assumptions C181_panic_refuted.
Print Assumptions C182_place_and_size.
Print Assumptions C182_of_offset.
Print Assumptions C182_open_sides.
Print Assumptions C183_indirect_of_address_partial.
Print Assumptions C183_address_refuses.
Print Assumptions C183_colon_refuted.
Print Assumptions C183_r1c1_refuted.
Print Assumptions C183_indirect_names.
Print Assumptions C183_indirect_nothing.
