(* INDEX of tables, OFFSET, sizes, ADDRESS and INDIRECT. *)
From Coq Require Import List Bool NArith ZArith Lia String.
From Coq Require Import ZifyN ZifyNat ZifyBool.
From Verif Require Import Base CoordModel CoordSpec CoordProofs CoordProofs2 LexModel RtModel RtSpec RtProofs RfModel RfSpec RfProofs.
Import ListNotations.
Open Scope Z_scope.
Ltac Zify.zify_post_hook ::= Z.div_mod_to_equations.
Notation on_sheet := RfSpec.on_sheet.

Section Table.
Variable V : Type.
Variable empty : V.
Variable error : N -> V.
Variable cellv : option text -> N -> N -> V.
Notation row_at := (row_at V cellv). Notation cells := (cells_of V cellv).

Lemma seen_one : forall g, seen (one_or_grid V g) = g.
Proof. intros [|[|v [|w l]] [|r g]]; reflexivity. Qed.
Lemma row_nth : forall sheet sc ec r c d, 1 <= c -> Z.of_N sc + c - 1 <= Z.of_N ec ->
  nth (Z.to_nat (c - 1)) (row_at sheet sc ec r) d = cellv sheet r (Z.to_N (Z.of_N sc + c - 1)).
Proof.
  intros sheet sc ec r c d H1 H2. apply nth_error_nth. unfold RfProofs.row_at. rewrite nth_error_map, upto_nth by lia.
  cbn. do 2 f_equal. lia.
Qed.
Lemma table_nth : forall sheet sr sc er ec i, 1 <= i -> Z.of_N sr + i - 1 <= Z.of_N er ->
  nth_error (cells sheet (sr, sc, er, ec)) (Z.to_nat (i - 1)) = Some (row_at sheet sc ec (Z.to_N (Z.of_N sr + i - 1))).
Proof.
  intros sheet sr sc er ec i H1 H2. rewrite cells_rows, nth_error_map, upto_nth by lia. cbn. do 2 f_equal. lia.
Qed.
Definition answer sheet (p : option rect) : list (list V) :=
  match p with Some p => cells sheet p | None => [[error K_REF]] end.

Lemma table_ok : forall sheet q row col, on_sheet q ->
  exists o, index_of_table V empty error (cells sheet q) (ANum row) (Some (ANum col)) = Ok o /\
            seen o = answer sheet (picked q row col).
Proof.
  intros sheet q row col O. destruct q as [[[sr sc] er] ec]. pose proof O as (A & B & C & D).
  assert (Ln : Z.of_nat (length (cells sheet (sr, sc, er, ec))) = Z.of_N er - Z.of_N sr + 1)
    by (rewrite cells_rows, map_length, upto_length; lia).
  assert (Lc : Z.of_nat (fold_right Nat.max 0%nat (map (@length V) (cells sheet (sr, sc, er, ec)))) = Z.of_N ec - Z.of_N sc + 1).
  { rewrite (max_same V (cells sheet (sr, sc, er, ec)) (N.to_nat (ec + 1 - sc))); [lia| |].
    - intros Q. rewrite Q in Ln. cbn [length] in Ln. lia.
    - rewrite cells_rows. intros r Hr. apply in_map_iff in Hr. destruct Hr as (x & <- & _). unfold RfProofs.row_at.
      now rewrite map_length, upto_length. }
  unfold index_of_table. cbn [lit_arg rbind]. rewrite Ln, Lc. unfold picked, nth_line.
  destruct (Z.ltb_spec row 0); [cbn [orb]; eexists; split; reflexivity|].
  destruct (Z.ltb_spec col 0); cbn [orb].
  { eexists; split; [reflexivity|]. destruct (row =? 0); [reflexivity|]. destruct (_ <=? _); reflexivity. }
  destruct (Z.eqb_spec col 0) as [->|Nc].
  - destruct (Z.eqb_spec row 0) as [->|Nr]; [eexists; split; reflexivity|].
    destruct (Z.ltb_spec (Z.of_N er - Z.of_N sr + 1) row).
    + destruct (Z.leb_spec (Z.of_N sr + row - 1) (Z.of_N er)); [lia|]. eexists; split; reflexivity.
    + destruct (Z.leb_spec (Z.of_N sr + row - 1) (Z.of_N er)); [|lia]. rewrite table_nth by lia.
      assert (G : cells sheet (Z.to_N (Z.of_N sr + row - 1), sc, Z.to_N (Z.of_N sr + row - 1), ec)
                  = [row_at sheet sc ec (Z.to_N (Z.of_N sr + row - 1))]) by (rewrite cells_rows, upto_one; reflexivity).
      destruct (Z.eqb_spec (Z.of_N ec - Z.of_N sc + 1) 1).
      * eexists. split; [reflexivity|]. cbn [seen answer]. rewrite G. assert (sc = ec) by lia. subst ec.
        unfold RfProofs.row_at. rewrite upto_one. reflexivity.
      * eexists. split; [reflexivity|]. cbn [seen answer]. now rewrite G.
  - destruct (Z.eqb_spec row 0) as [->|Nr].
    + destruct (Z.ltb_spec (Z.of_N ec - Z.of_N sc + 1) col).
      * destruct (Z.leb_spec (Z.of_N sc + col - 1) (Z.of_N ec)); [lia|]. eexists; split; reflexivity.
      * destruct (Z.leb_spec (Z.of_N sc + col - 1) (Z.of_N ec)); [|lia].
        assert (G : map (fun r => [nth (Z.to_nat (col - 1)) r empty]) (cells sheet (sr, sc, er, ec))
                    = cells sheet (sr, Z.to_N (Z.of_N sc + col - 1), er, Z.to_N (Z.of_N sc + col - 1))).
        { rewrite !cells_rows, map_map. apply map_ext. intros r. rewrite row_nth by lia.
          unfold RfProofs.row_at. now rewrite upto_one. }
        destruct (Z.eqb_spec (Z.of_N er - Z.of_N sr + 1) 1).
        -- eexists. split; [reflexivity|]. cbn [seen answer]. rewrite <- G. assert (sr = er) by lia. subst er.
           rewrite cells_rows, upto_one. reflexivity.
        -- eexists. split; [reflexivity|]. cbn [seen answer]. exact G.
    + destruct (Z.ltb_spec (Z.of_N er - Z.of_N sr + 1) row).
      * destruct (Z.leb_spec (Z.of_N sr + row - 1) (Z.of_N er)); [lia|]. eexists; split; reflexivity.
      * destruct (Z.leb_spec (Z.of_N sr + row - 1) (Z.of_N er)); [|lia]. cbn [orb].
        destruct (Z.ltb_spec (Z.of_N ec - Z.of_N sc + 1) col).
        -- destruct (Z.leb_spec (Z.of_N sc + col - 1) (Z.of_N ec)); [lia|]. eexists; split; reflexivity.
        -- destruct (Z.leb_spec (Z.of_N sc + col - 1) (Z.of_N ec)); [|lia]. rewrite table_nth by lia.
           eexists. split; [reflexivity|]. rewrite row_nth by lia. cbn [seen answer].
           rewrite cells_rows, upto_one. cbn [map]. unfold RfProofs.row_at. rewrite upto_one. reflexivity.
Qed.
Lemma table1_ok : forall sheet q i, on_sheet q ->
  exists o, index_of_table V empty error (cells sheet q) (ANum i) None = Ok o /\ seen o = answer sheet (picked1 q i).
Proof.
  intros sheet q i O. destruct q as [[[sr sc] er] ec]. unfold picked1. pose proof O as (A & B & C & D).
  assert (Ln : Z.of_nat (length (cells sheet (sr, sc, er, ec))) = Z.of_N er - Z.of_N sr + 1)
    by (rewrite cells_rows, map_length, upto_length; lia).
  destruct (N.eqb_spec sr er).
  - destruct (table_ok sheet (sr, sc, er, ec) 1 i O) as (o & E & S). exists o. split; auto.
    rewrite <- E. unfold index_of_table. cbn [lit_arg rbind]. rewrite Ln.
    destruct (Z.eqb_spec (Z.of_N er - Z.of_N sr + 1) 1); [reflexivity|lia].
  - destruct (table_ok sheet (sr, sc, er, ec) i 1 O) as (o & E & S). exists o. split; auto.
    rewrite <- E. unfold index_of_table. cbn [lit_arg rbind]. rewrite Ln.
    destruct (Z.eqb_spec (Z.of_N er - Z.of_N sr + 1) 1); [lia|reflexivity].
Qed.
Lemma ref_ok : forall checks view base sheet q pos col p, bounds view base = Ok (sheet, q) ->
  match p with
  | Some p => exists r, index_ref checks view base pos col = Ok r /\ rect_of r = Some (sheet, p)
  | None => index_ref checks view base pos col = Err K_REF
  end ->
  exists o, index_of_ref checks view V error cellv base pos col = Ok o /\ seen o = answer sheet p.
Proof.
  intros checks view base sheet q pos col p B H. unfold index_of_ref. destruct p as [p|].
  - destruct H as (r & -> & R). rewrite (rect_bounds view r sheet p R). eexists. split; [reflexivity|]. apply seen_one.
  - rewrite H. eexists. split; reflexivity.
Qed.
End Table.

(** ** OFFSET *)
Lemma add64_ok : forall checks a b, I64_MIN <= a + b <= I64_MAX -> add64 checks a b = Ok (a + b).
Proof. intros checks a b H. unfold add64. destruct (Z.leb_spec I64_MIN (a + b)), (Z.leb_spec (a + b) I64_MAX); cbn; auto; lia. Qed.

Definition size (q : rect) (o : option Z) (get : rect -> Z) : Z := match o with Some z => z | None => get q end.
Definition num (o : option Z) : option arg := match o with Some z => Some (ANum z) | None => None end.
Definition far (z : Z) : Prop := -(2 ^ 62) < z < 2 ^ 62.

Lemma offset_ok : forall checks view base sheet q dr dc h w q', bounds view base = Ok (sheet, q) -> on_sheet q ->
  inside (moved q dr dc (size q h height) (size q w width)) q' ->
  exists r, offset_ref checks view base (ANum dr) (ANum dc) (num h) (num w) = Ok r /\ rect_of r = Some (sheet, q').
Proof.
  intros checks view base sheet q dr dc h w q' B O I. destruct q as [[[sr sc] er] ec]. destruct q' as [[[a b] c] d].
  set (H := size (sr, sc, er, ec) h height) in *. set (W := size (sr, sc, er, ec) w width) in *.
  destruct O as (O1 & O2 & O3 & O4). cbn [moved inside] in I. destruct I as (I1 & I2 & I3 & I4 & (J1 & J2 & J3 & J4)).
  unfold offset_ref. cbn [index_arg rbind]. rewrite B. cbn [rbind].
  rewrite (add64_ok checks (Z.of_N sr) dr) by (unfold I64_MIN, I64_MAX; lia). cbn [rbind].
  rewrite (add64_ok checks (Z.of_N sc) dc) by (unfold I64_MIN, I64_MAX; lia). cbn [rbind].
  replace (match num h with Some a0 => index_arg a0 | None => Ok (Z.of_N er - Z.of_N sr + 1) end) with (@Ok N Z H)
    by (unfold H; destruct h; reflexivity).
  replace (match num w with Some a0 => index_arg a0 | None => Ok (Z.of_N ec - Z.of_N sc + 1) end) with (@Ok N Z W)
    by (unfold W; destruct w; reflexivity).
  cbn [rbind]. rewrite <- I1, <- I2.
  replace ((Z.of_N a <=? 0) || (Z.of_N b <=? 0) || (H <=? 0) || (W <=? 0)) with false by lia.
  rewrite (add64_ok checks (Z.of_N a) H) by (unfold I64_MIN, I64_MAX; lia). cbn [rbind].
  rewrite (add64_ok checks (Z.of_N a + H) (-1)) by (unfold I64_MIN, I64_MAX; lia). cbn [rbind].
  rewrite (add64_ok checks (Z.of_N b) W) by (unfold I64_MIN, I64_MAX; lia). cbn [rbind].
  rewrite (add64_ok checks (Z.of_N b + W) (-1)) by (unfold I64_MIN, I64_MAX; lia). cbn [rbind].
  rewrite !as_u32_small by (unfold M32; lia). eexists. split; [reflexivity|].
  destruct (Z.eqb_spec H 1), (Z.eqb_spec W 1); cbn [andb cell_ref range_ref rect_of]; repeat apply f_equal; apply f_equal2; auto; repeat apply f_equal2; lia.
Qed.
Lemma offset_out : forall checks view base sheet q dr dc h w, bounds view base = Ok (sheet, q) -> on_sheet q -> far dr -> far dc ->
  (let '(a, b, c, d) := moved q dr dc (size q h height) (size q w width) in a <= 0 \/ b <= 0 \/ c < a \/ d < b) ->
  offset_ref checks view base (ANum dr) (ANum dc) (num h) (num w) = Err K_REF.
Proof.
  intros checks view base sheet q dr dc h w B O F1 F2 I. destruct q as [[[sr sc] er] ec]. unfold far in *.
  set (H := size (sr, sc, er, ec) h height) in *. set (W := size (sr, sc, er, ec) w width) in *.
  destruct O as (O1 & O2 & O3 & O4). cbn [moved] in I.
  unfold offset_ref. cbn [index_arg rbind]. rewrite B. cbn [rbind].
  rewrite (add64_ok checks (Z.of_N sr) dr) by (unfold I64_MIN, I64_MAX; lia). cbn [rbind].
  rewrite (add64_ok checks (Z.of_N sc) dc) by (unfold I64_MIN, I64_MAX; lia). cbn [rbind].
  replace (match num h with Some a0 => index_arg a0 | None => Ok (Z.of_N er - Z.of_N sr + 1) end) with (@Ok N Z H)
    by (unfold H; destruct h; reflexivity).
  replace (match num w with Some a0 => index_arg a0 | None => Ok (Z.of_N ec - Z.of_N sc + 1) end) with (@Ok N Z W)
    by (unfold W; destruct w; reflexivity).
  cbn [rbind]. replace ((Z.of_N sr + dr <=? 0) || (Z.of_N sc + dc <=? 0) || (H <=? 0) || (W <=? 0)) with true by lia.
  reflexivity.
Qed.

(** ** Sizes *)
Lemma measure : forall view r sheet sr sc er ec, rect_of r = Some (sheet, (sr, sc, er, ec)) -> (sr <= er)%N -> (sc <= ec)%N ->
  row_of view r = Ok (Z.of_N sr) /\ column_of view r = Ok (Z.of_N sc) /\
  rows_of view r = Ok (Z.of_N er - Z.of_N sr + 1) /\ columns_of view r = Ok (Z.of_N ec - Z.of_N sc + 1).
Proof.
  intros view r sheet sr sc er ec H Hr Hc.
  destruct r as [sh row col ra ca|sh [[[a ?]|] [[b ?]|] [[c ?]|] [[d ?]|]]| | | | | |]; cbn [rect_of] in H; try discriminate; injection H as <- <- <- <- <-;
    unfold row_of, column_of, rows_of, columns_of, size_of; cbn [b_sr b_er b_sc b_ec].
  - repeat split; apply f_equal; lia.
  - destruct (N.leb_spec a c); [|lia]. destruct (N.leb_spec b d); [|lia]. repeat split; apply f_equal; lia.
Qed.

(** ** ADDRESS and INDIRECT *)
Open Scope N_scope.
Lemma address_split : forall n t, n <> [] -> memc c_colon n = false \/ memc 32 n = true \/ memc c_bang n = true \/ memc c_sq n = true ->
  extract_sheet (if memc 32 n || memc c_bang n || memc c_sq n then c_sq :: double_q n ++ c_sq :: c_bang :: t else n ++ c_bang :: t) = (ShOne n, t).
Proof.
  intros n t Hn Hq. destruct (memc 32 n || memc c_bang n || memc c_sq n) eqn:E.
  - unfold extract_sheet. rewrite segment_quoted by reflexivity. reflexivity.
  - rewrite !orb_false_iff in E. destruct E as [[E1 E2] E3].
    assert (Hc : memc c_colon n = false) by (destruct Hq as [?|[?|[?|?]]]; congruence). clear Hq.
    unfold extract_sheet, sheet_segment. destruct n as [|c n]; [contradiction|]. cbn [app].
    assert (Q : c =? c_sq = false).
    { rewrite memc_cons in E3. apply orb_false_iff in E3. rewrite N.eqb_sym. apply E3. }
    rewrite Q. change (c :: n ++ c_bang :: t) with ((c :: n) ++ c_bang :: t).
    pose proof (span_stop bare_byte (c :: n) (c_bang :: t) eq_refl) as HS.
    destruct (span bare_byte ((c :: n) ++ c_bang :: t)) as [a b].
    assert (Hfb : sheet_fallback ((c :: n) ++ c_bang :: t) = (ShOne (c :: n), t)) by (apply fallback_bang; auto; discriminate).
    destruct HS as [(Hall & -> & ->)|(x & y & -> & Hx & Hp)]; [reflexivity|].
    destruct a as [|a0 a]; [exact Hfb|].
    assert (X1 : x =? c_colon = false) by (apply N.eqb_neq; intros ->; apply memc_false in Hc; contradiction).
    assert (X2 : x =? c_bang = false) by (apply N.eqb_neq; intros ->; apply memc_false in E2; contradiction).
    rewrite X1, X2. exact Hfb.
Qed.
Definition addressable (sheet : option text) : Prop :=
  match sheet with
  | None => True
  | Some n => n <> [] /\ (memc c_colon n = false \/ memc 32 n = true \/ memc c_bang n = true \/ memc c_sq n = true)
  end.
Lemma address_back : forall row col abs_num sheet, (1 <= row <= 1048576)%Z -> (1 <= col <= 16384)%Z -> (1 <= abs_num <= 4)%Z ->
  addressable sheet ->
  exists t, address row col abs_num true sheet = Ok t /\
    indirect t true = Ok (RCell sheet (Z.to_N row) (Z.to_N col) (snd (abs_flags abs_num)) (fst (abs_flags abs_num))).
Proof.
  intros row col abs_num sheet Hr Hc Ha Hs. unfold address.
  replace ((1 <=? row) && (row <=? 1048576))%Z with true by lia.
  replace ((1 <=? col) && (col <=? 16384))%Z with true by lia.
  replace ((1 <=? abs_num) && (abs_num <=? 4))%Z with true by lia. cbn [negb].
  destruct (abs_flags abs_num) as [ca ra]. eexists. split; [reflexivity|]. cbn [fst snd].
  set (t := cell_text (Z.to_N row) (Z.to_N col) ra ca).
  assert (R1 : 1 <= Z.to_N row < U32) by (rewrite <- u32_lt; lia).
  assert (C1 : 1 <= Z.to_N col <= 16384) by lia.
  pose proof (cell_bytes (Z.to_N row) (Z.to_N col) ra ca (proj2 R1) C1) as HB.
  assert (B : forall x, ~ corner_byte x -> memc x t = false) by (intros; apply corner_no; auto).
  assert (P : parse_a1_components t = Ok (Z.to_N row, Z.to_N col, ra, ca)).
  { unfold t. rewrite cell_eval by auto. destruct (N.ltb_spec 1048576 (Z.to_N row)); [lia|reflexivity]. }
  unfold indirect, sheet_ref. destruct sheet as [n|].
  - destruct Hs as [H1 H2]. rewrite address_split by auto. rewrite (B c_lb) by not_corner. rewrite (B c_colon) by not_corner.
    rewrite P. reflexivity.
  - rewrite extract_none by (apply B; not_corner). rewrite (B c_lb) by not_corner. rewrite (B c_colon) by not_corner.
    rewrite P. reflexivity.
Qed.
