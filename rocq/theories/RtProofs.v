(* Cells, ranges and sheet names: what is displayed is read back. *)
From Coq Require Import List Bool NArith ZArith Lia String.
From Coq Require Import ZifyN ZifyNat ZifyBool.
From Verif Require Import Base CoordModel CoordSpec CoordProofs CoordProofs2 LexModel RtModel RtSpec.
Import ListNotations.
Open Scope N_scope.
Ltac Zify.zify_post_hook ::= Z.div_mod_to_equations.

(* ---- bytes ---- *)
Lemma memc_cons : forall c x l, memc c (x :: l) = (c =? x) || memc c l.
Proof. reflexivity. Qed.
Lemma memc_app : forall c a b, memc c (a ++ b) = memc c a || memc c b.
Proof. intros. unfold memc. apply existsb_app. Qed.
Lemma memc_false : forall c l, memc c l = false <-> ~ In c l.
Proof.
  intros c l. unfold memc. split.
  - intros H Hin. assert (existsb (N.eqb c) l = true); [|congruence].
    apply existsb_exists. exists c. split; auto. apply N.eqb_refl.
  - intro H. destruct (existsb (N.eqb c) l) eqn:E; auto. exfalso. apply H.
    apply existsb_exists in E. destruct E as [x [Hx Ex]]. apply N.eqb_eq in Ex. subst; auto.
Qed.
Lemma memc_forall : forall c (P : N -> Prop) l, Forall P l -> ~ P c -> memc c l = false.
Proof. intros c P l H Hc. apply memc_false. intro Hin. apply Hc. rewrite Forall_forall in H. auto. Qed.

Lemma cut_app : forall c a b, memc c a = false -> cut c (a ++ c :: b) = Some (a, b).
Proof.
  induction a as [|x a IH]; intros b H; cbn [app cut].
  - rewrite N.eqb_refl. reflexivity.
  - rewrite memc_cons in H. apply orb_false_iff in H. destruct H as [H1 H2].
    rewrite N.eqb_sym, H1, IH by auto. reflexivity.
Qed.
Lemma cut_none : forall c s, cut c s = None <-> memc c s = false.
Proof.
  induction s as [|x s IH]; [split; reflexivity|]. cbn [cut]. rewrite memc_cons, (N.eqb_sym c x).
  destruct (x =? c); cbn [orb]; [split; discriminate|].
  destruct (cut c s) as [[a b]|]; [|tauto].
  split; [discriminate|]. intro H. apply IH in H. discriminate.
Qed.
Lemma cut_some : forall c s a b, cut c s = Some (a, b) -> s = a ++ c :: b /\ memc c a = false.
Proof.
  induction s as [|x s IH]; intros a b H; [discriminate|]. cbn [cut] in H.
  destruct (N.eqb_spec x c) as [->|Hx].
  - injection H as <- <-. split; reflexivity.
  - destruct (cut c s) as [[a0 b0]|]; [|discriminate]. injection H as <- <-.
    destruct (IH a0 b0 eq_refl) as [-> H]. split; [reflexivity|].
    rewrite memc_cons, H. destruct (N.eqb_spec c x); [congruence|reflexivity].
Qed.

(* ---- columns, rows, corners ---- *)
Lemma col_text_spec : forall c, 1 <= c <= 16384 ->
  upper_letters (col_text c) /\ col_text c <> [] /\ column_value (col_text c) = c.
Proof.
  intros c H. unfold col_text, col_letters_from_1based, COL_MAX_1BASED, COL_MAX.
  destruct (N.eqb_spec c 0); [lia|]. destruct (N.ltb_spec (16383 + 1) c); [lia|]. cbn [orb].
  destruct (column_to_letters_spec (c - 1)) as (l & -> & Hu & Hn & Hv).
  { unfold U32; change (2^32) with 4294967296; lia. }
  repeat split; auto. lia.
Qed.
Lemma show_row_spec : forall r, r < U32 ->
  ascii_digits (show_u32 r) /\ show_u32 r <> [] /\ decimal_value (show_u32 r) = r.
Proof.
  intros r H. apply show_u32_spec. unfold U32 in H. change (2^32) with 4294967296 in H.
  change (10^20) with 100000000000000000000. lia.
Qed.
Lemma abs_dollar : forall a, abs_text a = dollar a.
Proof. destruct a; reflexivity. Qed.

Definition corner_byte (c : N) : Prop := c = 36 \/ 65 <= c <= 90 \/ 48 <= c <= 57.
Lemma abs_bytes : forall a, Forall corner_byte (abs_text a).
Proof. destruct a; repeat constructor. Qed.
Lemma col_bytes : forall c, 1 <= c <= 16384 -> Forall corner_byte (col_text c).
Proof.
  intros c H. destruct (col_text_spec c H) as [Hu _]. eapply Forall_impl; [|exact Hu].
  intros a Ha. right. left. exact Ha.
Qed.
Lemma row_bytes : forall r, r < U32 -> Forall corner_byte (show_u32 r).
Proof.
  intros r H. destruct (show_row_spec r H) as [Hu _]. eapply Forall_impl; [|exact Hu].
  intros a Ha. right. right. exact Ha.
Qed.
Lemma cell_bytes : forall row col ra ca, row < U32 -> 1 <= col <= 16384 ->
  Forall corner_byte (cell_text row col ra ca).
Proof.
  intros. unfold cell_text. repeat (apply Forall_app; split); auto using abs_bytes, col_bytes, row_bytes.
Qed.

(* Reading '$' letters '$' digits. *)
Lemma a1_eval : forall (ca ra : bool) L D, L <> [] -> ascii_letters L -> D <> [] -> ascii_digits D ->
  parse_a1_components (dollar ca ++ L ++ dollar ra ++ D)
  = rbind (col_index_from_letters_1based L) (fun col =>
      match parse_digits D 0 with
      | None => Err (RowOutOfRange (ROW_MAX_1BASED + 1))
      | Some row => if (row =? 0) || (ROW_MAX_1BASED <? row) then Err (RowOutOfRange row)
                    else Ok (row, col, ra, ca)
      end).
Proof.
  intros ca ra L D HL HLa HD HDd. rewrite parse_a1_unfold.
  assert (T : parse_tail ca (L ++ dollar ra ++ D)
    = rbind (col_index_from_letters_1based L) (fun col =>
      match parse_digits D 0 with
      | None => Err (RowOutOfRange (ROW_MAX_1BASED + 1))
      | Some row => if (row =? 0) || (ROW_MAX_1BASED <? row) then Err (RowOutOfRange row)
                    else Ok (row, col, ra, ca)
      end)).
  { unfold parse_tail. rewrite (span_app is_ascii_alpha L (dollar ra ++ D)).
    2:{ apply letters_alpha; exact HLa. }
    2:{ destruct ra; cbn [dollar app]; [reflexivity|]. destruct D as [|d D]; [exact I|].
        inversion HDd; subst. unfold is_ascii_alpha, is_ascii_upper, is_ascii_lower. lia. }
    destruct L as [|l0 L0]; [contradiction|].
    assert (E3 : match dollar ra ++ D with
        | b :: tl => if b =? 36 then (true, tl) else (false, dollar ra ++ D)
        | [] => (false, dollar ra ++ D)
        end = (ra, D)).
    { destruct ra; cbn [dollar app]; [reflexivity|]. destruct D as [|d D]; [reflexivity|].
      inversion HDd as [|? ? Hd _]; subst. destruct (N.eqb_spec d 36); [lia|reflexivity]. }
    rewrite E3. destruct D as [|d0 D0]; [contradiction|].
    assert (Hsp : span is_ascii_digit (d0 :: D0) = (d0 :: D0, [])).
    { rewrite <- (app_nil_r (d0 :: D0)) at 1. apply span_app; [|exact I]. apply digits_digit; exact HDd. }
    rewrite Hsp. reflexivity. }
  destruct L as [|l0 L0]; [contradiction|].
  assert (Hl : l0 =? 36 = false).
  { inversion HLa; subst. apply N.eqb_neq. lia. }
  destruct ca; cbn [dollar app] in *.
  - change (36 =? 36) with true. cbn iota. exact T.
  - rewrite Hl. exact T.
Qed.

Lemma row_digits : forall r, 1 <= r < U32 -> parse_digits (show_u32 r) 0 = Some r.
Proof.
  intros r H. destruct (show_row_spec r) as (_ & _ & Hv); [lia|].
  apply parse_digits_iff; [reflexivity|]. split; [exact Hv|lia].
Qed.
Lemma col_read : forall c, 1 <= c <= 16384 -> col_index_from_letters_1based (col_text c) = Ok c.
Proof.
  intros c H. destruct (col_text_spec c H) as (Hu & Hn & Hv). apply col_index_1based_iff.
  repeat split; auto; try lia. apply upper_is_letters; exact Hu.
Qed.

Lemma cell_eval : forall row col ra ca, 1 <= row < U32 -> 1 <= col <= 16384 ->
  parse_a1_components (cell_text row col ra ca)
  = if 1048576 <? row then Err (RowOutOfRange row) else Ok (row, col, ra, ca).
Proof.
  intros row col ra ca Hr Hc. unfold cell_text. rewrite !abs_dollar.
  destruct (col_text_spec col Hc) as (Hu & Hn & _). destruct (show_row_spec row) as (Hd & Hdn & _); [lia|].
  rewrite a1_eval by (auto using upper_is_letters). rewrite col_read by auto. cbn [rbind].
  rewrite row_digits by auto. destruct (N.eqb_spec row 0); [lia|]. reflexivity.
Qed.

Lemma opt_dollar_app : forall (a : bool) s, starts c_dollar s = false -> opt_dollar (abs_text a ++ s) = (a, s).
Proof.
  intros [] s H; cbn [abs_text app opt_dollar].
  - rewrite N.eqb_refl. reflexivity.
  - destruct s as [|c s]; [reflexivity|]. cbn [opt_dollar]. unfold starts in H. rewrite H. reflexivity.
Qed.
Lemma starts_col : forall c r, 1 <= c <= 16384 -> starts c_dollar (col_text c ++ r) = false.
Proof.
  intros c r H. destruct (col_text_spec c H) as (Hu & Hn & _).
  destruct (col_text c) as [|x l]; [contradiction|]. inversion Hu; subst. cbn [app starts].
  apply N.eqb_neq. unfold c_dollar. lia.
Qed.
Lemma starts_row : forall r, r < U32 -> starts c_dollar (show_u32 r) = false.
Proof.
  intros r H. destruct (show_row_spec r H) as (Hu & Hn & _).
  destruct (show_u32 r) as [|x l]; [contradiction|]. inversion Hu; subst. cbn [starts].
  apply N.eqb_neq. unfold c_dollar. lia.
Qed.
Lemma row_number_show : forall r, 1 <= r < U32 -> row_number (show_u32 r) = Some r.
Proof.
  intros r H. unfold row_number. destruct (show_row_spec r) as (Hd & Hn & _); [lia|].
  assert (Hsp : span is_ascii_digit (show_u32 r) = (show_u32 r, [])).
  { rewrite <- (app_nil_r (show_u32 r)) at 1. apply span_app; [|exact I]. apply digits_digit; exact Hd. }
  rewrite Hsp. pose proof (row_digits r H) as Q. destruct (show_u32 r) eqn:E; [contradiction|].
  rewrite Q. destruct (N.eqb_spec r 0); [lia|reflexivity].
Qed.

Lemma span_col : forall c s, 1 <= c <= 16384 ->
  match s with [] => True | x :: _ => is_ascii_alpha x = false end ->
  span is_ascii_alpha (col_text c ++ s) = (col_text c, s).
Proof.
  intros c s H Hs. apply span_app; auto. destruct (col_text_spec c H) as (Hu & _).
  apply letters_alpha, upper_is_letters, Hu.
Qed.

Lemma nonalpha_row : forall (a : bool) r, r < U32 ->
  match abs_text a ++ show_u32 r with [] => True | x :: _ => is_ascii_alpha x = false end.
Proof.
  intros [] r H; cbn [abs_text app]; [reflexivity|].
  destruct (show_row_spec r H) as (Hu & _). destruct (show_u32 r) as [|x l]; auto.
  inversion Hu; subst. unfold is_ascii_alpha, is_ascii_upper, is_ascii_lower. lia.
Qed.

Lemma part_cell : forall row col ra ca, 1 <= row < U32 -> 1 <= col <= 16384 ->
  range_part (cell_text row col ra ca) = Some (Some (col, ca), Some (row, ra)).
Proof.
  intros row col ra ca Hr Hc. unfold range_part. rewrite cell_eval by auto.
  destruct (1048576 <? row); [|reflexivity].
  unfold cell_text. rewrite opt_dollar_app by (apply starts_col; auto).
  rewrite span_col by (auto; apply nonalpha_row; lia).
  pose proof (col_read col Hc) as Hcr. destruct (col_text_spec col Hc) as (_ & Hn & _).
  destruct (col_text col) as [|x l]; [contradiction|]. rewrite Hcr.
  destruct (show_row_spec row) as (_ & Hdn & _); [lia|].
  destruct (abs_text ra ++ show_u32 row) as [|y m] eqn:E.
  { destruct ra; [discriminate|]. cbn in E. contradiction. }
  rewrite <- E, opt_dollar_app by (apply starts_row; lia). rewrite row_number_show by auto. reflexivity.
Qed.

Lemma part_col : forall col ca, 1 <= col <= 16384 ->
  range_part (abs_text ca ++ col_text col) = Some (Some (col, ca), None).
Proof.
  intros col ca Hc. unfold range_part.
  assert (E : exists e, parse_a1_components (abs_text ca ++ col_text col) = Err e).
  { rewrite parse_a1_unfold. destruct (col_text_spec col Hc) as (Hu & Hn & _).
    assert (T : parse_tail ca (col_text col) = Err MissingRow).
    { unfold parse_tail. rewrite <- (app_nil_r (col_text col)), span_col by (auto; exact I).
      destruct (col_text col); [contradiction|]. reflexivity. }
    destruct (col_text col) as [|x l]; [contradiction|]. inversion Hu; subst.
    destruct ca; cbn [abs_text app].
    - change (c_dollar =? 36) with true. cbn iota. eauto.
    - assert (Q : x =? 36 = false) by (apply N.eqb_neq; lia). rewrite Q. eauto. }
  destruct E as [e ->].
  assert (Hs : starts c_dollar (col_text col) = false).
  { pose proof (starts_col col [] Hc) as Q. rewrite app_nil_r in Q. exact Q. }
  rewrite opt_dollar_app by auto.
  rewrite <- (app_nil_r (col_text col)), span_col by (auto; exact I).
  pose proof (col_read col Hc) as Hcr. destruct (col_text_spec col Hc) as (_ & Hn & _).
  destruct (col_text col) as [|x l]; [contradiction|]. rewrite Hcr. reflexivity.
Qed.

Lemma part_row : forall row ra, 1 <= row < U32 ->
  range_part (abs_text ra ++ show_u32 row) = Some (None, Some (row, ra)).
Proof.
  intros row ra Hr. unfold range_part.
  destruct (show_row_spec row) as (Hd & Hn & _); [lia|].
  assert (S0 : span is_ascii_alpha (show_u32 row) = ([], show_u32 row)).
  { pose proof (nonalpha_row false row) as Q. specialize (Q ltac:(lia)). cbn [abs_text app] in Q.
    destruct (show_u32 row) as [|x l]; [reflexivity|]. cbn [span]. rewrite Q. reflexivity. }
  assert (E : exists e, parse_a1_components (abs_text ra ++ show_u32 row) = Err e).
  { rewrite parse_a1_unfold.
    assert (T : forall ca, parse_tail ca (show_u32 row) = Err MissingColumn)
      by (intro; unfold parse_tail; rewrite S0; reflexivity).
    destruct (show_u32 row) as [|x l]; [contradiction|]. inversion Hd; subst.
    destruct ra; cbn [abs_text app].
    - change (c_dollar =? 36) with true. cbn iota. rewrite T. eauto.
    - assert (Q : x =? 36 = false) by (apply N.eqb_neq; lia). rewrite Q, T. eauto. }
  destruct E as [e ->]. rewrite opt_dollar_app by (apply starts_row; lia). rewrite S0.
  rewrite row_number_show by auto. reflexivity.
Qed.

Definition corner_ok (c r : bound) : Prop :=
  in_bound 16384 c /\ in_bound 4294967295 r /\ (c <> None \/ r <> None).
Definition box_ok (b : box) : Prop := corner_ok (b_sc b) (b_sr b) /\ corner_ok (b_ec b) (b_er b).

Lemma u32_lt : forall r, r <= 4294967295 <-> r < U32.
Proof. intro. unfold U32. change (2^32) with 4294967296. lia. Qed.

Lemma part_corner : forall c r, corner_ok c r -> range_part (corner_text c r) = Some (c, r).
Proof.
  intros [[col ca]|] [[row ra]|] (Hc & Hr & Hn); cbn [corner_text in_bound] in *.
  - apply part_cell; auto. rewrite <- u32_lt. exact Hr.
  - apply part_col; auto.
  - apply part_row. rewrite <- u32_lt. exact Hr.
  - destruct Hn; contradiction.
Qed.
Lemma corner_bytes : forall c r, corner_ok c r -> Forall corner_byte (corner_text c r).
Proof.
  intros [[col ca]|] [[row ra]|] (Hc & Hr & Hn); cbn [corner_text in_bound] in *.
  - apply cell_bytes; auto. apply u32_lt, Hr.
  - apply Forall_app; auto using abs_bytes, col_bytes.
  - apply Forall_app; split; auto using abs_bytes. apply row_bytes, u32_lt, Hr.
  - constructor.
Qed.
Lemma corner_nonempty : forall c r, corner_ok c r -> corner_text c r <> [].
Proof.
  intros c r H E. pose proof (part_corner c r H) as Q. rewrite E in Q. cbv in Q. discriminate.
Qed.
Lemma corner_no : forall x t, Forall corner_byte t -> ~ corner_byte x -> memc x t = false.
Proof. intros. eapply memc_forall; eauto. Qed.

Ltac not_corner := unfold corner_byte, c_colon, c_bang, c_lb, c_sq; lia.

Lemma box_read : forall b, box_ok b -> range_box (box_text b) = Some b.
Proof.
  intros [sr sc er ec] [H1 H2]. cbn [b_sr b_sc b_er b_ec] in *. unfold range_box, box_text.
  cbn [b_sr b_sc b_er b_ec]. rewrite cut_app.
  - rewrite !part_corner by auto. reflexivity.
  - eapply corner_no; [apply corner_bytes; auto|not_corner].
Qed.
Lemma box_no : forall x b, box_ok b -> ~ corner_byte x -> x <> c_colon -> memc x (box_text b) = false.
Proof.
  intros x b [H1 H2] Hx Hc. unfold box_text. rewrite memc_app, memc_cons.
  rewrite !(corner_no x) by (auto; apply corner_bytes; auto).
  destruct (N.eqb_spec x c_colon); [contradiction|reflexivity].
Qed.
Lemma box_colon : forall b, memc c_colon (box_text b) = true.
Proof. intro b. unfold box_text. rewrite memc_app, memc_cons, N.eqb_refl. cbn [orb]. apply orb_true_r. Qed.

(* What reading a corner yields. *)
Lemma row_number_bound : forall s r, row_number s = Some r -> 1 <= r <= 4294967295.
Proof.
  intros s r H. unfold row_number in H. destruct (span is_ascii_digit s) as [[|d ds] [|]]; try discriminate.
  destruct (parse_digits (d :: ds) 0) as [v|] eqn:E; [|discriminate].
  destruct (N.eqb_spec v 0); [discriminate|]. injection H as ->.
  apply parse_digits_iff in E; [|reflexivity]. destruct E as [_ E]. apply u32_lt in E. lia.
Qed.
Lemma a1_bound : forall s row col ra ca, parse_a1_components s = Ok (row, col, ra, ca) ->
  1 <= row <= 1048576 /\ 1 <= col <= 16384.
Proof.
  intros s row col ra ca H. apply parse_a1_iff in H.
  destruct H as (L & D & _ & _ & _ & _ & _ & _ & _ & Hr & Hc). auto.
Qed.
Lemma part_ok : forall s c r, range_part s = Some (c, r) -> corner_ok c r.
Proof.
  intros s c r H. unfold range_part in H.
  assert (K : forall s1 (ca : bool),
    match span is_ascii_alpha s1 with
      | ([], _) => match row_number s1 with Some row => Some (None, Some (row, ca)) | None => None end
      | ((_ :: _) as letters, s2) =>
          match col_index_from_letters_1based letters with
          | Ok col =>
              match s2 with
              | [] => Some (Some (col, ca), None)
              | _ => let '(ra, s3) := opt_dollar s2 in
                  match row_number s3 with
                  | Some row => Some (Some (col, ca), Some (row, ra))
                  | None => None
                  end
              end
          | _ => None
          end
      end = Some (c, r) -> corner_ok c r).
  { intros s1 ca K. destruct (span is_ascii_alpha s1) as [[|l0 l] s2].
    - destruct (row_number s1) as [row|] eqn:E; [|discriminate]. injection K as <- <-.
      apply row_number_bound in E. split; [exact I|]. split; [exact E|]. right. discriminate.
    - destruct (col_index_from_letters_1based (l0 :: l)) as [col| |] eqn:E; try discriminate.
      apply col_index_1based_iff in E. destruct E as (_ & _ & _ & Hc).
      destruct s2 as [|x s2].
      + injection K as <- <-. split; [exact Hc|]. split; [exact I|]. left. discriminate.
      + destruct (opt_dollar (x :: s2)) as [ra s3]. destruct (row_number s3) as [row|] eqn:E; [|discriminate].
        injection K as <- <-. apply row_number_bound in E. split; [exact Hc|]. split; [exact E|]. left. discriminate. }
  destruct (parse_a1_components s) as [[[[row col] ra] ca]| |] eqn:E.
  - injection H as <- <-. apply a1_bound in E. destruct E as [Hr Hc].
    split; [exact Hc|]. split; [cbn; lia|]. left. discriminate.
  - destruct (opt_dollar s) as [ca s1]. apply (K s1 ca). exact H.
  - destruct (opt_dollar s) as [ca s1]. apply (K s1 ca). exact H.
Qed.
Lemma box_parsed : forall s b, range_box s = Some b -> box_ok b.
Proof.
  intros s b H. unfold range_box in H. destruct (cut c_colon s) as [[x y]|]; [|discriminate].
  destruct (range_part x) as [[sc sr]|] eqn:E1; [|discriminate].
  destruct (range_part y) as [[ec er]|] eqn:E2; [|discriminate]. injection H as <-.
  split; cbn [b_sr b_sc b_er b_ec]; [apply (part_ok x)|apply (part_ok y)]; assumption.
Qed.

(* ---- sheet names ---- *)
Lemma quoted_body_double : forall n rest, starts c_sq rest = false ->
  quoted_body (double_q n ++ c_sq :: rest) = Some (double_q n, rest).
Proof.
  induction n as [|c n IH]; intros rest H.
  - cbn [double_q app quoted_body]. rewrite N.eqb_refl. destruct rest as [|d rest]; [reflexivity|].
    unfold starts in H. rewrite H. reflexivity.
  - cbn [double_q]. destruct (c =? c_sq) eqn:E; cbn [app quoted_body].
    + rewrite !N.eqb_refl, IH by auto. reflexivity.
    + rewrite E, IH by auto. reflexivity.
Qed.
Lemma undouble_double : forall n, undouble_sq (double_q n) = n.
Proof.
  induction n as [|c n IH]; [reflexivity|]. cbn [double_q]. destruct (N.eqb_spec c c_sq) as [->|H].
  - cbn [undouble_sq]. rewrite !N.eqb_refl. cbn [andb]. rewrite IH. reflexivity.
  - destruct (double_q n) as [|d r] eqn:E.
    + destruct n as [|x n]; [reflexivity|]. cbn [double_q] in E. destruct (x =? c_sq); discriminate.
    + change (undouble_sq (c :: d :: r)) with
        (if (c =? c_sq) && (d =? c_sq) then c_sq :: undouble_sq r else c :: undouble_sq (d :: r)).
      destruct (N.eqb_spec c c_sq); [contradiction|]. cbn [andb]. rewrite IH. reflexivity.
Qed.
Lemma segment_quoted : forall n rest, starts c_sq rest = false ->
  sheet_segment (c_sq :: double_q n ++ c_sq :: rest) = Some (n, rest).
Proof.
  intros n rest H. unfold sheet_segment. rewrite N.eqb_refl, quoted_body_double, undouble_double by auto.
  reflexivity.
Qed.

(* Without quotes no byte of the name is special, except perhaps tabs and line ends. *)
Lemma unquoted_bytes : forall n, needs_quote n = false -> forall b, In b n -> memc b quote_bytes = false.
Proof.
  intros [|c n] H b Hb; [contradiction|]. unfold needs_quote in H.
  apply orb_false_iff in H. destruct H as [H _]. apply orb_false_iff in H. destruct H as [_ H].
  destruct (memc b quote_bytes) eqn:E; auto.
  assert (Q : existsb (fun b => memc b quote_bytes) (c :: n) = true) by (apply existsb_exists; eauto).
  congruence.
Qed.
Lemma unquoted_no : forall n x, needs_quote n = false -> memc x quote_bytes = true -> memc x n = false.
Proof.
  intros n x H Hx. apply memc_false. intro Hin. rewrite (unquoted_bytes n H x Hin) in Hx. discriminate.
Qed.
Lemma unquoted_bare : forall n, needs_quote n = false ->
  memc 9 n = false -> memc 10 n = false -> memc 13 n = false -> Forall (fun x => bare_byte x = true) n.
Proof.
  intros n H H9 H10 H13. apply Forall_forall. intros b Hb. unfold bare_byte.
  pose proof (unquoted_bytes n H b Hb) as Q. apply memc_false in H9, H10, H13.
  destruct (memc b [58; 33; 39; 32; 9; 10; 13]) eqn:E; auto. exfalso.
  unfold memc in E. apply existsb_exists in E. destruct E as [x [Hx Ex]]. apply N.eqb_eq in Ex. subst x.
  repeat (destruct Hx as [<-|Hx]; [solve [discriminate|contradiction]|]). contradiction.
Qed.

Lemma span_stop : forall p (n : text) rest, match rest with [] => True | x :: _ => p x = false end ->
  match span p (n ++ rest) with
  | (a, b) => (Forall (fun x => p x = true) n /\ a = n /\ b = rest) \/
              (exists x y, b = x :: y /\ In x n /\ p x = false)
  end.
Proof.
  intros p n rest Hr. induction n as [|c n IH].
  - cbn [app]. destruct rest as [|x r]; cbn [span]; [left; auto|]. rewrite Hr. left. auto.
  - cbn [app span]. destruct (p c) eqn:E.
    + destruct (span p (n ++ rest)) as [a b]. destruct IH as [(H1 & -> & ->)|(x & y & -> & Hx & Hp)].
      * left. auto.
      * right. exists x, y. split; [reflexivity|]. split; [right; exact Hx|exact Hp].
    + right. exists c, (n ++ rest). split; [reflexivity|]. split; [left; reflexivity|exact E].
Qed.

Lemma fallback_bang : forall n t, n <> [] -> memc c_bang n = false ->
  sheet_fallback (n ++ c_bang :: t) = (ShOne n, t).
Proof.
  intros [|c n] t Hn H; [contradiction|]. cbn [app sheet_fallback].
  rewrite memc_cons in H. apply orb_false_iff in H. destruct H as [_ H].
  rewrite cut_app by auto. reflexivity.
Qed.

Lemma extract_one : forall n t, n <> [] ->
  extract_sheet (sheet_text n ++ c_bang :: t) = (ShOne n, t).
Proof.
  intros n t Hn. unfold sheet_text. destruct (needs_quote n) eqn:E.
  - cbn [app]. rewrite <- app_assoc. cbn [app]. unfold extract_sheet.
    rewrite segment_quoted by reflexivity. reflexivity.
  - assert (Hb : memc c_bang n = false) by (apply unquoted_no; auto).
    unfold extract_sheet, sheet_segment. destruct n as [|c n]; [contradiction|].
    cbn [app]. assert (Hq : c =? c_sq = false).
    { apply N.eqb_neq. intros ->. pose proof (unquoted_bytes _ E c_sq (or_introl eq_refl)) as Q. discriminate. }
    rewrite Hq. change (c :: n ++ c_bang :: t) with ((c :: n) ++ c_bang :: t).
    pose proof (span_stop bare_byte (c :: n) (c_bang :: t) eq_refl) as HS.
    destruct (span bare_byte ((c :: n) ++ c_bang :: t)) as [a b].
    destruct HS as [(Hall & -> & ->)|(x & y & -> & Hx & Hp)].
    + change (c_bang =? c_colon) with false. change (c_bang =? c_bang) with true. reflexivity.
    + assert (Hfb : sheet_fallback ((c :: n) ++ c_bang :: t) = (ShOne (c :: n), t))
        by (apply fallback_bang; auto).
      destruct a as [|a0 a]; [exact Hfb|].
      pose proof (unquoted_bytes _ E x Hx) as Q.
      assert (X1 : x =? c_colon = false) by (apply N.eqb_neq; intros ->; discriminate).
      assert (X2 : x =? c_bang = false) by (apply N.eqb_neq; intros ->; discriminate).
      rewrite X1, X2. exact Hfb.
Qed.

Lemma segment_3d : forall n rest, n <> [] -> name_3d n ->
  match rest with [] => True | x :: _ => bare_byte x = false /\ x <> c_sq end ->
  sheet_segment (sheet_text n ++ rest) = Some (n, rest).
Proof.
  intros n rest Hn H Hr. unfold sheet_text. destruct (needs_quote n) eqn:E.
  - cbn [app]. rewrite <- app_assoc. cbn [app]. apply segment_quoted.
    destruct rest as [|x r]; [reflexivity|]. apply N.eqb_neq. apply Hr.
  - destruct H as [H|(H9 & H10 & H13)]; [congruence|].
    pose proof (unquoted_bare n E H9 H10 H13) as Hb.
    unfold sheet_segment. destruct n as [|c n]; [contradiction|]. cbn [app].
    assert (Hq : c =? c_sq = false).
    { apply N.eqb_neq. intros ->. pose proof (unquoted_bytes _ E c_sq (or_introl eq_refl)) as Q. discriminate. }
    rewrite Hq. change (c :: n ++ rest) with ((c :: n) ++ rest). rewrite span_app; auto.
    destruct rest; auto. apply Hr.
Qed.

Lemma extract_3d : forall f l t, f <> [] -> l <> [] -> name_3d f -> name_3d l ->
  extract_sheet (sheet_text f ++ c_colon :: sheet_text l ++ c_bang :: t) = (ShRange f l, t).
Proof.
  intros f l t Hf Hl Nf Nl. unfold extract_sheet.
  rewrite segment_3d by (first [assumption | split; [reflexivity|discriminate]]).
  rewrite N.eqb_refl. rewrite segment_3d by (first [assumption | split; [reflexivity|discriminate]]).
  rewrite N.eqb_refl. reflexivity.
Qed.

Lemma segment_suffix : forall s n r, sheet_segment s = Some (n, r) -> exists p, s = p ++ r.
Proof.
  assert (Q : forall s a b, quoted_body s = Some (a, b) -> exists p, s = p ++ b).
  { fix IH 1. intros [|c r] a b H; [discriminate|]. cbn [quoted_body] in H. destruct (c =? c_sq).
    - destruct r as [|d r2]; [injection H as <- <-; exists [c]; reflexivity|].
      destruct (d =? c_sq).
      + destruct (quoted_body r2) as [[x y]|] eqn:E; [|discriminate]. injection H as <- <-.
        destruct (IH r2 x y E) as [p ->]. exists (c :: d :: p). reflexivity.
      + injection H as <- <-. exists [c]. reflexivity.
    - destruct (quoted_body r) as [[x y]|] eqn:E; [|discriminate]. injection H as <- <-.
      destruct (IH r x y E) as [p ->]. exists (c :: p). reflexivity. }
  intros [|c s] n r H; [discriminate|]. unfold sheet_segment in H. destruct (c =? c_sq).
  - destruct (quoted_body s) as [[x y]|] eqn:E; [|discriminate]. injection H as <- <-.
    destruct (Q s x y E) as [p ->]. exists (c :: p). reflexivity.
  - destruct (span bare_byte (c :: s)) as [a b] eqn:E. apply span_forall in E. destruct E as [E _].
    destruct a; [discriminate|]. injection H as <- <-. eauto.
Qed.

Lemma extract_none : forall s, memc c_bang s = false -> extract_sheet s = (ShNone, s).
Proof.
  intros s H.
  assert (F : sheet_fallback s = (ShNone, s)).
  { destruct s as [|c r]; [reflexivity|]. cbn [sheet_fallback]. rewrite memc_cons in H.
    apply orb_false_iff in H. destruct H as [_ H]. apply cut_none in H. rewrite H. reflexivity. }
  unfold extract_sheet. destruct (sheet_segment s) as [[first [|c r1]]|] eqn:E; auto.
  destruct (segment_suffix _ _ _ E) as [p ->]. rewrite memc_app, memc_cons in H.
  apply orb_false_iff in H. destruct H as [_ H]. apply orb_false_iff in H. destruct H as [Hc Hr].
  destruct (c =? c_colon).
  - assert (L : (match cut c_bang r1 with
          | Some (_, rest) => (ShRange first [], rest)
          | None => sheet_fallback (p ++ c :: r1)
          end) = (ShNone, p ++ c :: r1)).
    { pose proof Hr as Q. apply cut_none in Q. rewrite Q. exact F. }
    destruct (sheet_segment r1) as [[second [|d r2]]|] eqn:E2; auto.
    destruct (segment_suffix _ _ _ E2) as [q ->]. rewrite memc_app, memc_cons in Hr.
    apply orb_false_iff in Hr. destruct Hr as [_ Hr]. apply orb_false_iff in Hr. destruct Hr as [Hd _].
    rewrite N.eqb_sym, Hd. exact L.
  - rewrite N.eqb_sym, Hc. exact F.
Qed.

Lemma starts_no : forall c s, memc c s = false -> starts c s = false.
Proof.
  intros c [|x s] H; [reflexivity|]. rewrite memc_cons in H. apply orb_false_iff in H.
  cbn [starts]. rewrite N.eqb_sym. apply H.
Qed.
Lemma sheet_text_start : forall n t, n <> [] -> starts c_lb (sheet_text n ++ t) = false.
Proof.
  intros n t Hn. unfold sheet_text. destruct (needs_quote n) eqn:E; [reflexivity|].
  destruct n as [|c n]; [contradiction|]. cbn [app starts]. apply N.eqb_neq. intros ->.
  pose proof (unquoted_bytes _ E c_lb (or_introl eq_refl)) as Q. discriminate.
Qed.

(* ---- cells and ranges ---- *)
Definition no_ext (sh : option text) : Prop :=
  match sh with Some n => external_sheet n = None | None => True end.

Lemma sheet_split : forall sh t, sh <> Some [] -> memc c_bang t = false -> memc c_lb t = false ->
  starts c_lb (with_sheet sh t) = false /\
  exists spec, extract_sheet (with_sheet sh t) = (spec, t) /\
    match sh with Some n => spec = ShOne n | None => spec = ShNone end.
Proof.
  intros [n|] t Hn Hb Hl; cbn [with_sheet].
  - assert (n <> []) by congruence. split; [apply sheet_text_start; auto|].
    exists (ShOne n). split; [apply extract_one; auto|reflexivity].
  - split; [apply starts_no; auto|]. exists ShNone. split; [apply extract_none; auto|reflexivity].
Qed.

Lemma read_cell : forall sh row col ra ca,
  sh <> Some [] -> no_ext sh -> 1 <= row <= 1048576 -> 1 <= col <= 16384 ->
  parse_ref (with_sheet sh (cell_text row col ra ca)) = Some (RCell sh row col ra ca).
Proof.
  intros sh row col ra ca Hs He Hr Hc.
  assert (Hr32 : 1 <= row < U32) by (rewrite <- u32_lt; lia).
  pose proof (cell_bytes row col ra ca (proj2 Hr32) Hc) as HB.
  assert (B : forall x, ~ corner_byte x -> memc x (cell_text row col ra ca) = false)
    by (intros; apply corner_no; auto).
  destruct (sheet_split sh (cell_text row col ra ca) Hs) as [S1 (spec & S2 & S3)];
    [apply B; not_corner|apply B; not_corner|].
  unfold parse_ref. rewrite S1. cbn [andb]. rewrite S2.
  rewrite (B c_lb) by not_corner. rewrite (B c_colon) by not_corner.
  rewrite cell_eval by auto. destruct (N.ltb_spec 1048576 row); [lia|].
  destruct sh as [n|]; subst spec; cbn [no_ext] in He; [rewrite He|]; reflexivity.
Qed.

Lemma read_box : forall sh b, sh <> Some [] -> no_ext sh -> box_ok b ->
  parse_ref (with_sheet sh (box_text b)) = Some (RRange sh b).
Proof.
  intros sh b Hs He Hb.
  destruct (sheet_split sh (box_text b) Hs) as [S1 (spec & S2 & S3)];
    [apply box_no; auto; not_corner|apply box_no; auto; not_corner|].
  unfold parse_ref. rewrite S1. cbn [andb]. rewrite S2.
  rewrite (box_no c_lb) by (auto; not_corner). rewrite box_colon, box_read by auto.
  destruct sh as [n|]; subst spec; cbn [no_ext] in He; [rewrite He|]; reflexivity.
Qed.

Lemma cell_nonempty : forall row col ra ca, 1 <= col <= 16384 -> cell_text row col ra ca <> [].
Proof.
  intros row col ra ca Hc E. unfold cell_text in E.
  apply app_eq_nil in E. destruct E as [_ E]. apply app_eq_nil in E. destruct E as [E _].
  destruct (col_text_spec col Hc) as (_ & Hn & _). contradiction.
Qed.

Lemma read_cell3 : forall f l row col ra ca, f <> [] -> l <> [] -> name_3d f -> name_3d l ->
  1 <= row <= 1048576 -> 1 <= col <= 16384 ->
  parse_ref (show_ref (RCell3 f l row col ra ca)) = Some (RCell3 f l row col ra ca).
Proof.
  intros f l row col ra ca Hf Hl Nf Nl Hr Hc. cbn [show_ref].
  assert (Hr32 : 1 <= row < U32) by (rewrite <- u32_lt; lia).
  pose proof (cell_bytes row col ra ca (proj2 Hr32) Hc) as HB.
  unfold parse_ref. rewrite sheet_text_start by auto. cbn [andb]. rewrite extract_3d by auto.
  unfold parse_3d. destruct f; [contradiction|]. destruct l; [contradiction|].
  pose proof (cell_nonempty row col ra ca Hc) as Hne.
  pose proof (cell_eval row col ra ca Hr32 Hc) as Hev.
  rewrite (corner_no c_lb) by (auto; not_corner). rewrite (corner_no c_colon) by (auto; not_corner).
  destruct (cell_text row col ra ca) eqn:E; [contradiction|]. rewrite Hev.
  destruct (N.ltb_spec 1048576 row); [lia|]. reflexivity.
Qed.

Lemma read_box3 : forall f l b, f <> [] -> l <> [] -> name_3d f -> name_3d l -> box_ok b ->
  parse_ref (show_ref (RRange3 f l b)) = Some (RRange3 f l b).
Proof.
  intros f l b Hf Hl Nf Nl Hb. cbn [show_ref].
  unfold parse_ref. rewrite sheet_text_start by auto. cbn [andb]. rewrite extract_3d by auto.
  unfold parse_3d. destruct f; [contradiction|]. destruct l; [contradiction|].
  rewrite (box_no c_lb) by (auto; not_corner). rewrite box_colon, box_read by auto.
  destruct (box_text b) eqn:E; [|reflexivity].
  pose proof (box_colon b) as Q. rewrite E in Q. discriminate.
Qed.
