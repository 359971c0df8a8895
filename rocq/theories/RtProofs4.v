(* References to cells and ranges inside formulas. *)
From Coq Require Import List Bool NArith ZArith Lia String.
From Coq Require Import ZifyN ZifyNat ZifyBool.
From Verif Require Import Base CoordModel CoordSpec CoordProofs LexModel LexProofs PrattModel RoundSpec RoundProofs
  RoundProofs2 RoundProofs3 RtModel RtSpec RtProofs RtProofs2 RtProofs3.
Import ListNotations.
Open Scope N_scope.

Lemma double_same : forall n, double_q n = double_sq n.
Proof. induction n as [|c n IH]; [reflexivity|]. cbn [double_q double_sq]. rewrite IH. reflexivity. Qed.

Lemma plain_corner : forall c, corner_byte c -> plainc c = true.
Proof.
  intros c H. unfold plainc, ender, is_ws, memc, enders, corner_byte in *. cbn [existsb].
  apply negb_true_iff. repeat (apply orb_false_iff; split); try reflexivity; apply N.eqb_neq; lia.
Qed.
Lemma word_corner : forall t, t <> [] -> Forall corner_byte t -> word t.
Proof.
  intros t Hn H. split; [exact Hn|]. apply forallb_forall. intros x Hx. apply plain_corner.
  rewrite Forall_forall in H. auto.
Qed.

Definition formula_sheet (sh : option text) : Prop :=
  match sh with Some n => n <> [] /\ memc c_lb n = false /\ memc 9 n = false /\ memc 10 n = false /\ memc 13 n = false | None => True end.

Lemma plain_unquoted : forall c, memc c quote_bytes = false -> c <> 9 -> c <> 10 -> c <> 13 -> plainc c = true.
Proof.
  intros c H H9 H10 H13. unfold plainc. apply negb_true_iff.
  unfold quote_bytes, memc, existsb in H. unfold ender, is_ws, memc, enders, existsb. lia.
Qed.
Lemma sheet_of : forall n, n <> [] -> memc c_lb n = false -> memc 9 n = false -> memc 10 n = false -> memc 13 n = false ->
  sheet (sheet_text n ++ [c_bang]).
Proof.
  intros n Hn Hl H9 H10 H13. unfold sheet_text. destruct (needs_quote n) eqn:E.
  - rewrite double_same. apply (sh_quoted n Hl).
  - apply sh_word. split; [exact Hn|]. apply forallb_forall. intros x Hx. apply plain_unquoted.
    + eapply unquoted_bytes; eauto.
    + intros ->. apply memc_false in H9. auto.
    + intros ->. apply memc_false in H10. auto.
    + intros ->. apply memc_false in H13. auto.
Qed.
Lemma sheet_prefix : forall sh, formula_sheet sh ->
  sheet (match sh with Some n => sheet_text n ++ [c_bang] | None => [] end).
Proof. intros [n|] H; [|constructor]. destruct H as (? & ? & ? & ? & ?). apply sheet_of; auto. Qed.
Lemma with_sheet_split : forall sh t, with_sheet sh t = match sh with Some n => sheet_text n ++ [c_bang] | None => [] end ++ t.
Proof. intros [n|] t; [|reflexivity]. cbn [with_sheet]. rewrite <- app_assoc. reflexivity. Qed.

Lemma cell_ref_text : forall sh row col ra ca, formula_sheet sh -> 1 <= row <= rows -> 1 <= col <= cols ->
  ref_text (with_sheet sh (cell_text row col ra ca)).
Proof.
  intros sh row col ra ca Hs Hr Hc. unfold rows, cols in *. rewrite with_sheet_split.
  assert (B : Forall corner_byte (cell_text row col ra ca))
    by (apply cell_bytes; auto; unfold U32; change (2^32) with 4294967296; lia).
  apply rt_plain.
  - apply word_corner; auto. apply cell_nonempty; auto.
  - apply corner_no; auto. not_corner.
  - apply sheet_prefix; auto.
Qed.
Lemma box_ref_text : forall sh b, formula_sheet sh -> box_ok b -> ref_text (with_sheet sh (box_text b)).
Proof.
  intros sh b Hs [H1 H2]. rewrite with_sheet_split. unfold box_text.
  pose proof (corner_bytes _ _ H1). pose proof (corner_bytes _ _ H2).
  apply rt_range.
  - apply word_corner; auto. apply corner_nonempty; auto.
  - apply corner_no; auto. not_corner.
  - apply word_corner; auto. apply corner_nonempty; auto.
  - apply corner_no; auto. not_corner.
  - apply sheet_prefix; auto.
Qed.

(* What every text accepted by str::parse::<f64> satisfies. *)
Definition number_like (is_num : text -> bool) : Prop := forall v, is_num v = true ->
  memc c_colon v = false /\ memc c_bang v = false /\ memc c_dollar v = false /\
  match v with c :: _ => is_ascii_alpha c = true -> existsb is_ascii_digit v = false | [] => True end.

Definition never_logical (x : N) : Prop := x = c_colon \/ x = c_bang \/ is_ascii_digit x = true.
Lemma not_logical : forall v x, In x v -> never_logical x -> eq_ic v (tx "TRUE") = false /\ eq_ic v (tx "FALSE") = false.
Proof.
  intros v x Hin Hx.
  assert (U : upc x = x /\ x < 65).
  { unfold upc, never_logical, is_ascii_digit, c_colon, c_bang in *. destruct ((97 <=? x) && (x <=? 122)) eqn:E; lia. }
  assert (K : forall w, Forall (fun y => 65 <= y) w -> eq_ic v w = false).
  { intros w Hw. unfold eq_ic. apply not_true_iff_false. intro Q. apply text_eqb_spec in Q.
    assert (In x (map upc w)).
    { rewrite <- Q. apply in_map_iff. exists x. tauto. }
    apply in_map_iff in H. destruct H as (y & Hy & Hiy). rewrite Forall_forall in Hw. specialize (Hw y Hiy).
    cbv beta in Hw. unfold upc in Hy. destruct ((97 <=? y) && (y <=? 122)) eqn:E; lia. }
  split; apply K; vm_compute; repeat constructor; discriminate.
Qed.

Lemma range_subtype : forall is_num v, number_like is_num ->
  match v with c :: _ => c <> 34 /\ c <> 35 | [] => True end ->
  (exists x, In x v /\ never_logical x) -> is_num v = false -> operand_subtype is_num v = SRange.
Proof.
  intros is_num v Hn Hh (x & Hx & Hl) Hf. destruct (not_logical v x Hx Hl) as [E1 E2].
  unfold operand_subtype. rewrite E1, E2, Hf. cbn [orb].
  destruct v as [|c v]; [reflexivity|]. destruct Hh as [H1 H2].
  destruct c as [|p]; [reflexivity|]. repeat (destruct p as [p|p|]; try reflexivity); congruence.
Qed.

Lemma head_ok : forall sh t, formula_sheet sh -> t <> [] -> Forall corner_byte t \/ (exists a b, t = a ++ c_colon :: b /\ a <> [] /\ Forall corner_byte a) ->
  match with_sheet sh t with c :: _ => c <> 34 /\ c <> 35 | [] => True end.
Proof.
  intros sh t Hs Ht Hb. destruct sh as [n|]; cbn [with_sheet].
  - destruct Hs as (Hn & _). unfold sheet_text. destruct (needs_quote n) eqn:E; [split; discriminate|].
    destruct n as [|c n]; [contradiction|]. cbn [app].
    pose proof (unquoted_bytes _ E c (or_introl eq_refl)) as Q. split; intros ->; discriminate.
  - destruct Hb as [Hb|(a & b & -> & Ha & Hb)].
    + destruct Hb; [exact I|]. unfold corner_byte in *. lia.
    + destruct Hb; [contradiction|]. cbn [app]. unfold corner_byte in *. lia.
Qed.

Lemma memc_in : forall x l, In x l -> memc x l = true.
Proof. intros x l H. apply not_false_iff_true. intro Q. apply memc_false in Q. auto. Qed.

Lemma cell_subtype : forall is_num sh row col ra ca, number_like is_num -> formula_sheet sh ->
  1 <= row <= rows -> 1 <= col <= cols ->
  operand_subtype is_num (with_sheet sh (cell_text row col ra ca)) = SRange.
Proof.
  intros is_num sh row col ra ca Hn Hs Hr Hc. unfold rows, cols in *.
  assert (U : row < U32) by (unfold U32; change (2^32) with 4294967296; lia).
  destruct (show_row_spec row U) as (Hd & Hne & _).
  assert (Hdig : exists x, In x (show_u32 row) /\ is_ascii_digit x = true).
  { destruct (show_u32 row) as [|x l]; [contradiction|]. exists x. split; [left; reflexivity|].
    inversion Hd; subst. unfold is_ascii_digit. lia. }
  destruct Hdig as (x & Hx & Hxd).
  assert (Hxc : In x (cell_text row col ra ca)) by (unfold cell_text; rewrite !in_app_iff; auto).
  assert (Hxs : In x (with_sheet sh (cell_text row col ra ca))).
  { rewrite with_sheet_split. apply in_app_iff. right. exact Hxc. }
  apply range_subtype; auto.
  - apply head_ok; auto; [apply cell_nonempty; auto|]. left. apply cell_bytes; auto.
  - exists x. split; [exact Hxs|]. right. right. exact Hxd.
  - apply not_true_iff_false. intro Q. apply Hn in Q. destruct Q as (_ & Q2 & Q3 & Q4).
    destruct sh as [n|]; cbn [with_sheet] in *.
    + rewrite memc_app, memc_cons, N.eqb_refl, orb_true_r in Q2. discriminate.
    + destruct (col_text_spec col Hc) as (Hu & Hcn & _). unfold cell_text in *.
      destruct ca; [discriminate|]. cbn [abs_text app] in *.
      destruct (col_text col) as [|y l]; [contradiction|]. cbn [app] in *. inversion Hu; subst.
      assert (A : is_ascii_alpha y = true) by (apply is_alpha_iff; lia).
      specialize (Q4 A). assert (existsb is_ascii_digit (y :: l ++ abs_text ra ++ show_u32 row) = true).
      { apply existsb_exists. exists x. auto. }
      congruence.
Qed.
Lemma box_subtype : forall is_num sh b, number_like is_num -> formula_sheet sh -> box_ok b ->
  operand_subtype is_num (with_sheet sh (box_text b)) = SRange.
Proof.
  intros is_num sh b Hn Hs Hb. pose proof Hb as [H1 H2].
  assert (Hc : In c_colon (with_sheet sh (box_text b))).
  { rewrite with_sheet_split. apply in_app_iff. right. unfold box_text. apply in_app_iff. right. left. reflexivity. }
  apply range_subtype; auto.
  - apply head_ok; auto.
    + unfold box_text. intro Q. apply app_eq_nil in Q. destruct Q. discriminate.
    + right. unfold box_text. repeat eexists; [apply corner_nonempty|apply corner_bytes]; auto.
  - exists c_colon. split; [exact Hc|left; reflexivity].
  - apply not_true_iff_false. intro Q. apply Hn in Q. destruct Q as (Q & _).
    rewrite memc_in in Q by exact Hc. discriminate.
Qed.

Lemma read_same : forall d r t, starts c_lb t = false -> parse_ref t = Some r -> read_ref d t = Some r.
Proof.
  intros [] r t Hs H; [exact H|]. cbn [read_ref]. unfold parse_open. destruct t as [|c [|x y]]; auto.
  cbn [starts] in Hs. rewrite Hs. exact H.
Qed.

Definition on_grid (r : reft) : Prop :=
  match r with RCell sh _ _ _ _ | RRange sh _ => formula_sheet sh | _ => False end.

Lemma reference_ok : forall num pnum d0 d t r, number_like (is_num num pnum) -> read_ref d0 t = Some r -> on_grid r ->
  ref_ok num reft pnum (read_ref d) show_ref d r.
Proof.
  intros num pnum d0 d t r Hn Hr Hg. apply read_wf in Hr.
  assert (K : forall s, s = show_ref r -> ref_text s -> operand_subtype (is_num num pnum) s = SRange ->
    parse_ref s = Some r -> starts c_lb s = false -> ref_ok num reft pnum (read_ref d) show_ref d r).
  { intros s -> K1 K2 K3 K4. split; [apply read_same; auto|]. split; [exact K2|].
    split; [apply ref_text_one; exact K1|]. split; [apply ref_text_last; exact K1|].
    apply ref_text_head. exact K1. }
  assert (Ne : forall sh, formula_sheet sh -> sh <> Some []).
  { intros [n|] Hs; [|discriminate]. destruct Hs as (Hs & _). congruence. }
  destruct r as [sh row col ra ca|sh b| | | | | | ]; cbn [on_grid] in Hg; try contradiction; cbn [wf] in Hr.
  - destruct Hr as (W1 & W2 & W3). eapply K; [reflexivity|..]; cbn [show_ref].
    + apply cell_ref_text; auto.
    + apply cell_subtype; auto.
    + apply read_cell; auto.
    + apply sheet_split; auto; apply corner_no; try not_corner; apply cell_bytes; auto;
        unfold U32; change (2^32) with 4294967296; lia.
  - destruct Hr as (W1 & W2). eapply K; [reflexivity|..]; cbn [show_ref].
    + apply box_ref_text; auto.
    + apply box_subtype; auto.
    + apply read_box; auto.
    + apply sheet_split; auto; apply box_no; auto; try not_corner; discriminate.
Qed.
