(** Theorems about the text and integer functions, continued: what arguments stand for
    (C132, C134, C135, C144, C146, C149, C151, C154). *)
From Coq Require Import String QArith.
From Coq Require Import ZifyN ZifyNat ZifyBool.
From Verif Require Import Base Maps NuModel NuSpec NuProofs1 NuProofs4 NuProps TfModel TfProofs1 TfProps.
From Verif Require TfSpec.
Close Scope Q_scope.
Local Open Scope Z_scope.

(** ** Numbers as texts *)

(** The text of an integer is its decimal notation. *)
Lemma show_int_signed : forall z, signed_text 10 (show_int z) z.
Proof.
  intros z. unfold show_int, signed_text.
  destruct (z <? 0) eqn:E.
  - destruct (fmt_ok 10 (- z) ltac:(lia) ltac:(lia)) as [ds [F1 [F2 [F3 [F4 _]]]]].
    exists (-1), (fmt 10 (- z)), ds. rewrite F1. repeat split; auto.
    + apply map_char_reads; [lia|exact F2].
    + destruct ds; [congruence|discriminate].
    + lia.
  - destruct (fmt_ok 10 z ltac:(lia) ltac:(lia)) as [ds [F1 [F2 [F3 [F4 _]]]]].
    exists 1, (fmt 10 z), ds. rewrite F1. repeat split; auto.
    + apply map_char_reads; [lia|exact F2].
    + destruct ds; [congruence|discriminate].
    + lia.
Qed.
Theorem C144_integer_text : forall show z, exists t,
  raw_text show (VInt z) = Ok t /\ to_text show (VInt z) = Ok t /\ to_text_find show (VInt z) = Ok t /\ signed_text 10 t z /\
  (- 2 ^ 63 <= z < 2 ^ 63 -> number_like (VText t) = Ok z).
Proof.
  intros show z. exists (show_int z). repeat split; try reflexivity; [apply show_int_signed|].
  intros H. cbn [number_like]. unfold parse_i64.
  rewrite (proj2 (from_str_ok 10 (show_int z) z ltac:(lia)) (conj (show_int_signed z) H)). reflexivity.
Qed.
(** The text of a number loses a final [.0] and nothing else. *)
Theorem C144_number_text : forall show x,
  (forall a, show x = a ++ tx ".0" -> to_text show (VNum x) = Ok a) /\
  ((forall a, show x <> a ++ tx ".0") -> to_text show (VNum x) = Ok (show x)).
Proof.
  intros show x. cbn [to_text]. unfold strip0. split.
  - intros a ->. rewrite rev_app_distr. cbn. now rewrite rev_involutive.
  - intros H. destruct (rev (show x)) as [|c [|d r]] eqn:E; auto.
    + destruct c as [|p]; auto. do 6 (destruct p as [p|p|]; auto).
    + destruct (N.eq_dec c 48) as [->|Nc].
      * destruct (N.eq_dec d 46) as [->|Nd].
        -- exfalso. apply (H (rev r)). rewrite <- (rev_involutive (show x)), E. cbn. now rewrite <- app_assoc.
        -- destruct d as [|p]; auto. do 6 (destruct p as [p|p|]; auto). congruence.
      * destruct c as [|p]; auto. do 6 (destruct p as [p|p|]; auto). congruence.
Qed.
(** Counts: left out, logical, blank, negative. *)
Theorem C144_counts : forall show v s, raw_text show v = Ok s ->
  f_left show v None = f_left show v (Some (VInt 1)) /\ f_right show v None = f_right show v (Some (VInt 1)) /\
  (forall b, f_left show v (Some (VBool b)) = f_left show v (Some (VInt (Z.b2z b))) /\
             f_right show v (Some (VBool b)) = f_right show v (Some (VInt (Z.b2z b)))) /\
  (f_left show v (Some VEmpty) = Ok (VText []) /\ f_right show v (Some VEmpty) = Ok (VText [])) /\
  (forall w k, number_like w = Ok k -> k < 0 -> f_left show v (Some w) = Err EVal /\ f_right show v (Some w) = Err EVal).
Proof.
  intros show v s Hs. repeat split; try (unfold f_left, f_right; rewrite Hs; cbn [rbind count_of number_like]; auto; fail).
  - unfold f_left. rewrite Hs. cbn [rbind count_of number_like]. replace (0 <? 0) with false by reflexivity.
    replace (Z.min 0 (len s)) with 0 by (unfold len; lia). unfold slice.
    replace ((0 <=? 0) && (0 <=? 0) && (0 <=? len s)) with true by (unfold len; lia). reflexivity.
  - unfold f_right. rewrite Hs. cbn [rbind count_of number_like]. replace (0 <? 0) with false by reflexivity.
    replace (Z.max 0 (len s - 0)) with (len s) by (unfold len; lia). unfold slice.
    replace ((0 <=? len s) && (len s <=? len s) && (len s <=? len s)) with true by (unfold len; lia).
    rewrite Z.sub_diag. reflexivity.
  - unfold f_left. rewrite Hs. cbn [rbind count_of]. rewrite H. cbn [rbind]. now replace (k <? 0) with true by lia.
  - unfold f_right. rewrite Hs. cbn [rbind count_of]. rewrite H. cbn [rbind]. now replace (k <? 0) with true by lia.
Qed.
Example C144_more_example :
  f_left no_show (VInt (-1234)) None = Ok (VText (tx "-")) /\ f_right no_show (VInt (-1234)) (Some (VInt 3)) = Ok (VText (tx "234")).
Proof. split; reflexivity. Qed.
Print Assumptions C144_integer_text.
Print Assumptions C144_number_text.
Print Assumptions C144_counts.

(** ** Where FIND and SEARCH start *)
Theorem C146_start : forall show a v p s k, to_text_find show a = Ok p -> to_text_find show v = Ok s -> p <> [] -> 1 <= k ->
  (forall i, f_find show a v (Some (VInt k)) = Ok (VInt i) <->
     k <= i /\ TfSpec.stands p s (i - 1) /\ (forall j, k <= j -> TfSpec.stands p s (j - 1) -> i <= j)) /\
  f_find show a v None = f_find show a v (Some (VInt 1)) /\
  (forall w z, number_like w = Ok z -> z < 1 -> f_find show a v (Some w) = Err EVal).
Proof.
  intros show a v p s k Ha Hv Hp Hk. split; [|split].
  - intros i. assert (HN : start_of (Some (VInt k)) = Ok (k - 1)) by (cbn; now replace (k <? 1) with false by lia).
    destruct (C146_find show a v (Some (VInt k)) p s (k - 1) Ha Hv HN ltac:(lia) Hp) as [H _]. rewrite H.
    unfold TfSpec.first_from. split.
    + intros [H1 [H2 H3]]. split; [lia|]. split; [auto|]. intros j Hj Hs. specialize (H3 (j - 1) ltac:(lia) Hs). lia.
    + intros [H1 [H2 H3]]. split; [lia|]. split; [auto|]. intros j Hj Hs.
      specialize (H3 (j + 1) ltac:(lia)). replace (j + 1 - 1) with j in H3 by lia. specialize (H3 Hs). lia.
  - reflexivity.
  - intros w z Hw Hz. unfold f_find, start_of. rewrite Ha, Hv, Hw. cbn [rbind]. now replace (z <? 1) with true by lia.
Qed.
Example C146_start_example : f_find no_show (VText (tx "a")) (VText (tx "banana")) (Some (VInt 3)) = Ok (VInt 4).
Proof. reflexivity. Qed.
Print Assumptions C146_start.

(** ** TEXTBEFORE and TEXTAFTER without a number take the first *)
Theorem C149_first : forall show num v w,
  f_textbefore show num v w None = f_textbefore show num v w (Some (VInt 1)) /\
  f_textafter show num v w None = f_textafter show num v w (Some (VInt 1)).
Proof. intros show num v w. split; reflexivity. Qed.
Example C149_first_example :
  f_textafter no_show no_num (VText (tx "a-b-c")) (VText (tx "-")) None = Ok (VText (tx "b-c")).
Proof. reflexivity. Qed.
Print Assumptions C149_first.

(** ** Which flags of TEXTJOIN leave empty texts out *)
Theorem C151_flags : forall show upper d vs,
  f_textjoin show upper d VEmpty vs = f_textjoin show upper d (VBool false) vs /\
  (forall z, f_textjoin show upper d (VInt z) vs = f_textjoin show upper d (VBool (negb (z =? 0))) vs) /\
  (forall q, f_textjoin show upper d (VNum (FFin q)) vs = f_textjoin show upper d (VBool (negb (Qnum q =? 0))) vs) /\
  (forall t, upper t = tx "TRUE" -> f_textjoin show upper d (VText t) vs = f_textjoin show upper d (VBool true) vs) /\
  (forall t, upper t <> tx "TRUE" -> f_textjoin show upper d (VText t) vs = f_textjoin show upper d (VBool false) vs) /\
  (forall e t, to_text show d = Ok t -> f_textjoin show upper d (VErr e) vs = Err e).
Proof.
  intros show upper d vs. repeat split; try reflexivity.
  - intros t H. unfold f_textjoin, flag_of. rewrite H. reflexivity.
  - intros t H. unfold f_textjoin, flag_of. destruct (text_eqb (upper t) (tx "TRUE")) eqn:E; [|reflexivity].
    exfalso. apply H. now apply (text_eqb_spec (upper t) (tx "TRUE")).
  - intros e t H. unfold f_textjoin. rewrite H. reflexivity.
Qed.
Example C151_flags_example :
  f_textjoin no_show (fun t => t) (VText (tx ",")) VEmpty [VText (tx "a"); VText []; VText (tx "b")] = Ok (VText (tx "a,,b")).
Proof. reflexivity. Qed.
Print Assumptions C151_flags.

(** ** ASC turns the wide forms into the ASCII characters they stand for *)
Theorem C154_asc_chars : forall show s, exists t, f_asc show (VText s) = Ok (VText t) /\
  Forall2 (fun c d => (exists k, (33 <= k <= 126)%N /\ c = (65248 + k)%N /\ d = k) \/ c = 12288%N /\ d = 32%N \/
                      d = c /\ c <> 12288%N /\ ~ (65281 <= c <= 65374)%N) s t.
Proof.
  intros show s. exists (map asc_char s). split; [reflexivity|]. induction s as [|c s IH]; constructor; auto.
  unfold asc_char. destruct (c =? 12288)%N eqn:E; [right; left; lia|].
  destruct ((65281 <=? c) && (c <=? 65374))%N eqn:F.
  - left. exists (c - 65281 + 33)%N. lia.
  - right. right. lia.
Qed.
Example C154_asc_example : f_asc no_show (VText [65313; 12288; 97]%N) = Ok (VText [65; 32; 97]%N).
Proof. reflexivity. Qed.
Print Assumptions C154_asc_chars.

(** ** Integer functions *)

(** A number is read by its decimal notation, without the part after the point. *)
Theorem C132_numbers : forall show upper x,
  f_bin2dec show (LNum x) = f_bin2dec show (LText (show (as_i64 x))) /\
  f_oct2dec show (LNum x) = f_oct2dec show (LText (show (as_i64 x))) /\
  f_hex2dec upper show (LNum x) = f_hex2dec upper show (LText (show (as_i64 x))) /\
  (forall z, f_bin2dec show (LInt z) = f_bin2dec show (LText (show z)) /\ f_oct2dec show (LInt z) = f_oct2dec show (LText (show z)) /\
             f_hex2dec upper show (LInt z) = f_hex2dec upper show (LText (show z))).
Proof. intros show upper x. repeat split; reflexivity. Qed.
Example C132_numbers_example : f_bin2dec show_int (LNum (FFin (inject_Z 101))) = OInt 5.
Proof. reflexivity. Qed.
Print Assumptions C132_numbers.

(** A float is cut off towards zero; what is outside the integers goes to their ends. *)
Theorem C134_cut : forall lo hi, lo <= 0 <= hi ->
  (forall q n, lo <= n <= hi -> (0 <= Qnum q /\ n * Zpos (Qden q) <= Qnum q < (n + 1) * Zpos (Qden q) \/
                                 Qnum q <= 0 /\ (n - 1) * Zpos (Qden q) < Qnum q <= n * Zpos (Qden q)) ->
     as_int lo hi (FFin q) = n) /\
  (forall q, hi * Zpos (Qden q) <= Qnum q -> as_int lo hi (FFin q) = hi) /\
  (forall q, Qnum q <= lo * Zpos (Qden q) -> as_int lo hi (FFin q) = lo) /\
  as_int lo hi (FInf true) = lo /\ as_int lo hi (FInf false) = hi /\ as_int lo hi FNaN = 0.
Proof.
  intros lo hi H. assert (HQ : forall q, qtrunc q = Z.quot (Qnum q) (Zpos (Qden q))) by (intros q; unfold qtrunc; try reflexivity).
  repeat split; try reflexivity.
  - intros q n Hn HB. cbn [as_int]. rewrite HQ.
    assert (Z.quot (Qnum q) (Z.pos (Qden q)) = n); [|lia].
    destruct HB as [[H0 HB]|[H0 HB]].
    + rewrite Z.quot_div_nonneg by lia. symmetry. apply Z.div_unique with (r := Qnum q - n * Z.pos (Qden q)); [left; nia|nia].
    + assert (HA : Z.quot (- Qnum q) (Z.pos (Qden q)) = - n).
      { rewrite Z.quot_div_nonneg by lia. symmetry. apply Z.div_unique with (r := - Qnum q + n * Z.pos (Qden q)); [left; nia|nia]. }
      rewrite Z.quot_opp_l in HA by lia. lia.
  - intros q HB. cbn [as_int]. rewrite HQ. rewrite Z.quot_div_nonneg by nia.
    pose proof (Z.div_le_lower_bound (Qnum q) (Z.pos (Qden q)) hi ltac:(lia) ltac:(nia)). lia.
  - intros q HB. cbn [as_int]. rewrite HQ. replace (Qnum q) with (- - Qnum q) by lia. rewrite Z.quot_opp_l by lia.
    rewrite Z.quot_div_nonneg by nia.
    pose proof (Z.div_le_lower_bound (- Qnum q) (Z.pos (Qden q)) (- lo) ltac:(lia) ltac:(nia)). lia.
Qed.
Example C134_cut_example : as_i32 (FFin (-7 # 2)%Q) = -3 /\ as_i32 (FInf true) = - 2 ^ 31.
Proof. split; reflexivity. Qed.
Print Assumptions C134_cut.

(** The forms of ROMAN: TRUE, blank and nothing are the classic form, FALSE the most
    concise one. *)
Theorem C135_form_argument : forall i2f pn v,
  f_roman i2f pn v (Some (LBool true)) = f_roman i2f pn v (Some (LInt 0)) /\
  f_roman i2f pn v (Some (LBool false)) = f_roman i2f pn v (Some (LInt 4)) /\
  f_roman i2f pn v (Some LEmpty) = f_roman i2f pn v (Some (LInt 0)) /\
  f_roman i2f pn v None = f_roman i2f pn v (Some (LInt 0)) /\
  (forall x, f_roman i2f pn v (Some (LNum x)) = f_roman i2f pn v (Some (LInt (as_i64 x)))) /\
  (forall x z, coerce_num i2f pn v = inl x -> 1 <= as_i64 x <= 3999 -> ~ 0 <= z <= 4 -> f_roman i2f pn v (Some (LInt z)) = OErr EValue).
Proof.
  intros i2f pn v. repeat split; try reflexivity. intros x z Hx Hr Hz. unfold f_roman. rewrite Hx.
  cbv zeta. replace ((0 <=? as_i64 x) && (as_i64 x <=? 3999)) with true by lia.
  replace (as_i64 x =? 0) with false by lia. cbn [roman_form]. now replace ((0 <=? z) && (z <=? 4)) with false by lia.
Qed.
Example C135_form_example :
  f_roman (fun z => FFin (inject_Z z)) (fun _ => None) (LInt 499) (Some (LBool true)) = OText (tx "CDXCIX").
Proof. reflexivity. Qed.
Print Assumptions C135_form_argument.
