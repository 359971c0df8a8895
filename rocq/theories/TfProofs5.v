(** The text functions as wholes. *)
From Coq Require Import String QArith.
From Coq Require Import ZifyN ZifyNat ZifyBool.
From Verif Require Import Base Maps NuModel TfModel TfSpec TfProofs1 TfProofs2 TfProofs3 TfProofs4.
From Verif Require CrModel.
Close Scope Q_scope.
Local Open Scope Z_scope.

Section All.
Variable show : fnum -> text.

(** * LEFT, RIGHT, MID, REPLACE *)

Lemma left_ok : forall v n s k, raw_text show v = Ok s -> count_of n = Ok k -> 0 <= k ->
  f_left show v n = Ok (VText (firstn (Z.to_nat k) s)).
Proof.
  intros v n s k Hs Hk Hp. unfold f_left. rewrite Hs, Hk. cbn [rbind].
  destruct (k <? 0) eqn:E; [lia|]. pose proof (len_nonneg s).
  rewrite slice_ok by lia. cbn [sliced Z.to_nat skipn]. rewrite Z.sub_0_r. do 2 f_equal.
  destruct (Z.le_gt_cases k (len s)) as [L|L].
  - replace (Z.min k (len s)) with k by lia. reflexivity.
  - replace (Z.min k (len s)) with (len s) by lia. unfold len in *.
    rewrite !firstn_all2 by lia. reflexivity.
Qed.

Lemma right_ok : forall v n s k, raw_text show v = Ok s -> count_of n = Ok k -> 0 <= k ->
  f_right show v n = Ok (VText (skipn (Z.to_nat (len s - k)) s)).
Proof.
  intros v n s k Hs Hk Hp. unfold f_right. rewrite Hs, Hk. cbn [rbind].
  destruct (k <? 0) eqn:E; [lia|]. pose proof (len_nonneg s).
  rewrite slice_ok by lia. cbn [sliced]. do 2 f_equal.
  replace (Z.to_nat (len s - k)) with (Z.to_nat (Z.max 0 (len s - k))) by lia.
  rewrite firstn_all2; [reflexivity|]. rewrite skipn_length. unfold len in *. lia.
Qed.

Lemma mid_ok : forall (chk : bool) v a n s k c, to_text show v = Ok s ->
  number_like a = Ok k -> number_like n = Ok c -> 1 <= k < 2 ^ 63 -> 0 <= c < 2 ^ 63 ->
  (chk = true -> k - 1 + c < 2 ^ 63) ->
  f_mid chk show v a n = Ok (VText (firstn (Z.to_nat c) (skipn (Z.to_nat (k - 1)) s))).
Proof.
  intros chk v a n s k c Hs Hk Hc Hkr Hcr Hch. unfold f_mid. rewrite Hs, Hk, Hc. cbn [rbind].
  destruct ((k <? 1) || (c <? 0)) eqn:E; [lia|].
  destruct (len s <? k) eqn:E2.
  - rewrite skipn_all2 by (unfold len in E2; lia). rewrite firstn_nil. reflexivity.
  - assert (chk && negb (in_i64 (k - 1 + c)) = false) as ->.
    { destruct chk; [|reflexivity]. specialize (Hch eq_refl). unfold in_i64.
      destruct ((- 2 ^ 63 <=? k - 1 + c) && (k - 1 + c <=? 2 ^ 63 - 1)) eqn:E3; [reflexivity|lia]. }
    rewrite Z.mod_small by lia. rewrite slice_ok by lia. cbn [sliced]. do 2 f_equal.
    destruct (Z.le_gt_cases (k - 1 + c) (len s)) as [L|L].
    + replace (Z.min (k - 1 + c) (len s) - (k - 1)) with c by lia. reflexivity.
    + rewrite !firstn_all2; [reflexivity| |]; rewrite skipn_length; unfold len in *; lia.
Qed.

Lemma replace_ok : forall v a n w s k c new, to_text show v = Ok s ->
  number_like a = Ok k -> number_like n = Ok c -> to_text show w = Ok new -> 1 <= k -> 0 <= c ->
  f_replace show v a n w =
    Ok (VText (if k - 1 <=? len s
               then firstn (Z.to_nat (k - 1)) s ++ new ++ skipn (Z.to_nat (k - 1 + c)) s else s)).
Proof.
  intros v a n w s k c new Hs Hk Hc Hn Hkr Hcr. unfold f_replace. rewrite Hs, Hk, Hc. cbn [rbind].
  rewrite Hn. cbn [rbind]. destruct ((k <? 1) || (c <? 0)) eqn:E; [lia|]. cbv zeta.
  replace (Z.max 0 (k - 1)) with (k - 1) by lia.
  destruct (len s <? k - 1) eqn:E2; destruct (k - 1 <=? len s) eqn:E3; try lia; [reflexivity|].
  do 2 f_equal. do 2 f_equal.
  destruct (Z.le_gt_cases (k - 1 + c) (len s)) as [L|L].
  - replace (Z.min (k - 1 + c) (len s)) with (k - 1 + c) by lia. reflexivity.
  - replace (Z.min (k - 1 + c) (len s)) with (len s) by lia. unfold len in *.
    rewrite !skipn_all2 by lia. reflexivity.
Qed.

(** * SUBSTITUTE *)

Lemma substitute_all : forall v o n s d q ps, to_text show v = Ok s ->
  to_text show o = Ok d -> to_text show n = Ok q -> d <> [] -> pieces d s ps ->
  f_substitute show v o n None = Ok (VText (join q ps)).
Proof.
  intros v o n s d q ps Hs Hd Hq Hn Hp. unfold f_substitute. rewrite Hs, Hd, Hq. cbn [rbind].
  destruct d as [|c d]; [congruence|]. rewrite (replace_pieces _ q _ _ Hn Hp). reflexivity.
Qed.

Lemma substitute_nth : forall v o n i s d q ps k, to_text show v = Ok s ->
  to_text show o = Ok d -> to_text show n = Ok q -> number_like i = Ok k -> 1 <= k ->
  d <> [] -> pieces d s ps ->
  f_substitute show v o n (Some i) =
    Ok (VText (if k <? Z.of_nat (length ps)
               then join d (firstn (Z.to_nat k) ps) ++ q ++ join d (skipn (Z.to_nat k) ps) else s)).
Proof.
  intros v o n i s d q ps k Hs Hd Hq Hi Hk Hn Hp. unfold f_substitute. rewrite Hs, Hd, Hq. cbn [rbind].
  destruct d as [|c d]; [congruence|]. rewrite Hi. cbn [rbind]. destruct (k <=? 0) eqn:E; [lia|].
  rewrite (nth_go_pieces (c :: d) q s s ps Hn Hp) by lia. rewrite Z.sub_0_r. reflexivity.
Qed.

(** * TEXTBEFORE, TEXTAFTER *)

Lemma occurrence_ok : forall s d i ps, d <> [] -> pieces d s ps ->
  i <> 0 -> - Z.of_nat (length ps - 1) <= i <= Z.of_nat (length ps - 1) ->
  let j := Z.to_nat (if 0 <? i then i else Z.of_nat (length ps) + i) in
  (0 < j < length ps)%nat /\ occurrence s d i = Ok (join d (firstn j ps), join d (skipn j ps)).
Proof.
  intros s d i ps Hd Hp Hi Hr. cbv zeta. pose proof (pieces_ne _ _ _ Hp) as Hne.
  assert (0 < length ps)%nat as Hl by (destruct ps; [congruence|cbn; lia]).
  destruct (indices_pieces d s ps Hd Hp) as [L N].
  unfold occurrence. destruct d as [|c d]; [congruence|].
  destruct (i =? 0) eqn:E; [lia|]. cbv zeta. destruct (0 <? i) eqn:E2.
  - split; [lia|]. rewrite (N (Z.to_nat (i - 1))) by lia.
    replace (S (Z.to_nat (i - 1))) with (Z.to_nat i) by lia. reflexivity.
  - split; [lia|]. rewrite L.
    destruct (Z.of_nat (length ps - 1) + i <? 0) eqn:E3; [lia|].
    rewrite (N (Z.to_nat (Z.of_nat (length ps - 1) + i))) by lia.
    replace (S (Z.to_nat (Z.of_nat (length ps - 1) + i))) with (Z.to_nat (Z.of_nat (length ps) + i)) by lia.
    reflexivity.
Qed.

Lemma occurrence_na : forall s d i ps, d <> [] -> pieces d s ps ->
  i <> 0 -> ~ (- Z.of_nat (length ps - 1) <= i <= Z.of_nat (length ps - 1)) ->
  occurrence s d i = Err ENa.
Proof.
  intros s d i ps Hd Hp Hi Hr. destruct (indices_pieces d s ps Hd Hp) as [L N].
  unfold occurrence. destruct d as [|c d]; [congruence|].
  destruct (i =? 0) eqn:E; [lia|]. cbv zeta. destruct (0 <? i) eqn:E2.
  - destruct (nth_error (match_indices (c :: d) s) (Z.to_nat (i - 1))) eqn:En; [|reflexivity].
    assert (nth_error (match_indices (c :: d) s) (Z.to_nat (i - 1)) <> None) as Hx by congruence.
    apply nth_error_Some in Hx. lia.
  - rewrite L. destruct (Z.of_nat (length ps - 1) + i <? 0) eqn:E3; [reflexivity|lia].
Qed.

(** * TEXTSPLIT *)

Lemma delims_one : forall v d, to_text show v = Ok d -> d <> [] -> delims_of show [v] = Ok [d].
Proof. intros v d H Hd. cbn. rewrite H. cbn. destruct d; [congruence|reflexivity]. Qed.

Lemma collapse_rows : forall pad rows, rows <> [] -> 
  match rows with
  | [] => Ok (GScalar (VText [])) : R grid
  | _ => Ok (collapse (map (pad_row pad (widest rows)) rows))
  end = Ok (collapse (map (pad_row pad (widest rows)) rows)).
Proof. intros pad [|r rows] H; [congruence|reflexivity]. Qed.

Lemma pad_same : forall pad (row : list val), pad_row pad (widest [row]) row = row.
Proof.
  intros pad row. unfold pad_row. cbn [widest fold_right].
  replace (Nat.max (length row) 0 - length row)%nat with 0%nat by lia. apply app_nil_r.
Qed.

Lemma textsplit_one : forall lower v dv pad s d ps,
  to_text show v = Ok s -> to_text show dv = Ok d -> d <> [] -> pieces d s ps ->
  f_textsplit show lower v [dv] [] false false pad = Ok (collapse [map VText ps]).
Proof.
  intros lower v dv pad s d ps Hs Hd Hn Hp. unfold f_textsplit. rewrite Hs. cbn [rbind].
  rewrite (delims_one dv d Hd Hn). cbn [rbind delims_of].
  destruct s as [|c s].
  - cbn [split_rows andb]. rewrite split_by_empty by discriminate. cbn [map].
    inversion Hp as [s0 Hn0 E1 E2|a r ps0 Hf Hp0 E1 E2]; subst; [reflexivity|].
    exfalso. apply app_eq_nil in E1. destruct E1 as [_ E1]. apply app_eq_nil in E1.
    destruct E1 as [E1 _]. contradiction.
  - assert (split_rows lower [c :: s] [d] false false = Some [map VText ps]) as Q.
    { apply (split_rows_spec lower d [c :: s] [map VText ps] Hn).
      - constructor; [discriminate|constructor].
      - constructor; [exists ps; auto|constructor]. }
    unfold text in *. rewrite Q. cbn [map]. rewrite pad_same. reflexivity.
Qed.

Lemma textsplit_rows : forall lower v cv rv pad s cd rd ts rows,
  to_text show v = Ok s -> to_text show cv = Ok cd -> to_text show rv = Ok rd ->
  cd <> [] -> rd <> [] -> pieces rd s ts -> Forall (fun t => t <> []) ts ->
  Forall2 (fun t row => exists ps, pieces cd t ps /\ row = map VText ps) ts rows ->
  f_textsplit show lower v [cv] [rv] false false pad =
    Ok (collapse (map (pad_row pad (widest rows)) rows)).
Proof.
  intros lower v cv rv pad s cd rd ts rows Hs Hcv Hrv Hcd Hrd Hp Hne Hr.
  unfold f_textsplit. rewrite Hs. cbn [rbind].
  rewrite (delims_one cv cd Hcv Hcd). cbn [rbind].
  rewrite (delims_one rv rd Hrv Hrd). cbn [rbind].
  assert (s <> []) as Hsn.
  { intros ->. pose proof (pieces_join _ _ _ Hp) as E.
    pose proof (pieces_ne _ _ _ Hp). destruct ts as [|t ts]; [congruence|].
    inversion Hne; subst. destruct ts as [|t2 ts].
    - cbn in E. congruence.
    - rewrite join_cons in E by discriminate. apply app_eq_nil in E. destruct E. congruence. }
  pose proof (split_by_pieces lower rd s ts Hrd Hsn Hp) as Q1.
  pose proof (split_rows_spec lower cd ts rows Hcd Hne Hr) as Q2.
  unfold text in *. rewrite Q1, Q2.
  pose proof (pieces_ne _ _ _ Hp) as Ht.
  destruct rows as [|r rows]; [|reflexivity]. inversion Hr; subst. exfalso. apply Ht. reflexivity.
Qed.

(** * REPT *)

Lemma rept_ok : forall chk num_of_text v n s x, raw_text show v = Ok s -> to_num num_of_text n = Ok x ->
  0 <= as_i64 x -> blen s * as_i64 x <= 32767 ->
  exists r, f_rept chk show num_of_text v n = Ok (VText r) /\
    (s <> [] -> r = copies (Z.to_nat (as_i64 x)) s) /\ (s = [] -> r = []).
Proof.
  intros chk num_of_text v n s x Hs Hx H0 Hb. unfold f_rept. rewrite Hs, Hx. cbn [rbind]. cbv zeta.
  destruct (as_i64 x <? 0) eqn:E; [lia|]. pose proof (blen_nonneg s) as Hbs.
  assert (0 <= blen s * as_i64 x) as Hp by (apply Z.mul_nonneg_nonneg; lia).
  destruct (2 ^ 64 <=? blen s * as_i64 x) eqn:E1; [lia|]. rewrite andb_false_r.
  rewrite Z.mod_small by lia. destruct (32767 <? blen s * as_i64 x) eqn:E2; [lia|].
  unfold str_repeat. destruct (2 ^ 63 - 1 <? blen s * as_i64 x) eqn:E3; [lia|].
  cbn [sliced]. eexists. split; [reflexivity|]. destruct s; split; congruence.
Qed.

Lemma rept_long : forall chk num_of_text v n s x, raw_text show v = Ok s -> to_num num_of_text n = Ok x ->
  0 <= as_i64 x -> 32767 < blen s * as_i64 x < 2 ^ 64 ->
  f_rept chk show num_of_text v n = Err EVal.
Proof.
  intros chk num_of_text v n s x Hs Hx H0 Hb. unfold f_rept. rewrite Hs, Hx. cbn [rbind]. cbv zeta.
  destruct (as_i64 x <? 0) eqn:E; [lia|].
  destruct (2 ^ 64 <=? blen s * as_i64 x) eqn:E1; [lia|]. rewrite andb_false_r.
  rewrite Z.mod_small by lia. destruct (32767 <? blen s * as_i64 x) eqn:E2; [reflexivity|lia].
Qed.

End All.

(** * CHAR and CODE: a finite table, checked entry by entry *)

Definition code_back (z : Z) : bool :=
  existsb (Z.eqb z) [129; 141; 143; 144; 157] || (code_of_char (char_of_code z) =? z).
Lemma code_table : forall z, 1 <= z <= 255 -> code_back z = true.
Proof.
  intros z Hz.
  assert (forallb (fun n => code_back (Z.of_nat n)) (seq 1 255) = true) as H by (vm_compute; reflexivity).
  rewrite forallb_forall in H. specialize (H (Z.to_nat z)).
  rewrite Z2Nat.id in H by lia. apply H. apply in_seq. lia.
Qed.

Lemma as_i32_int : forall z, - 2 ^ 31 <= z < 2 ^ 31 -> as_i32 (FFin (inject_Z z)) = z.
Proof.
  intros z Hz. unfold as_i32, as_int, qtrunc. cbn [Qnum Qden inject_Z]. rewrite Z.quot_1_r. lia.
Qed.
Lemma as_u32_int : forall z, 0 <= z < 2 ^ 32 -> as_u32 (FFin (inject_Z z)) = z.
Proof.
  intros z Hz. unfold as_u32, as_int, qtrunc. cbn [Qnum Qden inject_Z]. rewrite Z.quot_1_r. lia.
Qed.
Lemma as_i64_int : forall z, - 2 ^ 63 <= z < 2 ^ 63 -> as_i64 (FFin (inject_Z z)) = z.
Proof.
  intros z Hz. unfold as_i64, as_int, qtrunc. cbn [Qnum Qden inject_Z]. rewrite Z.quot_1_r. lia.
Qed.

(** * Letter case *)

Lemma lower_fold : forall c, to_ascii_lower c = fold_az c.
Proof. intros c. unfold to_ascii_lower, is_ascii_upper, fold_az. reflexivity. Qed.
Lemma ascii_lower_fold : forall s, ascii_lower s = map fold_az s.
Proof. intros s. apply map_ext. apply lower_fold. Qed.
Lemma lower_idem : forall c, to_ascii_lower (to_ascii_lower c) = to_ascii_lower c.
Proof.
  intros c. unfold to_ascii_lower, is_ascii_upper.
  destruct ((65 <=? c)%N && (c <=? 90)%N) eqn:E; [|rewrite E; reflexivity].
  destruct ((65 <=? c + 32)%N && (c + 32 <=? 90)%N) eqn:E2; [lia|reflexivity].
Qed.
Lemma upper_idem : forall c, to_ascii_upper (to_ascii_upper c) = to_ascii_upper c.
Proof.
  intros c. unfold to_ascii_upper, is_ascii_lower.
  destruct ((97 <=? c)%N && (c <=? 122)%N) eqn:E; [|rewrite E; reflexivity].
  destruct ((97 <=? c - 32)%N && (c - 32 <=? 122)%N) eqn:E2; [lia|reflexivity].
Qed.
Lemma upper_lower : forall c, to_ascii_lower (to_ascii_upper c) = to_ascii_lower c.
Proof.
  intros c. unfold to_ascii_upper, to_ascii_lower, is_ascii_lower, is_ascii_upper.
  destruct ((97 <=? c)%N && (c <=? 122)%N) eqn:E; [|reflexivity].
  destruct ((65 <=? c - 32)%N && (c - 32 <=? 90)%N) eqn:E2; [|lia].
  destruct ((65 <=? c)%N && (c <=? 90)%N) eqn:E3; lia.
Qed.
Lemma asc_idem : forall c, asc_char (asc_char c) = asc_char c.
Proof.
  intros c. unfold asc_char. destruct (c =? 12288)%N eqn:E; [reflexivity|].
  destruct ((65281 <=? c)%N && (c <=? 65374)%N) eqn:E2; [|rewrite E, E2; reflexivity].
  destruct (c - 65281 + 33 =? 12288)%N eqn:E3; [lia|].
  destruct ((65281 <=? c - 65281 + 33)%N && (c - 65281 + 33 <=? 65374)%N) eqn:E4; [lia|reflexivity].
Qed.
