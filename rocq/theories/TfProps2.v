(** Theorems about the text functions, continued (C150-C154). *)
From Coq Require Import String QArith.
From Coq Require Import ZifyN ZifyNat ZifyBool.
From Verif Require Import Base Maps NuModel TfModel TfSpec TfProofs1 TfProofs2 TfProofs3 TfProofs4 TfProofs5.
From Verif Require CrModel.
Close Scope Q_scope.
Local Open Scope Z_scope.

Definition no_show (_ : fnum) : text := tx "0".
Definition no_num (_ : text) : option fnum := None.
Definition id_text (t : text) : text := t.

(** * C150: TEXTSPLIT *)

(** One row per call without row delimiters: the pieces between the delimiters. *)
Theorem C150_split : forall show lower v w pad s d, to_text show v = Ok s -> to_text show w = Ok d -> d <> [] ->
  exists ps, pieces d s ps /\ s = join d ps /\ Forall (fun p => ~ within d p) ps /\
    f_textsplit show lower v [w] [] false false pad = Ok (collapse [map VText ps]).
Proof.
  intros show lower v w pad s d Hs Hd Hn. destruct (pieces_exist d s Hn) as [ps Hp].
  exists ps. split; [exact Hp|]. split; [symmetry; apply (pieces_join _ _ _ Hp)|].
  split; [apply (pieces_clean d s ps Hn Hp)|]. apply (textsplit_one show lower v w pad s d ps); assumption.
Qed.
Print Assumptions C150_split.

Lemma delims_nonempty : forall show vs ds, delims_of show vs = Ok ds -> Forall (fun d => d <> []) ds.
Proof.
  intros show vs. induction vs as [|v vs IH]; intros ds H; cbn in H.
  - injection H as <-. constructor.
  - destruct (to_text show v) as [t| |]; cbn in H; try discriminate.
    destruct (delims_of show vs) as [ts| |]; cbn in H; try discriminate. injection H as <-.
    destruct t as [|c t]; [apply IH; reflexivity|]. constructor; [discriminate|apply IH; reflexivity].
Qed.

(** Several delimiters. *)
Theorem C150_several : forall show lower v ws pad s ds, to_text show v = Ok s ->
  delims_of show ws = Ok ds -> ds <> [] -> s <> [] ->
  exists ps us, cuts ds s ps us /\ s = weave ps us /\ Forall (fun u => In u ds) us /\
    f_textsplit show lower v ws [] false false pad = Ok (collapse [map VText ps]).
Proof.
  intros show lower v ws pad s ds Hs Hd Hn Hsn.
  destruct (split_by_cs lower ds s Hn (delims_nonempty _ _ _ Hd) Hsn) as (ps & us & E & Hc).
  exists ps, us. split; [exact Hc|]. destruct (cuts_weave _ _ _ _ Hc) as (W & _ & F).
  split; [exact W|]. split; [exact F|].
  unfold f_textsplit. rewrite Hs. cbn [rbind]. rewrite Hd. cbn [rbind delims_of split_rows andb].
  rewrite E. pose proof (cuts_ne _ _ _ _ Hc) as Hne. destruct ps as [|p ps]; [exfalso; apply Hne; reflexivity|].
  cbn [map]. rewrite pad_same. reflexivity.
Qed.
Print Assumptions C150_several.

(** Leaving out empty pieces. *)
Theorem C150_ignore_empty : forall show lower v w pad s d ps, to_text show v = Ok s -> to_text show w = Ok d ->
  d <> [] -> pieces d s ps -> filter nonempty ps <> [] ->
  f_textsplit show lower v [w] [] true false pad = Ok (collapse [map VText (filter nonempty ps)]).
Proof.
  intros show lower v w pad s d ps Hs Hd Hn Hp Hf.
  assert (s <> []) as Hsn.
  { intros ->. pose proof (pieces_join _ _ _ Hp) as E. destruct ps as [|p ps]; [apply Hf; reflexivity|].
    destruct ps as [|p2 ps].
    - cbn in E. subst p. apply Hf. reflexivity.
    - rewrite join_cons in E by discriminate. apply app_eq_nil in E. destruct E as [_ E].
      apply app_eq_nil in E. destruct E. contradiction. }
  unfold f_textsplit. rewrite Hs. cbn [rbind].
  rewrite (delims_one show w d Hd Hn). cbn [rbind delims_of split_rows].
  destruct s as [|c s]; [congruence|]. cbn [nonempty negb andb].
  pose proof (split_by_pieces lower d (c :: s) ps Hn Hsn Hp) as Q.
  assert (exists p qs, filter nonempty ps = p :: qs) as (p & qs & F)
    by (destruct (filter nonempty ps) as [|p qs]; [congruence|eauto]).
  unfold text in *. rewrite Q, F.
  cbn [map]. rewrite pad_same. reflexivity.
Qed.
Print Assumptions C150_ignore_empty.

(** With row delimiters: one row per non-empty row text, all of one width. *)
Theorem C150_rows : forall show lower v cv rv pad s cd rd ts,
  to_text show v = Ok s -> to_text show cv = Ok cd -> to_text show rv = Ok rd ->
  cd <> [] -> rd <> [] -> pieces rd s ts -> Forall (fun t => t <> []) ts ->
  exists rows w, f_textsplit show lower v [cv] [rv] false false pad = Ok (collapse (map (fun r => snd r) rows)) /\
    Forall2 (fun t r => pieces cd t (fst r) /\
               exists k, snd r = map VText (fst r) ++ repeat pad k /\ length (snd r) = w) ts rows.
Proof.
  intros show lower v cv rv pad s cd rd ts Hs Hcv Hrv Hcd Hrd Hp Hne.
  assert (exists pss, Forall2 (fun t ps => pieces cd t ps) ts pss) as [pss Hpss].
  { clear Hne Hp. induction ts as [|t ts IH]; [exists []; constructor|].
    destruct (pieces_exist cd t Hcd) as [ps Ht]. destruct IH as [pss H]. exists (ps :: pss). constructor; assumption. }
  set (rows0 := map (map VText) pss).
  exists (map (fun ps => (ps, pad_row pad (widest rows0) (map VText ps))) pss), (widest rows0). split.
  - rewrite (textsplit_rows show lower v cv rv pad s cd rd ts rows0); auto.
    + subst rows0. rewrite !map_map. reflexivity.
    + subst rows0. clear Hp Hne. induction Hpss as [|t ps ts pss Ht H IH]; cbn; constructor; [|exact IH].
      exists ps. auto.
  - assert (forall ps, In ps pss -> In (map VText ps) rows0) as Hin by (intros; apply in_map; assumption).
    clear Hp Hne. clearbody rows0.
    induction Hpss as [|t ps ts pss Ht H IH]; cbn [map]; constructor.
    + cbn [fst snd]. split; [exact Ht|]. unfold pad_row. eexists. split; [reflexivity|].
      rewrite app_length, repeat_length.
      pose proof (widest_le rows0 (map VText ps) (Hin ps (or_introl eq_refl))). lia.
    + apply IH. intros q Hq. apply Hin. right. exact Hq.
Qed.
Print Assumptions C150_rows.

(** A row text that is empty is dropped even when empty pieces are to be kept. *)
Theorem C150_empty_row_refuted : forall show lower,
  f_textsplit show lower (VText (tx "a;;b")) [VText (tx ",")] [VText (tx ";")] false false (VErr ENa) =
    Ok (GRows [[VText (tx "a")]; [VText (tx "b")]]) /\
  pieces (tx ";") (tx "a;;b") [tx "a"; []; tx "b"].
Proof.
  intros show lower. split; [vm_compute; reflexivity|].
  apply (pieces_of_join 59%N [tx "a"; []; tx "b"]); [discriminate|].
  constructor; [|constructor; [|constructor; [|constructor]]]; cbn; intuition discriminate.
Qed.
Print Assumptions C150_empty_row_refuted.

(** Ignoring case, where lower-casing goes character by character and keeps
    their UTF-8 lengths: the pieces, lower-cased, are those of the lower-cased
    text, and they are cut from the text itself. *)
Theorem C150_case_partial : forall show lower lc v ws pad s ds,
  to_text show v = Ok s -> delims_of show ws = Ok ds -> ds <> [] -> s <> [] ->
  (forall t, In t (s :: ds) -> lower t = map lc t) ->
  Forall (fun c => ulen (lc c) = ulen c) s ->
  exists ps us, f_textsplit show lower v ws [] false true pad = Ok (collapse [map VText ps]) /\
    s = weave ps us /\ cuts (map lower ds) (lower s) (map (map lc) ps) (map (map lc) us).
Proof.
  intros show lower lc v ws pad s ds Hs Hd Hn Hsn Hl Hu.
  destruct (split_by_ci lower lc ds s Hl Hn (delims_nonempty _ _ _ Hd) Hsn Hu) as (ps & us & E & W & Hc).
  exists ps, us. split; [|auto].
  unfold f_textsplit. rewrite Hs. cbn [rbind]. rewrite Hd. cbn [rbind delims_of split_rows andb].
  rewrite E. pose proof (cuts_ne _ _ _ _ Hc) as Hne. destruct ps as [|p ps]; [exfalso; apply Hne; reflexivity|].
  cbn [map]. rewrite pad_same. reflexivity.
Qed.
Print Assumptions C150_case_partial.

(** Otherwise positions of the lower-cased text are used in the text.  U+212A
    (the Kelvin sign, three bytes) becomes k (one byte): the call panics. *)
Theorem C150_case_panics_refuted : forall show lower,
  lower [8490%N; 8490%N; 44%N; 98%N] = [107%N; 107%N; 44%N; 98%N] -> lower [44%N] = [44%N] ->
  f_textsplit show lower (VText [8490%N; 8490%N; 44%N; 98%N]) [VText [44%N]] [] false true (VErr ENa) = Panic.
Proof.
  intros show lower H1 H2. unfold f_textsplit. cbn [to_text rbind delims_of split_rows andb].
  unfold split_by. cbn [map]. unfold text in *. rewrite H1, H2. vm_compute. reflexivity.
Qed.
Print Assumptions C150_case_panics_refuted.

(** U+0130 (capital I with a dot, two bytes) becomes i and a combining dot
    (three bytes): the delimiter stays in the first piece and the rest is lost. *)
Theorem C150_case_loses_refuted : forall show lower,
  lower [304%N; 97%N; 44%N; 98%N] = [105%N; 775%N; 97%N; 44%N; 98%N] -> lower [44%N] = [44%N] ->
  f_textsplit show lower (VText [304%N; 97%N; 44%N; 98%N]) [VText [44%N]] [] false true (VErr ENa) =
    Ok (GScalar (VText [304%N; 97%N; 44%N])).
Proof.
  intros show lower H1 H2. unfold f_textsplit. cbn [to_text rbind delims_of split_rows andb].
  unfold split_by. cbn [map]. unfold text in *. rewrite H1, H2. vm_compute. reflexivity.
Qed.
Print Assumptions C150_case_loses_refuted.

Example C150_example :
  f_textsplit no_show id_text (VText (tx "a,b;c")) [VText (tx ",")] [VText (tx ";")] false false (VErr ENa) =
    Ok (GRows [[VText (tx "a"); VText (tx "b")]; [VText (tx "c"); VErr ENa]]) /\
  f_textsplit no_show id_text (VText (tx "a-b,")) [VText (tx ","); VText (tx "-")] [] false false (VErr ENa) =
    Ok (GRows [[VText (tx "a"); VText (tx "b"); VText []]]).
Proof. vm_compute. auto. Qed.

(** The first hypothesis of [C150_case_partial] is met by ASCII. *)
Example C150_case_example :
  f_textsplit no_show ascii_lower (VText (tx "aXbxc")) [VText (tx "x")] [] false true (VErr ENa) =
    Ok (GRows [[VText (tx "a"); VText (tx "b"); VText (tx "c")]]).
Proof. vm_compute. reflexivity. Qed.

(** * C151: CONCAT, CONCATENATE, TEXTJOIN *)

Theorem C151_concat : forall show vs ts, Forall2 (fun v t => to_text show v = Ok t) vs ts ->
  f_concat show vs = (if len (concat ts) <=? 32767 then Ok (VText (concat ts)) else Err EVal) /\
  f_concatenate show vs = Ok (VText (concat ts)).
Proof.
  intros show vs ts H. unfold f_concat, f_concatenate. split.
  - rewrite (concat_go_ok show vs ts H []) by (unfold len, max_chars; cbn; lia). cbn [app].
    unfold max_chars. destruct (len (concat ts) <=? 32767); reflexivity.
  - rewrite (concatenate_go_ok show vs ts H []). reflexivity.
Qed.
Print Assumptions C151_concat.

Theorem C151_concat_error : forall show vs ts e rest, Forall2 (fun v t => to_text show v = Ok t) vs ts ->
  len (concat ts) <= 32767 -> f_concat show (vs ++ VErr e :: rest) = Err e.
Proof.
  intros show vs ts e rest H L. unfold f_concat.
  rewrite (concat_go_err show vs ts H [] e rest L). reflexivity.
Qed.
Print Assumptions C151_concat_error.

Theorem C151_textjoin : forall show upper dv iv vs ts d ig, to_text show dv = Ok d -> flag_of upper iv = Ok ig ->
  Forall2 (fun v t => to_text_find show v = Ok t) vs ts ->
  let items := if ig then filter nonempty ts else ts in
  f_textjoin show upper dv iv vs =
    (if len (join d items) <=? 32767 then Ok (VText (join d items)) else Err EVal).
Proof.
  intros show upper dv iv vs ts d ig Hd Hi H. cbv zeta. unfold f_textjoin. rewrite Hd, Hi. cbn [rbind].
  rewrite (textjoin_go_ok show d ig vs ts H [] false) by (try reflexivity; unfold len, max_chars; cbn; lia).
  unfold due, kept, max_chars. cbn [app].
  destruct (len (join d (if ig then filter nonempty ts else ts)) <=? 32767); reflexivity.
Qed.
Print Assumptions C151_textjoin.

Theorem C151_textjoin_error : forall show upper dv iv vs ts d ig e rest,
  to_text show dv = Ok d -> flag_of upper iv = Ok ig ->
  Forall2 (fun v t => to_text_find show v = Ok t) vs ts ->
  len (join d (if ig then filter nonempty ts else ts)) <= 32767 ->
  f_textjoin show upper dv iv (vs ++ VErr e :: rest) = Err e.
Proof.
  intros show upper dv iv vs ts d ig e rest Hd Hi H L. unfold f_textjoin. rewrite Hd, Hi. cbn [rbind].
  rewrite (textjoin_go_err show d ig vs ts H [] false e rest); try reflexivity.
  - exact L.
  - unfold len, max_chars. cbn. lia.
Qed.
Print Assumptions C151_textjoin_error.

(** TEXTSPLIT takes apart what TEXTJOIN put together. *)
Theorem C151_round_trip : forall show lower upper c ts pad, ts <> [] -> Forall (fun t => ~ In c t) ts ->
  len (join [c] ts) <= 32767 ->
  exists r, f_textjoin show upper (VText [c]) (VBool false) (map VText ts) = Ok (VText r) /\
    f_textsplit show lower (VText r) [VText [c]] [] false false pad = Ok (collapse [map VText ts]).
Proof.
  intros show lower upper c ts pad Hn Hc Hl. exists (join [c] ts). split.
  - rewrite (C151_textjoin show upper (VText [c]) (VBool false) (map VText ts) ts [c] false); try reflexivity.
    + destruct (len (join [c] ts) <=? 32767) eqn:E; [reflexivity|lia].
    + clear Hl Hc Hn. induction ts as [|t ts IH]; cbn; constructor; [reflexivity|exact IH].
  - apply (textsplit_one show lower (VText (join [c] ts)) (VText [c]) pad (join [c] ts) [c] ts);
      try reflexivity; [discriminate|]. apply pieces_of_join; assumption.
Qed.
Print Assumptions C151_round_trip.

(** The other way round: the pieces TEXTSPLIT makes join to the text. *)
Theorem C151_round_trip_split : forall show lower upper s d pad, d <> [] -> len s <= 32767 ->
  exists ps, f_textsplit show lower (VText s) [VText d] [] false false pad = Ok (collapse [map VText ps]) /\
    f_textjoin show upper (VText d) (VBool false) (map VText ps) = Ok (VText s).
Proof.
  intros show lower upper s d pad Hd Hl. destruct (pieces_exist d s Hd) as [ps Hp]. exists ps. split.
  - apply (textsplit_one show lower (VText s) (VText d) pad s d ps); try reflexivity; assumption.
  - rewrite (C151_textjoin show upper (VText d) (VBool false) (map VText ps) ps d false); try reflexivity.
    + rewrite (pieces_join _ _ _ Hp). destruct (len s <=? 32767) eqn:E; [reflexivity|lia].
    + clear. induction ps as [|t ps IH]; cbn; constructor; [reflexivity|exact IH].
Qed.
Print Assumptions C151_round_trip_split.

(** CONCATENATE has no limit, so it and CONCAT differ on the same texts. *)
Theorem C151_concatenate_unlimited : forall show s, len s = 32767 ->
  f_concat show [VText s; VText (tx "x")] = Err EVal /\
  f_concatenate show [VText s; VText (tx "x")] = Ok (VText (s ++ tx "x")).
Proof.
  intros show s Hl.
  assert (Forall2 (fun v t => to_text show v = Ok t) [VText s; VText (tx "x")] [s; tx "x"]) as F
    by (repeat constructor).
  destruct (C151_concat show _ _ F) as [A B]. cbn [concat app] in A, B. split.
  - rewrite A. rewrite !len_app, Hl. reflexivity.
  - exact B.
Qed.
Print Assumptions C151_concatenate_unlimited.

Example C151_example :
  f_textjoin no_show id_text (VText (tx "-")) (VBool true) [VText (tx "a"); VEmpty; VText []; VBool true] =
    Ok (VText (tx "a-TRUE")) /\
  f_textjoin no_show id_text (VText (tx "-")) (VBool false) [VEmpty; VText (tx "a"); VEmpty] =
    Ok (VText (tx "-a-")) /\
  f_concat no_show [VText (tx "a"); VEmpty; VInt (-12)] = Ok (VText (tx "a-12")).
Proof. vm_compute. auto. Qed.

(** * C152: REPT *)

Theorem C152_rept_partial : forall chk show num v n s x, raw_text show v = Ok s -> to_num num n = Ok x ->
  0 <= as_i64 x -> Forall (fun c => (c < 128)%N) s -> s <> [] -> len s * as_i64 x < 2 ^ 64 ->
  (len s * as_i64 x <= 32767 ->
     exists r, f_rept chk show num v n = Ok (VText r) /\ r = copies (Z.to_nat (as_i64 x)) s /\
       len r = len s * as_i64 x) /\
  (32767 < len s * as_i64 x -> f_rept chk show num v n = Err EVal).
Proof.
  intros chk show num v n s x Hs Hx H0 Ha Hn Hw. pose proof (blen_ascii s Ha) as Hb. split; intros L.
  - destruct (rept_ok show chk num v n s x Hs Hx H0) as (r & E & R & _); [rewrite Hb; exact L|].
    exists r. split; [exact E|]. specialize (R Hn). split; [exact R|]. rewrite R, copies_len, Z2Nat.id by lia. apply Z.mul_comm.
  - apply (rept_long show chk num v n s x Hs Hx H0). rewrite Hb. lia.
Qed.
Print Assumptions C152_rept_partial.

(** For any text: what is given back is never too long, and is the text repeated. *)
Theorem C152_sound : forall chk show num v n s x r, raw_text show v = Ok s -> to_num num n = Ok x ->
  f_rept chk show num v n = Ok (VText r) ->
  0 <= as_i64 x /\ len r <= 32767 /\ r = (if nonempty s then copies (Z.to_nat (as_i64 x)) s else []).
Proof.
  intros chk show num v n s x r Hs Hx H. unfold f_rept in H. rewrite Hs, Hx in H. cbn [rbind] in H. cbv zeta in H.
  destruct (as_i64 x <? 0) eqn:E; [discriminate|].
  destruct (chk && (2 ^ 64 <=? blen s * as_i64 x)); [discriminate|].
  destruct (32767 <? (blen s * as_i64 x) mod 2 ^ 64) eqn:E2; [discriminate|].
  unfold str_repeat in H. destruct (2 ^ 63 - 1 <? blen s * as_i64 x) eqn:E3; [discriminate|].
  cbn [sliced] in H. injection H as <-. split; [lia|].
  pose proof (blen_len s) as Hb. pose proof (len_nonneg s).
  assert (0 <= blen s * as_i64 x) by (apply Z.mul_nonneg_nonneg; lia).
  rewrite Z.mod_small in E2 by lia. destruct s as [|c s]; cbn [nonempty]; [split; [cbn; lia|reflexivity]|].
  split; [|reflexivity]. rewrite copies_len, Z2Nat.id, Z.mul_comm by lia.
  assert (len (c :: s) * as_i64 x <= blen (c :: s) * as_i64 x) by (apply Z.mul_le_mono_nonneg_r; lia). lia.
Qed.
Print Assumptions C152_sound.

(** The limit is on bytes: 20000 letters e acute are refused. *)
Theorem C152_bytes_refuted : forall chk show num,
  f_rept chk show num (VText [233%N]) (VInt 20000) = Err EVal /\ len [233%N] * 20000 <= 32767.
Proof. intros [|] show num; split; vm_compute; congruence. Qed.
Print Assumptions C152_bytes_refuted.

(** Four bytes times 2^62 is 0 in 64 bits: the limit is passed and the call panics. *)
Theorem C152_panics_refuted : forall chk show num,
  f_rept chk show num (VText (tx "abcd")) (VInt (2 ^ 62)) = Panic.
Proof. intros [|] show num; vm_compute; reflexivity. Qed.
Print Assumptions C152_panics_refuted.

Example C152_example :
  f_rept true no_show no_num (VText (tx "ab")) (VInt 3) = Ok (VText (tx "ababab")) /\
  f_rept true no_show no_num (VText (tx "ab")) (VInt 20000) = Err EVal.
Proof. vm_compute. auto. Qed.

(** * C153: CHAR and CODE, UNICHAR and UNICODE *)

Theorem C153_unichar : forall show num z, 1 <= z <= 1114111 -> ~ (55296 <= z <= 57343) ->
  exists t, f_unichar num (VInt z) = Ok (VText t) /\ f_unicode show (VText t) = Ok (VInt z).
Proof.
  intros show num z H1 H2. exists [Z.to_N z]. unfold f_unichar. cbn [to_num rbind]. cbv zeta.
  rewrite as_u32_int by lia.
  destruct ((z =? 0) || (55296 <=? z) && (z <=? 57343) || (1114111 <? z)) eqn:E; [lia|].
  split; [reflexivity|]. unfold f_unicode. cbn [to_text rbind]. rewrite Z2N.id by lia. reflexivity.
Qed.
Print Assumptions C153_unichar.

Theorem C153_unicode : forall show num c s, (1 <= c <= 1114111)%N -> ~ (55296 <= c <= 57343)%N ->
  exists z, f_unicode show (VText (c :: s)) = Ok (VInt z) /\ f_unichar num (VInt z) = Ok (VText [c]).
Proof.
  intros show num c s H1 H2. exists (Z.of_N c). split; [reflexivity|].
  unfold f_unichar. cbn [to_num rbind]. cbv zeta. rewrite as_u32_int by lia.
  destruct ((Z.of_N c =? 0) || (55296 <=? Z.of_N c) && (Z.of_N c <=? 57343) || (1114111 <? Z.of_N c)) eqn:E; [lia|].
  rewrite N2Z.id. reflexivity.
Qed.
Print Assumptions C153_unicode.

Theorem C153_unichar_rejects : forall num v x, to_num num v = Ok x ->
  (f_unichar num v = Err EVal <->
   as_u32 x = 0 \/ 55296 <= as_u32 x <= 57343 \/ 1114111 < as_u32 x).
Proof.
  intros num v x Hx. unfold f_unichar. rewrite Hx. cbn [rbind]. cbv zeta.
  destruct ((as_u32 x =? 0) || (55296 <=? as_u32 x) && (as_u32 x <=? 57343) || (1114111 <? as_u32 x)) eqn:E.
  - split; [intros _; lia|reflexivity].
  - split; [discriminate|]. lia.
Qed.
Print Assumptions C153_unichar_rejects.

Theorem C153_char_partial : forall show num z, 1 <= z <= 255 -> ~ In z [129; 141; 143; 144; 157] ->
  exists t, f_char num (VInt z) = Ok (VText t) /\ f_code show (VText t) = Ok (VInt z).
Proof.
  intros show num z Hz Hn. exists [char_of_code z]. unfold f_char. cbn [to_num rbind]. cbv zeta.
  rewrite as_i32_int by lia. destruct (negb ((1 <=? z) && (z <=? 255))) eqn:E; [lia|].
  split; [reflexivity|]. unfold f_code. cbn [raw_text plain rbind].
  pose proof (code_table z Hz) as T. unfold code_back in T. apply orb_prop in T. destruct T as [T|T].
  - exfalso. apply Hn. apply existsb_exists in T. destruct T as [y [Hy Ey]]. apply Z.eqb_eq in Ey. subst y. exact Hy.
  - apply Z.eqb_eq in T. rewrite T. reflexivity.
Qed.
Print Assumptions C153_char_partial.

(** The five codes Windows-1252 leaves out all give U+FFFD, and its code is 65533. *)
Theorem C153_char_refuted : forall show num z, In z [129; 141; 143; 144; 157] ->
  exists t, f_char num (VInt z) = Ok (VText t) /\ f_code show (VText t) = Ok (VInt 65533).
Proof.
  intros show num z H. exists [65533%N].
  cbn in H. destruct H as [<-|[<-|[<-|[<-|[<-|[]]]]]]; vm_compute; auto.
Qed.
Print Assumptions C153_char_refuted.

Theorem C153_char_rejects : forall num v x, to_num num v = Ok x ->
  (f_char num v = Err EVal <-> as_i32 x < 1 \/ 255 < as_i32 x).
Proof.
  intros num v x Hx. unfold f_char. rewrite Hx. cbn [rbind]. cbv zeta.
  destruct (negb ((1 <=? as_i32 x) && (as_i32 x <=? 255))) eqn:E.
  - split; [intros _; lia|reflexivity].
  - split; [discriminate|lia].
Qed.
Print Assumptions C153_char_rejects.

Example C153_example :
  f_char no_num (VInt 128) = Ok (VText [8364%N]) /\ f_code no_show (VText [8364%N]) = Ok (VInt 128) /\
  f_unichar no_num (VInt 128512) = Ok (VText [128512%N]).
Proof. vm_compute. auto. Qed.

(** * C154: TRIM, CLEAN, UPPER, LOWER, PROPER, ASC and EXACT *)

Theorem C154_trim : forall show v s, to_text show v = Ok s ->
  exists ws, words s ws /\ f_trim show v = Ok (VText (join [32%N] ws)).
Proof.
  intros show v s Hs. destruct (words_exist s) as [ws Hw]. exists ws. split; [exact Hw|].
  unfold f_trim. rewrite Hs. cbn [rbind]. rewrite (trim_words s ws Hw). reflexivity.
Qed.
Print Assumptions C154_trim.

Theorem C154_trim_again : forall show v t, f_trim show v = Ok (VText t) -> f_trim show (VText t) = Ok (VText t).
Proof.
  intros show v t H. destruct (to_text show v) as [s| |] eqn:Hs.
  2,3: unfold f_trim in H; rewrite Hs in H; discriminate.
  destruct (C154_trim show v s Hs) as (ws & Hw & E). rewrite E in H. injection H as <-.
  unfold f_trim. cbn [to_text rbind].
  rewrite (trim_words _ ws (words_join ws (words_ok _ _ Hw))). reflexivity.
Qed.
Print Assumptions C154_trim_again.

Theorem C154_clean : forall show v s, to_text show v = Ok s ->
  exists t, f_clean show v = Ok (VText t) /\ t = filter (fun c => (32 <=? c)%N) s /\
    f_clean show (VText t) = Ok (VText t).
Proof.
  intros show v s Hs. exists (filter (fun c => (32 <=? c)%N) s). unfold f_clean. rewrite Hs. cbn [rbind to_text].
  split; [reflexivity|]. split.
  - reflexivity.
  - do 2 f_equal. induction s as [|c s IH]; [reflexivity|]. cbn [filter].
    assert (forall s : text, filter (fun c => (32 <=? c)%N) (filter (fun c => (32 <=? c)%N) s)
                             = filter (fun c => (32 <=? c)%N) s) as Q.
    { clear. induction s as [|x s IH]; [reflexivity|]. cbn [filter].
      destruct (32 <=? x)%N eqn:E; [|exact IH]. cbn [filter]. rewrite E, IH. reflexivity. }
    destruct (32 <=? c)%N eqn:E; [|apply Q]. cbn [filter]. rewrite E, Q. reflexivity.
Qed.
Print Assumptions C154_clean.

Lemma map_fix : forall (f : N -> N) s, (forall c, f (f c) = f c) -> map f (map f s) = map f s.
Proof. intros f s H. rewrite map_map. apply map_ext. exact H. Qed.

(** UPPER, LOWER and ASC keep the length, do nothing the second time, and UPPER
    and LOWER agree on which texts are the same. *)
Theorem C154_case : forall show v s, to_text show v = Ok s ->
  exists u l, f_upper show v = Ok (VText u) /\ f_lower show v = Ok (VText l) /\
    len u = len s /\ len l = len s /\
    f_upper show (VText u) = Ok (VText u) /\ f_lower show (VText l) = Ok (VText l) /\
    f_lower show (VText u) = Ok (VText l) /\ l = map fold_az s.
Proof.
  intros show v s Hs. exists (ascii_upper s), (ascii_lower s).
  unfold f_upper, f_lower. rewrite Hs. cbn [rbind to_text]. unfold ascii_upper, ascii_lower.
  rewrite !(map_fix _ _ upper_idem), !(map_fix _ _ lower_idem).
  unfold len. rewrite !map_length. rewrite map_map.
  repeat (split; [reflexivity|]). split.
  - do 2 f_equal. apply map_ext. exact upper_lower.
  - apply map_ext. exact lower_fold.
Qed.
Print Assumptions C154_case.

Theorem C154_asc : forall show v s, raw_text show v = Ok s ->
  exists t, f_asc show v = Ok (VText t) /\ len t = len s /\ f_asc show (VText t) = Ok (VText t).
Proof.
  intros show v s Hs. exists (map asc_char s). unfold f_asc. rewrite Hs. cbn [rbind raw_text plain].
  unfold len. rewrite map_length, (map_fix _ _ asc_idem). auto.
Qed.
Print Assumptions C154_asc.

Theorem C154_exact : forall show a b s t, to_text_find show a = Ok s -> to_text_find show b = Ok t ->
  (f_exact show a b = Ok (VBool true) <-> s = t) /\ (f_exact show a b = Ok (VBool false) <-> s <> t).
Proof.
  intros show a b s t Ha Hb. unfold f_exact. rewrite Ha, Hb. cbn [rbind].
  destruct (text_eqb s t) eqn:E.
  - apply text_eqb_spec in E. split; split; intros; try congruence.
  - assert (s <> t) as N by (intros F; apply text_eqb_spec in F; congruence).
    split; split; intros; try congruence.
Qed.
Print Assumptions C154_exact.

(** PROPER works word by word: a character that is no letter or digit ends the word. *)
Theorem C154_proper : forall show alnum up low a c b, alnum c = false ->
  exists x y, f_proper show alnum up low (VText a) = Ok (VText x) /\
    f_proper show alnum up low (VText b) = Ok (VText y) /\
    f_proper show alnum up low (VText (a ++ c :: b)) = Ok (VText (x ++ c :: y)).
Proof.
  intros show alnum up low a c b Hc.
  exists (proper_go alnum up low a true), (proper_go alnum up low b true).
  split; [reflexivity|]. split; [reflexivity|]. unfold f_proper. cbn [to_text rbind]. do 2 f_equal.
  assert (forall nw, proper_go alnum up low (a ++ c :: b) nw =
                     proper_go alnum up low a nw ++ c :: proper_go alnum up low b true) as Q; [|apply Q].
  induction a as [|x a IH]; intros nw; cbn [app proper_go].
  - rewrite Hc. reflexivity.
  - destruct (alnum x); [destruct nw; rewrite IH, <- app_assoc; reflexivity|]. rewrite IH. reflexivity.
Qed.
Print Assumptions C154_proper.
Theorem C154_proper_word : forall show alnum up low c w, Forall (fun x => alnum x = true) (c :: w) ->
  f_proper show alnum up low (VText (c :: w)) = Ok (VText (up c ++ concat (map low w))).
Proof.
  intros show alnum up low c w H. inversion H as [|c0 w0 Hc Hw]; subst. unfold f_proper.
  cbn [to_text rbind proper_go]. rewrite Hc. do 3 f_equal.
  clear H Hc. induction Hw as [|x w Hx H IH]; [reflexivity|]. cbn [proper_go]. rewrite Hx, IH. reflexivity.
Qed.
Print Assumptions C154_proper_word.

Example C154_example :
  f_trim no_show (VText (tx "  a   b  ")) = Ok (VText (tx "a b")) /\
  words (tx " a b") [tx "a"; tx "b"] /\
  f_clean no_show (VText [65%N; 10%N; 66%N]) = Ok (VText (tx "AB")) /\
  f_upper no_show (VText (tx "aB1")) = Ok (VText (tx "AB1")).
Proof.
  split; [vm_compute; reflexivity|]. split; [|vm_compute; auto].
  apply (w_space 32%N (tx "a b")); [reflexivity|].
  apply (w_word (tx "a") 32%N (tx "b")); [discriminate| |reflexivity|].
  - repeat constructor.
  - apply w_end; [discriminate|]. repeat constructor.
Qed.
