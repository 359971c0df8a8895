(** Theorems about the text functions (C144-C154). *)
From Coq Require Import String QArith.
From Coq Require Import ZifyN ZifyNat ZifyBool.
From Verif Require Import Base Maps NuModel TfModel TfSpec TfProofs1 TfProofs2 TfProofs3 TfProofs4 TfProofs5.
From Verif Require CrModel.
Close Scope Q_scope.
Local Open Scope Z_scope.

Definition no_show (_ : fnum) : text := tx "0".
Definition no_num (_ : text) : option fnum := None.
Definition i64_max : Z := 2 ^ 63 - 1.

(** * C144: LEN, LEFT, RIGHT and MID cut a text by characters *)

Theorem C144_left_right : forall show v w s k, raw_text show v = Ok s -> number_like w = Ok k -> 0 <= k ->
  exists a b, f_left show v (Some w) = Ok (VText a) /\
    f_right show v (Some (VInt (len s - k))) = (if len s <? k then Err EVal else Ok (VText b)) /\
    s = a ++ b /\ f_len show v = Ok (VInt (len s)) /\ len a = Z.min k (len s).
Proof.
  intros show v w s k Hs Hw Hk.
  exists (firstn (Z.to_nat k) s), (skipn (Z.to_nat k) s).
  split; [exact (left_ok show v (Some w) s k Hs Hw Hk)|]. split.
  { destruct (len s <? k) eqn:E.
    - unfold f_right. rewrite Hs. cbn [rbind count_of number_like].
      destruct (len s - k <? 0) eqn:E2; [reflexivity|lia].
    - rewrite (right_ok show v _ s (len s - k) Hs) by (try reflexivity; lia).
      replace (len s - (len s - k)) with k by lia. reflexivity. }
  split; [symmetry; apply firstn_skipn|]. split.
  - unfold f_len. rewrite Hs. reflexivity.
  - rewrite len_firstn. lia.
Qed.
Print Assumptions C144_left_right.

Theorem C144_mid : forall chk show v a n s k c, to_text show v = Ok s ->
  number_like a = Ok k -> number_like n = Ok c -> 1 <= k < 2 ^ 63 -> 0 <= c < 2 ^ 63 ->
  (chk = true -> k - 1 + c < 2 ^ 63) ->
  exists m, f_mid chk show v a n = Ok (VText m) /\
    (k <= len s -> exists x y, s = x ++ m ++ y /\ len x = k - 1 /\ len m = Z.min c (len s - k + 1)) /\
    (len s < k -> m = []).
Proof.
  intros chk show v a n s k c Hs Ha Hn Hk Hc Hch.
  exists (firstn (Z.to_nat c) (skipn (Z.to_nat (k - 1)) s)).
  split; [exact (mid_ok show chk v a n s k c Hs Ha Hn Hk Hc Hch)|]. split.
  - intros L. exists (firstn (Z.to_nat (k - 1)) s), (skipn (Z.to_nat c) (skipn (Z.to_nat (k - 1)) s)).
    split; [rewrite firstn_skipn, firstn_skipn; reflexivity|].
    rewrite !len_firstn, len_skipn. lia.
  - intros L. rewrite skipn_all2 by (unfold len in L; lia). apply firstn_nil.
Qed.
Print Assumptions C144_mid.

(** LEFT up to a place, MID from there, RIGHT for the rest, of one text. *)
Theorem C144_reassemble : forall chk show s k c, 1 <= k -> 0 <= c -> k - 1 + c <= len s -> len s < 2 ^ 62 ->
  exists a m b,
    f_left show (VText s) (Some (VInt (k - 1))) = Ok (VText a) /\
    f_mid chk show (VText s) (VInt k) (VInt c) = Ok (VText m) /\
    f_right show (VText s) (Some (VInt (len s - (k - 1 + c)))) = Ok (VText b) /\
    s = a ++ m ++ b.
Proof.
  intros chk show s k c Hk Hc Hl Hs.
  exists (firstn (Z.to_nat (k - 1)) s), (firstn (Z.to_nat c) (skipn (Z.to_nat (k - 1)) s)),
    (skipn (Z.to_nat (k - 1 + c)) s).
  split; [apply (left_ok show (VText s) _ s (k - 1)); try reflexivity; lia|].
  split; [apply (mid_ok show chk (VText s) _ _ s k c); try reflexivity; intros; lia|].
  split.
  - rewrite (right_ok show (VText s) _ s (len s - (k - 1 + c))); try reflexivity; [|lia].
    do 2 f_equal. f_equal. lia.
  - replace (Z.to_nat (k - 1 + c)) with (Z.to_nat (k - 1) + Z.to_nat c)%nat by lia.
    assert (forall n m (l : text), skipn (n + m) l = skipn m (skipn n l)) as Q.
    { induction n as [|n IH]; intros m l; [reflexivity|]. destruct l; [rewrite !skipn_nil; reflexivity|]. apply IH. }
    rewrite Q, firstn_skipn, firstn_skipn. reflexivity.
Qed.
Print Assumptions C144_reassemble.

(** A build that checks overflow panics instead of taking the rest of the text. *)
Theorem C144_mid_panics_refuted : forall show v a n s k c, to_text show v = Ok s ->
  number_like a = Ok k -> number_like n = Ok c -> 2 <= k <= len s -> 0 <= c <= i64_max -> k <= i64_max ->
  2 ^ 63 <= k - 1 + c ->
  f_mid true show v a n = Panic /\
  f_mid false show v a n = Ok (VText (skipn (Z.to_nat (k - 1)) (firstn (Z.to_nat (k - 1 + c)) s))).
Proof.
  intros show v a n s k c Hs Ha Hn Hk Hc Hk2 Ho. unfold i64_max in *. split.
  - unfold f_mid. rewrite Hs, Ha, Hn. cbn [rbind].
    destruct ((k <? 1) || (c <? 0)) eqn:E; [lia|].
    destruct (len s <? k) eqn:E2; [lia|]. unfold in_i64.
    destruct ((- 2 ^ 63 <=? k - 1 + c) && (k - 1 + c <=? 2 ^ 63 - 1)) eqn:E3; [lia|]. reflexivity.
  - rewrite (mid_ok show false v a n s k c Hs Ha Hn); [|lia|lia|discriminate].
    rewrite skipn_firstn_comm. do 3 f_equal. lia.
Qed.
Print Assumptions C144_mid_panics_refuted.

(** LEN, LEFT, RIGHT, CODE and REPT read a logical value as lower case, every
    other text function as upper case. *)
Theorem C144_logical_refuted : forall chk show,
  f_left show (VBool true) (Some (VInt 2)) = Ok (VText (tx "tr")) /\
  f_mid chk show (VBool true) (VInt 1) (VInt 2) = Ok (VText (tx "TR")) /\
  f_code show (VBool true) = Ok (VInt 116) /\
  f_unicode show (VBool true) = Ok (VInt 84).
Proof. intros [|] show; vm_compute; auto. Qed.
Print Assumptions C144_logical_refuted.

(** Every other value is read the same way by both. *)
Theorem C144_same_text : forall show v, (forall x, strip0 (show x) = show x) ->
  (forall b, v <> VBool b) -> raw_text show v = to_text show v /\ to_text_find show v = to_text show v.
Proof.
  intros show v Hs Hb. destruct v; try (split; reflexivity).
  - exfalso. apply (Hb b). reflexivity.
  - cbn. rewrite Hs. auto.
Qed.
Print Assumptions C144_same_text.

Example C144_example :
  f_left no_show (VText (tx "engine")) (Some (VInt 2)) = Ok (VText (tx "en")) /\
  f_mid true no_show (VText (tx "engine")) (VInt 3) (VInt 2) = Ok (VText (tx "gi")) /\
  f_right no_show (VText (tx "engine")) (Some (VInt 2)) = Ok (VText (tx "ne")) /\
  f_mid true no_show (VText (tx "ab")) (VInt 2) (VNum (FInf false)) = Panic.
Proof. vm_compute. auto. Qed.

(** * C145: REPLACE *)

Theorem C145_replace : forall show v a n w s k c new, to_text show v = Ok s ->
  number_like a = Ok k -> number_like n = Ok c -> to_text show w = Ok new ->
  1 <= k -> 0 <= c -> k <= len s + 1 ->
  exists x m y, s = x ++ m ++ y /\ len x = k - 1 /\ len m = Z.min c (len s - k + 1) /\
    f_replace show v a n w = Ok (VText (x ++ new ++ y)).
Proof.
  intros show v a n w s k c new Hs Ha Hn Hw Hk Hc Hl.
  exists (firstn (Z.to_nat (k - 1)) s), (firstn (Z.to_nat c) (skipn (Z.to_nat (k - 1)) s)),
    (skipn (Z.to_nat (k - 1 + c)) s).
  assert (forall n m (l : text), skipn (n + m) l = skipn m (skipn n l)) as Q.
  { induction n0 as [|n0 IH]; intros m l; [reflexivity|]. destruct l; [rewrite !skipn_nil; reflexivity|]. apply IH. }
  split.
  { replace (Z.to_nat (k - 1 + c)) with (Z.to_nat (k - 1) + Z.to_nat c)%nat by lia.
    rewrite Q, firstn_skipn, firstn_skipn. reflexivity. }
  rewrite !len_firstn, len_skipn. split; [lia|]. split; [lia|].
  rewrite (replace_ok show v a n w s k c new Hs Ha Hn Hw Hk Hc).
  destruct (k - 1 <=? len s) eqn:E; [reflexivity|lia].
Qed.
Print Assumptions C145_replace.

Theorem C145_beyond : forall show v a n w s k c new, to_text show v = Ok s ->
  number_like a = Ok k -> number_like n = Ok c -> to_text show w = Ok new ->
  1 <= k -> 0 <= c -> len s + 1 < k -> f_replace show v a n w = Ok (VText s).
Proof.
  intros show v a n w s k c new Hs Ha Hn Hw Hk Hc Hl.
  rewrite (replace_ok show v a n w s k c new Hs Ha Hn Hw Hk Hc).
  destruct (k - 1 <=? len s) eqn:E; [lia|reflexivity].
Qed.
Print Assumptions C145_beyond.

(** Replacing what MID reads by itself changes nothing. *)
Theorem C145_identity : forall chk show s k c, 1 <= k -> 0 <= c -> k - 1 + c < 2 ^ 62 ->
  exists m, f_mid chk show (VText s) (VInt k) (VInt c) = Ok (VText m) /\
    f_replace show (VText s) (VInt k) (VInt c) (VText m) = Ok (VText s).
Proof.
  intros chk show s k c Hk Hc Hl. eexists. split.
  - apply (mid_ok show chk (VText s) (VInt k) (VInt c) s k c); try reflexivity; intros; lia.
  - erewrite (replace_ok show (VText s) (VInt k) (VInt c) _ s k c); try reflexivity; try lia.
    destruct (k - 1 <=? len s); [|reflexivity]. do 2 f_equal.
    replace (Z.to_nat (k - 1 + c)) with (Z.to_nat (k - 1) + Z.to_nat c)%nat by lia.
    assert (forall n m (l : text), skipn (n + m) l = skipn m (skipn n l)) as Q.
    { induction n as [|n IH]; intros m l; [reflexivity|]. destruct l; [rewrite !skipn_nil; reflexivity|]. apply IH. }
    rewrite Q, firstn_skipn, firstn_skipn. reflexivity.
Qed.
Print Assumptions C145_identity.

(** The documentation says a start beyond the end changes nothing; the first
    place beyond the end appends. *)
Theorem C145_end_refuted : forall show s new, new <> [] ->
  exists r, f_replace show (VText s) (VInt (len s + 1)) (VInt 0) (VText new) = Ok (VText r) /\ r <> s /\ r = s ++ new.
Proof.
  intros show s new Hn. exists (s ++ new).
  pose proof (len_nonneg s).
  rewrite (replace_ok show (VText s) _ _ _ s (len s + 1) 0 new); try reflexivity; try lia.
  destruct (len s + 1 - 1 <=? len s) eqn:E; [|lia].
  replace (len s + 1 - 1 + 0) with (len s) by lia. replace (len s + 1 - 1) with (len s) by lia.
  unfold len. rewrite Nat2Z.id, firstn_all, skipn_all, app_nil_r. split; [reflexivity|].
  split; [|reflexivity]. intros E2. rewrite <- (app_nil_r s) in E2 at 2. apply app_inv_head in E2. contradiction.
Qed.
Print Assumptions C145_end_refuted.

Example C145_example :
  f_replace no_show (VText (tx "abcdef")) (VInt 3) (VInt 2) (VText (tx "ZZZ")) = Ok (VText (tx "abZZZef")) /\
  f_replace no_show (VText (tx "ab")) (VInt 3) (VInt 0) (VText (tx "!")) = Ok (VText (tx "ab!")) /\
  f_replace no_show (VText (tx "ab")) (VInt 4) (VInt 0) (VText (tx "!")) = Ok (VText (tx "ab")).
Proof. vm_compute. auto. Qed.

(** * C146: FIND *)

Theorem C146_find : forall show a v n p s k, to_text_find show a = Ok p -> to_text_find show v = Ok s ->
  start_of n = Ok k -> 0 <= k -> p <> [] ->
  (forall i, f_find show a v n = Ok (VInt i) <-> first_from (stands p s) k (i - 1)) /\
  (f_find show a v n = Err EVal <-> forall j, k <= j -> ~ stands p s j) /\
  f_find show a v n <> Panic.
Proof.
  intros show a v n p s k Ha Hv Hn Hk Hp. unfold f_find. rewrite Ha, Hv, Hn. cbn [rbind].
  destruct p as [|c p]; [congruence|].
  pose proof (char_find_spec s (c :: p) k Hp Hk) as C.
  destruct (char_find s (c :: p) k) as [j|]; cbn [found].
  - split; [|split].
    + intros i. split.
      * intros E. injection E as <-. replace (j + 1 - 1) with j by lia. exact C.
      * intros F. destruct C as [C1 [C2 C3]]. destruct F as [F1 [F2 F3]].
        pose proof (C3 _ F1 F2). pose proof (F3 _ C1 C2). do 2 f_equal. lia.
    + split; [discriminate|]. intros H. exfalso. destruct C as [C1 [C2 _]]. apply (H j C1 C2).
    + discriminate.
  - split; [|split].
    + intros i. split; [discriminate|]. intros [F1 [F2 _]]. exfalso. apply (C _ F1 F2).
    + split; [intros _; exact C|reflexivity].
    + discriminate.
Qed.
Print Assumptions C146_find.

(** MID at the place found gives the text looked for. *)
Theorem C146_mid_at : forall chk show p s n i, p <> [] -> len s < 2 ^ 62 ->
  f_find show (VText p) (VText s) n = Ok (VInt i) ->
  f_mid chk show (VText s) (VInt i) (VInt (len p)) = Ok (VText p).
Proof.
  intros chk show p s n i Hp Hl H.
  destruct (start_of n) as [k|e|] eqn:Hn.
  2,3: unfold f_find in H; cbn [to_text_find to_text rbind] in H; rewrite Hn in H; discriminate.
  assert (0 <= k) as Hk.
  { destruct n as [w|]; cbn in Hn; [|injection Hn as <-; lia].
    destruct (number_like w) as [z| |]; cbn in Hn; try discriminate.
    destruct (z <? 1) eqn:E; [discriminate|]. injection Hn as <-. lia. }
  destruct (C146_find show (VText p) (VText s) n p s k eq_refl eq_refl Hn Hk Hp) as [F _].
  apply F in H. destruct H as [H1 [(x & y & E & L) _]]. subst s. rewrite !len_app in Hl. 
  pose proof (len_nonneg p). pose proof (len_nonneg y). unfold len in *.
  rewrite (mid_ok show chk _ _ _ (x ++ p ++ y) i (Z.of_nat (length p))); try reflexivity; try (intros; lia).
  do 2 f_equal. replace (Z.to_nat (i - 1)) with (length x) by lia. rewrite skipn_app_len, Nat2Z.id.
  apply firstn_app_len.
Qed.
Print Assumptions C146_mid_at.

(** An empty text is found at 1, whatever the start. *)
Theorem C146_empty_refuted : forall show s k, 1 <= k ->
  f_find show (VText []) (VText s) (Some (VInt k)) = Ok (VInt 1) /\
  f_search show (VText []) (VText s) (Some (VInt k)) = Ok (VInt 1).
Proof.
  intros show s k Hk. unfold f_find, f_search. cbn [to_text_find to_text rbind start_of number_like].
  destruct (k <? 1) eqn:E; [lia|]. split; reflexivity.
Qed.
Print Assumptions C146_empty_refuted.

Example C146_example :
  f_find no_show (VText (tx "na")) (VText (tx "banana")) (Some (VInt 4)) = Ok (VInt 5) /\
  f_find no_show (VText (tx "")) (VText (tx "ab")) (Some (VInt 9)) = Ok (VInt 1).
Proof. vm_compute. auto. Qed.

(** * C147: SEARCH *)

(** The first place from which the pattern describes the text, letters A-Z and
    a-z being the same. *)
Definition described (p s : text) (i : Z) : Prop :=
  0 <= i <= len s /\ glob (map fold_az p) (skipn (Z.to_nat i) (map fold_az s)).

Theorem C147_search : forall show a v n p s k, to_text_find show a = Ok p -> to_text_find show v = Ok s ->
  start_of n = Ok k -> 0 <= k -> p <> [] ->
  (forall i, f_search show a v n = Ok (VInt i) <-> first_from (described p s) k (i - 1)) /\
  (f_search show a v n = Err EVal <-> forall j, k <= j -> ~ described p s j) /\
  f_search show a v n <> Panic.
Proof.
  intros show a v n p s k Ha Hv Hn Hk Hp. unfold f_search. rewrite Ha, Hv, Hn. cbn [rbind]. cbv zeta.
  rewrite (ascii_lower_fold p), (ascii_lower_fold s).
  assert (forall j, described p s j <-> globs (map fold_az p) (map fold_az s) j) as D.
  { intros j. unfold described, globs. unfold len. rewrite map_length. tauto. }
  assert (map fold_az p <> []) as Hp' by (destruct p; [congruence|discriminate]).
  remember (map fold_az p) as q eqn:Eq. remember (map fold_az s) as t eqn:Et. clear Eq Et.
  assert (forall o : option Z,
    match o with
    | Some j => first_from (globs q t) k j
    | None => forall j, k <= j -> ~ globs q t j
    end ->
    (forall i, found o = Ok (VInt i) <-> first_from (described p s) k (i - 1)) /\
    (found o = Err EVal <-> forall j, k <= j -> ~ described p s j) /\ found o <> Panic) as K.
  { intros [j|] C; cbn [found].
    - apply (first_from_ext _ (described p s)) in C; [|intros; rewrite D; reflexivity].
      split; [|split; [|discriminate]].
      + intros i. split.
        * intros E. injection E as <-. replace (j + 1 - 1) with j by lia. exact C.
        * intros F. destruct C as [C1 [C2 C3]]. destruct F as [F1 [F2 F3]].
          pose proof (C3 _ F1 F2). pose proof (F3 _ C1 C2). do 2 f_equal. lia.
      + split; [discriminate|]. intros H. exfalso. destruct C as [C1 [C2 _]]. apply (H j C1 C2).
    - split; [|split; [|discriminate]].
      + intros i. split; [discriminate|]. intros [F1 [F2 _]]. exfalso. apply D in F2. apply (C _ F1 F2).
      + split; [|reflexivity]. intros _ j Hj Hd. apply D in Hd. apply (C j Hj Hd). }
  destruct q as [|c q]; [congruence|]. destruct (len t <? k) eqn:E.
  - specialize (K None). cbn [found] in K. apply K. intros j Hj [Hr _]. lia.
  - destruct (existsb (fun c => ((c =? 42) || (c =? 63))%N) (c :: q)) eqn:Ew.
    + apply K. unfold wildcard_search. apply wild_go_spec; [exact Hk|]. unfold len. lia.
    + apply K. pose proof (char_find_spec t (c :: q) k ltac:(discriminate) Hk) as C.
      destruct (char_find t (c :: q) k) as [j|].
      * apply (first_from_ext (stands (c :: q) t)); [|exact C].
        intros j' Hj'. apply (search_plain t (c :: q) k j' Hk Ew Hj').
      * intros j Hj Hg. apply (C j Hj). apply (search_plain t (c :: q) k j Hk Ew Hj). exact Hg.
Qed.
Print Assumptions C147_search.

(** The case of the letters A to Z makes no difference. *)
Theorem C147_case : forall show p p' s s' n, same_az p p' -> same_az s s' ->
  f_search show (VText p) (VText s) n = f_search show (VText p') (VText s') n.
Proof.
  intros show p p' s s' n Hp Hs. unfold f_search. cbn [to_text_find to_text rbind].
  rewrite (ascii_lower_fold p), (ascii_lower_fold s), (ascii_lower_fold p'), (ascii_lower_fold s'), Hp, Hs.
  reflexivity.
Qed.
Print Assumptions C147_case.

(** Of any other letter it does: capital E acute is not found as small e acute. *)
Theorem C147_case_refuted : forall show lower : _, lower [201%N] = [233%N] -> lower [233%N] = [233%N] ->
  f_search show (VText [201%N]) (VText [233%N]) None = Err EVal /\
  lower [201%N] = lower [233%N].
Proof. intros show lower H1 H2. split; [vm_compute; reflexivity|congruence]. Qed.
Print Assumptions C147_case_refuted.

(** A tilde does not take the meaning off a wildcard. *)
Theorem C147_tilde_refuted : forall show,
  f_search show (VText (tx "~?")) (VText (tx "who?")) None = Err EVal /\
  f_search show (VText (tx "~?")) (VText (tx "a~b")) None = Ok (VInt 2).
Proof. intros show. vm_compute. auto. Qed.
Print Assumptions C147_tilde_refuted.

Example C147_example :
  f_search no_show (VText (tx "N?n")) (VText (tx "baNaNa")) None = Ok (VInt 3) /\
  f_search no_show (VText (tx "c*F")) (VText (tx "abcdef")) (Some (VInt 2)) = Ok (VInt 3).
Proof. vm_compute. auto. Qed.

(** * C148: SUBSTITUTE *)

Theorem C148_substitute : forall show v o n s d q, to_text show v = Ok s ->
  to_text show o = Ok d -> to_text show n = Ok q -> d <> [] ->
  exists ps, pieces d s ps /\ s = join d ps /\ Forall (fun p => ~ within d p) ps /\
    f_substitute show v o n None = Ok (VText (join q ps)).
Proof.
  intros show v o n s d q Hs Hd Hq Hn. destruct (pieces_exist d s Hn) as [ps Hp].
  exists ps. split; [exact Hp|]. split; [symmetry; apply (pieces_join _ _ _ Hp)|].
  split; [apply (pieces_clean d s ps Hn Hp)|]. apply (substitute_all show v o n s d q ps); assumption.
Qed.
Print Assumptions C148_substitute.

Theorem C148_instance : forall show v o n i s d q k ps, to_text show v = Ok s ->
  to_text show o = Ok d -> to_text show n = Ok q -> number_like i = Ok k -> 1 <= k -> d <> [] ->
  pieces d s ps ->
  (k < Z.of_nat (length ps) -> exists a b,
     s = a ++ d ++ b /\ a = join d (firstn (Z.to_nat k) ps) /\ b = join d (skipn (Z.to_nat k) ps) /\
     f_substitute show v o n (Some i) = Ok (VText (a ++ q ++ b))) /\
  (Z.of_nat (length ps) <= k -> f_substitute show v o n (Some i) = Ok (VText s)).
Proof.
  intros show v o n i s d q k ps Hs Hd Hq Hi Hk Hn Hp.
  rewrite (substitute_nth show v o n i s d q ps k Hs Hd Hq Hi Hk Hn Hp). split; intros L.
  - eexists. eexists. split; [|split; [reflexivity|split; [reflexivity|]]].
    + rewrite <- (pieces_join _ _ _ Hp) at 1. apply join_split. lia.
    + destruct (k <? Z.of_nat (length ps)) eqn:E; [reflexivity|lia].
  - destruct (k <? Z.of_nat (length ps)) eqn:E; [lia|reflexivity].
Qed.
Print Assumptions C148_instance.

(** Counting occurrences by the length lost. *)
Theorem C148_count : forall show s d q, d <> [] ->
  exists ps r, pieces d s ps /\
    f_substitute show (VText s) (VText d) (VText q) None = Ok (VText r) /\
    len r = len s + (Z.of_nat (length ps) - 1) * (len q - len d).
Proof.
  intros show s d q Hn. destruct (pieces_exist d s Hn) as [ps Hp].
  exists ps, (join q ps). split; [exact Hp|].
  split; [apply (substitute_all show _ _ _ s d q ps); try reflexivity; assumption|].
  rewrite (join_length d q ps (pieces_ne _ _ _ Hp)). rewrite (pieces_join _ _ _ Hp). reflexivity.
Qed.
Print Assumptions C148_count.

Theorem C148_empty : forall show v n i s q, to_text show v = Ok s -> to_text show n = Ok q ->
  f_substitute show v (VText []) n i = Ok (VText s).
Proof. intros show v n i s q Hs Hq. unfold f_substitute. rewrite Hs, Hq. reflexivity. Qed.
Print Assumptions C148_empty.

Example C148_example :
  pieces (tx "an") (tx "banana") [tx "b"; []; tx "a"] /\
  f_substitute no_show (VText (tx "banana")) (VText (tx "an")) (VText (tx "-")) None = Ok (VText (tx "b--a")) /\
  f_substitute no_show (VText (tx "banana")) (VText (tx "an")) (VText (tx "-")) (Some (VInt 2)) = Ok (VText (tx "ban-a")).
Proof.
  split; [|vm_compute; auto].
  assert (forall a b s, cut (tx "an") s = Some (a, b) -> forall ps, pieces (tx "an") b ps ->
            pieces (tx "an") s (a :: ps)) as K.
  { intros a b s E ps Hp. destruct (cut_some _ _ _ _ E) as [H1 H2]. rewrite H1. apply p_more; [|exact Hp].
    intros a' r' Ea. apply (H2 a' r'). rewrite H1. exact Ea. }
  apply (K (tx "b") (tx "ana")); [vm_compute; reflexivity|].
  apply (K [] (tx "a")); [vm_compute; reflexivity|].
  apply p_last. apply cut_none. vm_compute. reflexivity.
Qed.

(** * C149: TEXTBEFORE and TEXTAFTER *)

Theorem C149_around : forall show num v w n s d i, to_text show v = Ok s -> to_text show w = Ok d ->
  instance_of num n = Ok i ->
  (exists a b, f_textbefore show num v w n = Ok (VText a) /\ f_textafter show num v w n = Ok (VText b) /\
     s = a ++ d ++ b) \/
  (exists e, f_textbefore show num v w n = Err e /\ f_textafter show num v w n = Err e).
Proof.
  intros show num v w n s d i Hs Hd Hi. unfold f_textbefore, f_textafter. rewrite Hs, Hd, Hi. cbn [rbind].
  destruct d as [|c d].
  { right. exists EVal. split; reflexivity. }
  destruct (Z.eq_dec i 0) as [->|Hi0].
  { right. exists EVal. split; reflexivity. }
  destruct (pieces_exist (c :: d) s ltac:(discriminate)) as [ps Hp].
  destruct (Z_le_dec (- Z.of_nat (length ps - 1)) i) as [L1|L1];
    [destruct (Z_le_dec i (Z.of_nat (length ps - 1))) as [L2|L2]|].
  - left. destruct (occurrence_ok s (c :: d) i ps ltac:(discriminate) Hp Hi0 (conj L1 L2)) as [Hj ->].
    cbn [rbind fst snd]. eexists. eexists. split; [reflexivity|]. split; [reflexivity|].
    rewrite <- (pieces_join _ _ _ Hp) at 1. apply join_split. exact Hj.
  - right. rewrite (occurrence_na s (c :: d) i ps ltac:(discriminate) Hp Hi0) by lia. exists ENa. split; reflexivity.
  - right. rewrite (occurrence_na s (c :: d) i ps ltac:(discriminate) Hp Hi0) by lia. exists ENa. split; reflexivity.
Qed.
Print Assumptions C149_around.

(** Which occurrence: the i-th from the left, or from the right when i is negative. *)
Theorem C149_which : forall show num v w n s d i ps, to_text show v = Ok s -> to_text show w = Ok d ->
  instance_of num n = Ok i -> d <> [] -> pieces d s ps -> i <> 0 ->
  let k := Z.of_nat (length ps) - 1 in
  (0 < i <= k ->
     f_textbefore show num v w n = Ok (VText (join d (firstn (Z.to_nat i) ps))) /\
     f_textafter show num v w n = Ok (VText (join d (skipn (Z.to_nat i) ps)))) /\
  (- k <= i < 0 ->
     f_textbefore show num v w n = Ok (VText (join d (firstn (Z.to_nat (k + 1 + i)) ps))) /\
     f_textafter show num v w n = Ok (VText (join d (skipn (Z.to_nat (k + 1 + i)) ps)))) /\
  (i < - k \/ k < i ->
     f_textbefore show num v w n = Err ENa /\ f_textafter show num v w n = Err ENa).
Proof.
  intros show num v w n s d i ps Hs Hd Hi Hn Hp Hi0. cbv zeta.
  pose proof (pieces_ne _ _ _ Hp) as Hne.
  assert (0 < length ps)%nat as Hl by (destruct ps; [congruence|cbn; lia]).
  unfold f_textbefore, f_textafter. rewrite Hs, Hd, Hi. cbn [rbind].
  split; [|split]; intros L.
  - destruct (occurrence_ok s d i ps Hn Hp Hi0 ltac:(lia)) as [_ ->]. cbn [rbind fst snd].
    destruct (0 <? i) eqn:E; [|lia]. auto.
  - destruct (occurrence_ok s d i ps Hn Hp Hi0 ltac:(lia)) as [_ ->]. cbn [rbind fst snd].
    destruct (0 <? i) eqn:E; [lia|].
    replace (Z.of_nat (length ps) - 1 + 1 + i) with (Z.of_nat (length ps) + i) by lia. auto.
  - rewrite (occurrence_na s d i ps Hn Hp Hi0) by lia. auto.
Qed.
Print Assumptions C149_which.

(** Counted from the end, the occurrences are still those seen from the left: the
    last place where the delimiter stands can be missed. *)
Theorem C149_last_refuted : forall show num,
  f_textafter show num (VText (tx "aaa")) (VText (tx "aa")) (Some (VInt (-1))) = Ok (VText (tx "a")) /\
  stands (tx "aa") (tx "aaa") 1.
Proof.
  intros show num. split; [vm_compute; reflexivity|].
  exists (tx "a"), []. split; reflexivity.
Qed.
Print Assumptions C149_last_refuted.

Example C149_example :
  f_textbefore no_show no_num (VText (tx "a,b,c")) (VText (tx ",")) (Some (VInt 2)) = Ok (VText (tx "a,b")) /\
  f_textafter no_show no_num (VText (tx "a,b,c")) (VText (tx ",")) (Some (VInt (-1))) = Ok (VText (tx "c")) /\
  f_textafter no_show no_num (VText (tx "a,b,c")) (VText (tx ",")) (Some (VInt 3)) = Err ENa.
Proof. vm_compute. auto. Qed.
