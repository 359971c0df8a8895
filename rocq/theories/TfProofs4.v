(** Lemmas about TRIM, CONCAT, TEXTJOIN, TEXTSPLIT's rows, REPT and CHAR/CODE. *)
From Coq Require Import String.
From Coq Require Import ZifyN ZifyNat ZifyBool.
From Verif Require Import Base Maps NuModel TfModel TfSpec TfProofs1 TfProofs2 TfProofs3.
From Verif Require CrModel.
Local Open Scope Z_scope.

Notation ws := CrModel.is_ws.

(** * TRIM *)

(** What [trim_go] still appends for the rest [s], given whether a space is due
    ([prev]) and whether something was written. *)
Lemma trim_go_word : forall w out, Forall (fun c => ws c = false) w ->
  forall s, trim_go (w ++ s) out false = trim_go s (out ++ w) false.
Proof.
  induction w as [|c w IH]; intros out H s; cbn [app].
  - rewrite app_nil_r. reflexivity.
  - inversion H as [|c0 w0 Hc Hw]; subst. cbn [trim_go]. rewrite Hc. cbn [andb].
    rewrite IH by exact Hw. rewrite <- app_assoc. reflexivity.
Qed.

Lemma trim_go_start : forall w out prev s, w <> [] -> Forall (fun c => ws c = false) w ->
  trim_go (w ++ s) out prev =
  trim_go s ((if prev && negb (match out with [] => true | _ => false end)
              then out ++ [32%N] else out) ++ w) false.
Proof.
  intros [|c w] out prev s Hn H; [congruence|]. inversion H as [|c0 w0 Hc Hw]; subst.
  cbn [app trim_go]. rewrite Hc. cbv zeta. rewrite trim_go_word by exact Hw.
  rewrite <- app_assoc. reflexivity.
Qed.

Lemma trim_go_words : forall s l, words s l ->
  (forall out, out <> [] -> trim_go s out true = join [32%N] (out :: l)) /\
  (forall prev, trim_go s [] prev = join [32%N] l).
Proof.
  intros s l H. induction H as [|c s l Hc H IH|w Hn Hw|w c s l Hn Hw Hc H IH].
  - split; reflexivity.
  - destruct IH as [A B]. split; intros; cbn [trim_go]; rewrite Hc; [apply A; assumption|apply B].
  - split.
    + intros out Ho. rewrite <- (app_nil_r w) at 1. rewrite trim_go_start by assumption.
      cbn [trim_go]. destruct out; [congruence|]. cbn [andb negb join]. rewrite <- app_assoc. reflexivity.
    + intros prev. rewrite <- (app_nil_r w) at 1. rewrite trim_go_start by assumption.
      cbn [trim_go join]. rewrite andb_false_r. reflexivity.
  - destruct IH as [A B]. split.
    + intros out Ho. rewrite trim_go_start by assumption. cbn [trim_go]. rewrite Hc.
      rewrite A.
      * destruct out; [congruence|]. cbn [andb negb].
        destruct l; cbn [join]; rewrite <- !app_assoc; reflexivity.
      * destruct out; [congruence|]. discriminate.
    + intros prev. rewrite trim_go_start by assumption. cbn [trim_go]. rewrite Hc.
      rewrite andb_false_r. cbn [app]. apply A. exact Hn.
Qed.

Lemma words_exist : forall s, exists l, words s l.
Proof.
  intros s. remember (length s) as n eqn:En. revert s En.
  induction n as [n IH] using lt_wf_ind. intros s ->.
  assert (forall s, exists w r, s = w ++ r /\ Forall (fun c => ws c = false) w /\
            (r = [] \/ exists c r', r = c :: r' /\ ws c = true)) as Sp.
  { induction s0 as [|c s0 IHs]; [exists [], []; auto|].
    destruct (ws c) eqn:Ec.
    - exists [], (c :: s0). split; [reflexivity|]. split; [constructor|]. right. exists c, s0. auto.
    - destruct IHs as (w & r & -> & Hw & Hr). exists (c :: w), r. split; [reflexivity|].
      split; [constructor; assumption|exact Hr]. }
  destruct (Sp s) as (w & r & -> & Hw & Hr).
  destruct Hr as [->|(c & r' & -> & Hc)].
  - destruct w as [|x w]; [exists []; apply w_nil|].
    exists [x :: w]. rewrite app_nil_r. apply w_end; [discriminate|exact Hw].
  - destruct (IH (length r')) with (s := r') as [l Hl]; [rewrite app_length; cbn; lia|reflexivity|].
    destruct w as [|x w].
    + exists l. cbn. apply w_space; assumption.
    + exists ((x :: w) :: l). apply w_word; auto. discriminate.
Qed.

Lemma words_ok : forall s l, words s l ->
  Forall (fun w => w <> [] /\ Forall (fun c => ws c = false) w) l.
Proof. intros s l H. induction H; auto. Qed.

Lemma words_join : forall l, Forall (fun w => w <> [] /\ Forall (fun c => ws c = false) w) l ->
  words (join [32%N] l) l.
Proof.
  intros l H. induction H as [|w l [Hn Hw] H IH]; [apply w_nil|].
  destruct l as [|w2 l]; [apply w_end; assumption|].
  rewrite join_cons by discriminate. apply (w_word w 32%N); auto.
Qed.

Lemma trim_start_id : forall s c r, s = c :: r -> ws c = false -> CrModel.trim_start s = s.
Proof. intros s c r -> H. cbn. rewrite H. reflexivity. Qed.

Lemma join_first : forall l w, Forall (fun w => w <> [] /\ Forall (fun c => ws c = false) w) (w :: l) ->
  exists c r, join [32%N] (w :: l) = c :: r /\ ws c = false.
Proof.
  intros l w H. inversion H as [|w0 l0 [Hn Hw] Hl]; subst. destruct w as [|c w]; [congruence|].
  inversion Hw; subst. destruct l as [|w2 l]; cbn; eauto.
Qed.

Lemma join_last : forall l w, Forall (fun w => w <> [] /\ Forall (fun c => ws c = false) w) (w :: l) ->
  exists c r, rev (join [32%N] (w :: l)) = c :: r /\ ws c = false.
Proof.
  induction l as [|w2 l IH]; intros w H; inversion H as [|w0 l0 [Hn Hw] Hl]; subst.
  - cbn. destruct (rev w) as [|c r] eqn:E.
    + apply (f_equal (@rev N)) in E. rewrite rev_involutive in E. cbn in E. congruence.
    + exists c, r. split; [reflexivity|]. rewrite Forall_forall in Hw. apply Hw.
      apply in_rev. rewrite E. left. reflexivity.
  - destruct (IH w2 Hl) as (c & r & E & Hc). rewrite join_cons by discriminate.
    rewrite !rev_app_distr, E. cbn. eauto.
Qed.

Lemma trim_join : forall l, Forall (fun w => w <> [] /\ Forall (fun c => ws c = false) w) l ->
  CrModel.trim (join [32%N] l) = join [32%N] l.
Proof.
  intros [|w l] H; [reflexivity|]. unfold CrModel.trim.
  destruct (join_first l w H) as (c & r & E & Hc). rewrite (trim_start_id _ _ _ E Hc).
  destruct (join_last l w H) as (c2 & r2 & E2 & Hc2). rewrite (trim_start_id _ _ _ E2 Hc2).
  apply rev_involutive.
Qed.

Lemma trim_words : forall s l, words s l -> CrModel.trim (trim_go s [] false) = join [32%N] l.
Proof.
  intros s l H. destruct (trim_go_words s l H) as [_ B]. rewrite B.
  apply trim_join. apply (words_ok _ _ H).
Qed.

(** * CONCAT and TEXTJOIN *)

Section Show.
Variable show : fnum -> text.

Lemma to_text_ok : forall v, ~ is_err v -> exists t, to_text show v = Ok t.
Proof. intros v H. destruct v; cbn; eauto. exfalso. apply H. exists e. reflexivity. Qed.

Lemma concat_go_ok : forall vs ts, Forall2 (fun v t => to_text show v = Ok t) vs ts ->
  forall out, len out <= max_chars ->
  concat_go show vs out =
    if len (out ++ concat ts) <=? max_chars then Ok (out ++ concat ts) else Err EVal.
Proof.
  intros vs ts H. induction H as [|v t vs ts Hv H IH]; intros out Ho; cbn [concat_go concat].
  - rewrite app_nil_r. destruct (len out <=? max_chars) eqn:E; [reflexivity|lia].
  - rewrite Hv. cbn [rbind]. unfold append.
    destruct (max_chars <? len out + len t) eqn:E; cbn [rbind].
    + rewrite !len_app. pose proof (len_nonneg (concat ts)).
      destruct (len out + (len t + len (concat ts)) <=? max_chars) eqn:E2; [lia|reflexivity].
    + rewrite IH by (rewrite len_app; lia). rewrite <- app_assoc. reflexivity.
Qed.

Lemma concat_go_err : forall vs ts, Forall2 (fun v t => to_text show v = Ok t) vs ts ->
  forall out e rest, len (out ++ concat ts) <= max_chars ->
  concat_go show (vs ++ VErr e :: rest) out = Err e.
Proof.
  intros vs ts H. induction H as [|v t vs ts Hv H IH]; intros out e rest Ho; cbn [concat_go app].
  - reflexivity.
  - rewrite Hv. cbn [rbind concat] in *. unfold append. rewrite !len_app in Ho.
    pose proof (len_nonneg (concat ts)).
    destruct (max_chars <? len out + len t) eqn:E; [lia|]. cbn [rbind].
    apply IH. rewrite !len_app. lia.
Qed.

Lemma concatenate_go_ok : forall vs ts, Forall2 (fun v t => to_text show v = Ok t) vs ts ->
  forall out, concatenate_go show vs out = Ok (out ++ concat ts).
Proof.
  intros vs ts H. induction H as [|v t vs ts Hv H IH]; intros out; cbn [concatenate_go concat].
  - rewrite app_nil_r. reflexivity.
  - rewrite Hv. cbn [rbind]. rewrite IH, app_assoc. reflexivity.
Qed.

(** The items TEXTJOIN joins. *)
Definition kept (ig : bool) (ts : list text) : list text :=
  if ig then filter nonempty ts else ts.

Definition due (d out : text) (has : bool) (ts : list text) : text :=
  if has then match ts with [] => out | _ => out ++ d ++ join d ts end else out ++ join d ts.

Lemma textjoin_go_ok : forall d ig vs ts, Forall2 (fun v t => to_text_find show v = Ok t) vs ts ->
  forall out has, len out <= max_chars -> (has = false -> out = []) ->
  textjoin_go show d ig vs out has =
    if len (due d out has (kept ig ts)) <=? max_chars then Ok (due d out has (kept ig ts)) else Err EVal.
Proof.
  intros d ig vs ts H. induction H as [|v t vs ts Hv H IH]; intros out has Ho Hh.
  - cbn [textjoin_go]. unfold due, kept. destruct ig; cbn [filter join]; destruct has; rewrite ?app_nil_r;
      destruct (len out <=? max_chars) eqn:E; try reflexivity; lia.
  - assert (textjoin_go show d ig (v :: vs) out has =
            if negb ig || nonempty t
            then rbind (if has then append out d else Ok out)
                   (fun o => rbind (append o t) (fun o2 => textjoin_go show d ig vs o2 true))
            else textjoin_go show d ig vs out has) as ->.
    { destruct v; cbn [textjoin_go]; try (rewrite Hv; cbn [rbind]; destruct t; destruct ig; reflexivity).
      - cbn in Hv. injection Hv as <-. destruct ig; cbn [negb orb nonempty]; [reflexivity|].
        destruct has.
        + unfold append. destruct (max_chars <? len out + len d) eqn:E; [reflexivity|]. cbn [rbind].
          rewrite len_app, app_nil_r. replace (len []) with 0 by reflexivity. rewrite Z.add_0_r.
          rewrite E. reflexivity.
        + cbn [rbind]. unfold append. rewrite app_nil_r. replace (len []) with 0 by reflexivity.
          rewrite Z.add_0_r. destruct (max_chars <? len out) eqn:E; [lia|reflexivity].
      - discriminate Hv. }
    assert (negb ig || nonempty t = true -> kept ig (t :: ts) = t :: kept ig ts) as Hk1.
    { unfold kept. destruct ig; cbn [negb orb filter]; [|reflexivity]. intros ->. reflexivity. }
    assert (negb ig || nonempty t = false -> kept ig (t :: ts) = kept ig ts) as Hk2.
    { unfold kept. destruct ig; cbn [negb orb filter]; [|discriminate]. intros ->. reflexivity. }
    destruct (negb ig || nonempty t).
    + rewrite Hk1 by reflexivity. clear Hk1 Hk2.
      assert (forall o, len o <= max_chars ->
        rbind (append o t) (fun o2 => textjoin_go show d ig vs o2 true) =
        (if len (o ++ join d (t :: kept ig ts)) <=? max_chars
         then Ok (o ++ join d (t :: kept ig ts)) else Err EVal)) as K.
      { intros o Hol. assert (o ++ join d (t :: kept ig ts) = due d (o ++ t) true (kept ig ts)) as Ed.
        { unfold due. destruct (kept ig ts); [reflexivity|]. rewrite join_cons by discriminate.
          rewrite <- !app_assoc. reflexivity. }
        rewrite Ed. unfold append. destruct (max_chars <? len o + len t) eqn:E.
        - cbn [rbind]. assert (len (o ++ t) <= len (due d (o ++ t) true (kept ig ts))) as Hle.
          { unfold due. destruct (kept ig ts) as [|k0 kr]; [lia|].
            rewrite (len_app (o ++ t)). pose proof (len_nonneg (d ++ join d (k0 :: kr))). lia. }
          rewrite len_app in Hle.
          destruct (len (due d (o ++ t) true (kept ig ts)) <=? max_chars) eqn:E2; [lia|reflexivity].
        - cbn [rbind]. apply IH; [rewrite len_app; lia|discriminate]. }
      destruct has.
      * unfold due. unfold append at 1. destruct (max_chars <? len out + len d) eqn:E.
        -- cbn [rbind]. rewrite !len_app. pose proof (len_nonneg (join d (t :: kept ig ts))).
           match goal with |- _ = if ?c then _ else _ => destruct c eqn:E2 end; [lia|reflexivity].
        -- cbn [rbind]. rewrite K by (rewrite len_app; lia). rewrite <- !app_assoc. reflexivity.
      * cbn [rbind]. rewrite K by exact Ho. reflexivity.
    + rewrite Hk2 by reflexivity. apply IH; assumption.
Qed.

Lemma textjoin_go_err : forall d ig vs ts, Forall2 (fun v t => to_text_find show v = Ok t) vs ts ->
  forall out has e rest, len (due d out has (kept ig ts)) <= max_chars -> len out <= max_chars ->
  (has = false -> out = []) ->
  textjoin_go show d ig (vs ++ VErr e :: rest) out has = Err e.
Proof.
  intros d ig vs ts H. induction H as [|v t vs ts Hv H IH]; intros out has e rest Hl Ho Hh.
  - reflexivity.
  - cbn [app].
    assert (textjoin_go show d ig (v :: vs ++ VErr e :: rest) out has =
            if negb ig || nonempty t
            then rbind (if has then append out d else Ok out)
                   (fun o => rbind (append o t) (fun o2 => textjoin_go show d ig (vs ++ VErr e :: rest) o2 true))
            else textjoin_go show d ig (vs ++ VErr e :: rest) out has) as ->.
    { destruct v; cbn [textjoin_go]; try (rewrite Hv; cbn [rbind]; destruct t; destruct ig; reflexivity).
      - cbn in Hv. injection Hv as <-. destruct ig; cbn [negb orb nonempty]; [reflexivity|].
        destruct has.
        + unfold append. destruct (max_chars <? len out + len d) eqn:E; [reflexivity|]. cbn [rbind].
          rewrite len_app, app_nil_r. replace (len []) with 0 by reflexivity. rewrite Z.add_0_r.
          rewrite E. reflexivity.
        + cbn [rbind]. unfold append. rewrite app_nil_r. replace (len []) with 0 by reflexivity.
          rewrite Z.add_0_r. destruct (max_chars <? len out) eqn:E; [lia|reflexivity].
      - discriminate Hv. }
    assert (negb ig || nonempty t = true -> kept ig (t :: ts) = t :: kept ig ts) as Hk1.
    { unfold kept. destruct ig; cbn [negb orb filter]; [|reflexivity]. intros ->. reflexivity. }
    assert (negb ig || nonempty t = false -> kept ig (t :: ts) = kept ig ts) as Hk2.
    { unfold kept. destruct ig; cbn [negb orb filter]; [|discriminate]. intros ->. reflexivity. }
    destruct (negb ig || nonempty t).
    + rewrite Hk1 in Hl by reflexivity. clear Hk1 Hk2.
      assert (forall o, len (o ++ join d (t :: kept ig ts)) <= max_chars ->
        rbind (append o t) (fun o2 => textjoin_go show d ig (vs ++ VErr e :: rest) o2 true) = Err e) as K.
      { intros o Hol. assert (o ++ join d (t :: kept ig ts) = due d (o ++ t) true (kept ig ts)) as Ed.
        { unfold due. destruct (kept ig ts); [reflexivity|]. rewrite join_cons by discriminate.
          rewrite <- !app_assoc. reflexivity. }
        rewrite Ed in Hol.
        assert (len (o ++ t) <= len (due d (o ++ t) true (kept ig ts))) as Hle.
        { unfold due. destruct (kept ig ts) as [|k0 kr]; [lia|].
          rewrite (len_app (o ++ t)). pose proof (len_nonneg (d ++ join d (k0 :: kr))). lia. }
        unfold append. rewrite len_app in Hle. destruct (max_chars <? len o + len t) eqn:E; [lia|].
        cbn [rbind]. apply IH; [exact Hol|rewrite len_app; lia|discriminate]. }
      destruct has.
      * unfold due in Hl. unfold append at 1. rewrite !len_app in Hl.
        pose proof (len_nonneg (join d (t :: kept ig ts))).
        destruct (max_chars <? len out + len d) eqn:E; [lia|]. cbn [rbind].
        apply K. rewrite !len_app. lia.
      * cbn [rbind]. apply K. exact Hl.
    + rewrite Hk2 in Hl by reflexivity. apply IH; assumption.
Qed.
End Show.

(** * Items without the delimiter *)

Lemma pieces_of_join : forall c ts, ts <> [] -> Forall (fun t => ~ In c t) ts ->
  pieces [c] (join [c] ts) ts.
Proof.
  intros c ts Hn H. induction H as [|t ts Ht H IH]; [congruence|].
  destruct ts as [|t2 ts].
  - cbn. apply p_last. intros [a [b E]]. apply Ht. rewrite E. apply in_elt.
  - rewrite join_cons by discriminate. apply p_more; [|apply IH; discriminate].
    intros a' r' E. destruct (Nat.le_gt_cases (length t) (length a')) as [L|L]; [exact L|].
    exfalso. apply Ht. apply (f_equal (fun l => nth_error l (length a'))) in E.
    rewrite (nth_error_app1 t) in E by exact L.
    rewrite (nth_error_app2 a') in E by lia. rewrite Nat.sub_diag in E. cbn in E.
    apply nth_error_In in E. exact E.
Qed.

(** * TEXTSPLIT *)

Lemma split_by_pieces : forall lower d s ps, d <> [] -> s <> [] -> pieces d s ps ->
  split_by lower s [d] false = Some ps.
Proof.
  intros lower d s ps Hd Hs Hp.
  destruct (split_by_cs lower [d] s) as (qs & us & E & Hc); [discriminate| |exact Hs|].
  { constructor; [exact Hd|constructor]. }
  apply cuts_pieces in Hc. rewrite (pieces_unique d s ps Hd Hp qs Hc). exact E.
Qed.

Lemma split_rows_spec : forall lower cd ts rows, cd <> [] ->
  Forall (fun t => t <> []) ts ->
  Forall2 (fun t row => exists ps, pieces cd t ps /\ row = map VText ps) ts rows ->
  split_rows lower ts [cd] false false = Some rows.
Proof.
  intros lower cd ts rows Hcd Hne H. induction H as [|t row ts rows (ps & Hp & ->) H IH]; [reflexivity|].
  inversion Hne as [|t0 ts0 Ht Hts]; subst. cbn [split_rows andb].
  rewrite (split_by_pieces lower cd t ps Hcd Ht Hp). rewrite IH by exact Hts.
  pose proof (pieces_ne _ _ _ Hp). destruct ps; [congruence|]. reflexivity.
Qed.

Lemma widest_le : forall rows row, In row rows -> (length row <= widest rows)%nat.
Proof.
  induction rows as [|r rows IH]; intros row H; [destruct H|].
  destruct H as [->|H]; cbn; [lia|]. apply IH in H. unfold widest in H. lia.
Qed.

(** * REPT *)

Lemma copies_len : forall n s, len (copies n s) = Z.of_nat n * len s.
Proof. induction n as [|n IH]; intros s; cbn [copies]; [reflexivity|]. rewrite len_app, IH. lia. Qed.

Lemma blen_len : forall s, len s <= blen s <= 4 * len s.
Proof.
  induction s as [|c s IH]; [cbn; lia|]. unfold len in *. cbn [length blen].
  assert (1 <= ulen c <= 4).
  { unfold ulen. repeat match goal with |- context [if ?b then _ else _] => destruct b end; lia. }
  lia.
Qed.

Lemma blen_ascii : forall s, Forall (fun c => (c < 128)%N) s -> blen s = len s.
Proof.
  intros s H. induction H as [|c s Hc H IH]; [reflexivity|]. unfold len in *. cbn [length blen].
  unfold ulen. destruct (c <? 128)%N eqn:E; lia.
Qed.
