(* Sheets: format runs, and what the operations do to one chunk. *)
From Coq Require Import List Bool NArith ZArith Lia.
From Coq Require Import ZifyN ZifyNat ZifyBool.
From Verif Require Import Base Maps OvModel OvSpec OvProofs OvProofs2 OvProofs3 OvProofs4 OvProofs5 AsModel AsSpec.
Import ListNotations.
Open Scope N_scope.

(* ---- lists ---- *)
Lemma nthN_app : forall A (a b : list A) i, nthN (a ++ b) i = if i <? lenN a then nthN a i else nthN b (i - lenN a).
Proof.
  intros A a b i. unfold nthN, lenN. destruct (i <? N.of_nat (length a)) eqn:E.
  - apply nth_error_app1. lia.
  - rewrite nth_error_app2 by lia. f_equal. lia.
Qed.
Lemma nthN_repeat : forall A (x : A) n i, nthN (repeat x n) i = if i <? N.of_nat n then Some x else None.
Proof.
  intros A x n i. unfold nthN. destruct (i <? N.of_nat n) eqn:E.
  - apply nth_error_repeat. lia.
  - apply nth_error_None. rewrite repeat_length. lia.
Qed.
Lemma nthN_none : forall A (l : list A) i, nthN l i = None <-> lenN l <= i.
Proof. intros A l i. unfold nthN, lenN. rewrite nth_error_None. lia. Qed.
Lemma nthN_some : forall A (l : list A) i x, nthN l i = Some x -> i < lenN l.
Proof. intros A l i x E. unfold nthN, lenN in *. assert (nth_error l (N.to_nat i) <> None) by congruence. apply nth_error_Some in H. lia. Qed.
Lemma nthN_lt : forall A (l : list A) i, i < lenN l -> exists x, nthN l i = Some x.
Proof. intros A l i H. destruct (nthN l i) as [x|] eqn:E; eauto. apply nthN_none in E. lia. Qed.
Lemma nthN_map : forall A B (f : A -> B) l i, nthN (map f l) i = option_map f (nthN l i).
Proof. intros. unfold nthN. apply nth_error_map. Qed.
Lemma nth_error_firstn' : forall A (l : list A) n i, nth_error (firstn n l) i = if Nat.ltb i n then nth_error l i else None.
Proof.
  intros A l. induction l as [|x l IH]; intros [|n] [|i]; auto.
  - cbn [firstn nth_error]. now destruct (Nat.ltb (S i) (S n)).
  - exact (IH n i).
Qed.
Lemma nth_error_skipn' : forall A (l : list A) n i, nth_error (skipn n l) i = nth_error l (n + i).
Proof. intros A l. induction l as [|x l IH]; intros [|n] i; cbn; auto. now destruct i. Qed.
Lemma nthN_sub : forall A (l : list A) off len i, nthN (sub off len l) i = if i <? len then nthN l (off + i) else None.
Proof.
  intros A l off len i. unfold nthN, sub. rewrite nth_error_firstn', nth_error_skipn'.
  replace (N.to_nat off + N.to_nat i)%nat with (N.to_nat (off + i)) by lia.
  destruct (i <? len) eqn:E.
  - now replace (Nat.ltb (N.to_nat i) (N.to_nat len)) with true by (symmetry; apply Nat.ltb_lt; lia).
  - now replace (Nat.ltb (N.to_nat i) (N.to_nat len)) with false by (symmetry; apply Nat.ltb_ge; lia).
Qed.
Lemma nthN_cons : forall A (x : A) l i, nthN (x :: l) i = if i =? 0 then Some x else nthN l (i - 1).
Proof.
  intros A x l i. unfold nthN. destruct (i =? 0) eqn:E.
  - now replace i with 0 by lia.
  - replace (N.to_nat i) with (S (N.to_nat (i - 1))) by lia. reflexivity.
Qed.
Lemma lenN_app : forall A (a b : list A), lenN (a ++ b) = lenN a + lenN b.
Proof. intros. unfold lenN. rewrite app_length. lia. Qed.
Lemma lenN_map : forall A B (f : A -> B) l, lenN (map f l) = lenN l.
Proof. intros. unfold lenN. now rewrite map_length. Qed.
Lemma lenN_cons : forall A (x : A) l, lenN (x :: l) = lenN l + 1.
Proof. intros. unfold lenN. cbn [length]. lia. Qed.
Lemma lenN_repeat : forall A (x : A) n, lenN (repeat x n) = N.of_nat n.
Proof. intros. unfold lenN. now rewrite repeat_length. Qed.
Lemma lenN_nil : forall A (l : list A), lenN l = 0 -> l = [].
Proof. intros A [|x l] H; auto. rewrite lenN_cons in H. lia. Qed.
Lemma lenN_sub : forall A (l : list A) off len, off + len <= lenN l -> lenN (sub off len l) = len.
Proof. intros A l off len H. unfold lenN, sub in *. rewrite firstn_length, skipn_length. lia. Qed.
Lemma nthN_range : forall a b i, nthN (rangeN a b) i = if i <? b - a then Some (a + i) else None.
Proof.
  intros a b i. unfold rangeN. rewrite nthN_map. destruct (i <? b - a) eqn:E.
  - replace (nthN (seq 0 (N.to_nat (b - a))) i) with (Some (N.to_nat i)).
    + cbn. f_equal. lia.
    + unfold nthN. symmetry. rewrite nth_error_nth' with (d := 0%nat) by (rewrite seq_length; lia). rewrite seq_nth by lia. reflexivity.
  - replace (nthN (seq 0 (N.to_nat (b - a))) i) with (@None nat); auto. symmetry. unfold nthN. apply nth_error_None.
    rewrite seq_length. lia.
Qed.
Lemma lenN_range : forall a b, lenN (rangeN a b) = b - a.
Proof. intros. unfold rangeN. rewrite lenN_map. unfold lenN. rewrite seq_length. lia. Qed.
Lemma nthN_ext : forall A (a b : list A), (forall i, nthN a i = nthN b i) -> a = b.
Proof.
  intros A. induction a as [|x a IH]; intros [|y b] H; auto.
  - specialize (H 0). discriminate.
  - specialize (H 0). discriminate.
  - pose proof (H 0) as H0. cbn in H0. injection H0 as ->. f_equal. apply IH. intros i. specialize (H (i + 1)).
    rewrite !nthN_cons in H. now replace (i + 1 =? 0) with false in H by lia; replace (i + 1 - 1) with i in H by lia.
Qed.
Lemma nthN_enum : forall A (l : list A) k i, nthN (enum_from k l) i = option_map (fun x => (k + i, x)) (nthN l i).
Proof.
  intros A. induction l as [|x l IH]; intros k i; cbn [enum_from].
  - unfold nthN. now destruct (N.to_nat i).
  - rewrite !nthN_cons. destruct (i =? 0) eqn:E.
    + cbn. do 2 f_equal. lia.
    + rewrite IH. destruct (nthN l (i - 1)); cbn; auto. do 2 f_equal. lia.
Qed.
Lemma lenN_enum : forall A (l : list A) k, lenN (enum_from k l) = lenN l.
Proof. intros A. induction l as [|x l IH]; intros k; auto. cbn [enum_from]. now rewrite !lenN_cons, IH. Qed.
Lemma update_nth : forall A (f : A -> A) l i j, nth_error (update i f l) j = if Nat.eqb j i then option_map f (nth_error l j) else nth_error l j.
Proof.
  intros A f l. induction l as [|x l IH]; intros [|i] [|j]; cbn; auto.
  now destruct (Nat.eqb j i).
Qed.
Lemma nthN_update : forall A (f : A -> A) l i j, nthN (updateN i f l) j = if j =? i then option_map f (nthN l j) else nthN l j.
Proof.
  intros A f l i j. unfold nthN, updateN. rewrite update_nth. destruct (j =? i) eqn:E.
  - replace i with j by lia. now rewrite Nat.eqb_refl.
  - replace (Nat.eqb (N.to_nat j) (N.to_nat i)) with false; auto. symmetry. apply Nat.eqb_neq. lia.
Qed.
Lemma lenN_update : forall A (f : A -> A) l i, lenN (updateN i f l) = lenN l.
Proof.
  intros A f l i. unfold lenN, updateN. f_equal. generalize (N.to_nat i). clear i. induction l as [|x l IH]; intros [|i]; cbn; auto.
Qed.
Lemma pp_app : forall A (f : A -> bool) a b, forallb f a = true -> partition_point f (a ++ b) = lenN a + partition_point f b.
Proof.
  intros A f. induction a as [|x a IH]; intros b H; cbn [partition_point app forallb] in *; auto. apply andb_true_iff in H. destruct H as [-> H].
  rewrite IH by auto. rewrite lenN_cons. lia.
Qed.
Lemma pp_all : forall A (f : A -> bool) a, forallb f a = true -> partition_point f a = lenN a.
Proof. intros A f a H. rewrite <- (app_nil_r a) at 1. rewrite pp_app by auto. cbn. lia. Qed.

(* ---- format runs ---- *)
Lemma fmt_loop_spec : forall ids idx l ends fs, 0 < idx -> fmt_loop idx (Some l) ids = (ends, fs) ->
  lenN ends = lenN fs /\ (forall e, In e ends -> idx <= e /\ e < idx + lenN ids) /\
  forall off, idx <= off -> off < idx + lenN ids ->
    nthN (l :: fs) (partition_point (fun e => e <=? off) ends) = nthN ids (off - idx).
Proof.
  induction ids as [|id ids IH]; intros idx l ends fs P E; cbn [fmt_loop] in E.
  - injection E as <- <-. split; auto. split; [intros e []|]. intros off A B. cbn in B. lia.
  - destruct (fmt_loop (idx + 1) (Some id) ids) as [ends' fs'] eqn:EL. assert (P1 : 0 < idx + 1) by lia. destruct (IH _ _ _ _ P1 EL) as (L & IN & G).
    assert (Z : forall off, off < idx + 1 -> partition_point (fun e => e <=? off) ends' = 0).
    { intros off H. destruct ends' as [|e r]; auto. cbn. destruct (IN e (or_introl eq_refl)). now replace (e <=? off) with false by lia. }
    rewrite lenN_cons. destruct (l =? id) eqn:EQ.
    + injection E as <- <-. apply N.eqb_eq in EQ. subst. split; auto. split.
      * intros e I. destruct (IN e I). lia.
      * intros off A B. destruct (N.eq_dec off idx) as [->|NE].
        -- rewrite Z by lia. rewrite !nthN_cons. now replace (idx - idx =? 0) with true by lia.
        -- rewrite G by lia. rewrite nthN_cons. replace (off - idx =? 0) with false by lia. f_equal. lia.
    + replace (0 <? idx) with true in E by lia. injection E as <- <-. split; [rewrite !lenN_cons; lia|]. split.
      * intros e [<- | I]; [lia|]. destruct (IN e I). lia.
      * intros off A B. cbn [partition_point]. replace (idx <=? off) with true by lia. rewrite nthN_cons.
        replace (1 + partition_point (fun e => e <=? off) ends' =? 0) with false by lia.
        replace (1 + partition_point (fun e => e <=? off) ends' - 1) with (partition_point (fun e => e <=? off) ends') by lia.
        destruct (N.eq_dec off idx) as [->|NE].
        -- rewrite Z by lia. rewrite !nthN_cons. now replace (idx - idx =? 0) with true by lia.
        -- rewrite G by lia. rewrite nthN_cons. replace (off - idx =? 0) with false by lia. f_equal. lia.
Qed.
Lemma fmt_from_get : forall ids r off, fmt_from ids = Some r ->
  fmt_get r off = match nthN ids off with Some f => f | None => GENERAL end.
Proof.
  intros ids r off E. unfold fmt_from in E. destruct (forallb _ ids) eqn:F; [discriminate|].
  destruct ids as [|id ids]; [discriminate|]. cbn [fmt_loop] in E. change (0 + 1) with 1 in E.
  destruct (fmt_loop 1 (Some id) ids) as [ends fs] eqn:EL. change (0 <? 0) with false in E. cbv iota in E. injection E as <-.
  destruct (fmt_loop_spec ids 1 id ends fs ltac:(lia) EL) as (L & IN & G). unfold fmt_get. cbn [fst snd].
  rewrite lenN_cons. destruct (N.lt_ge_cases off (lenN ids + 1)) as [H | H].
  - assert (PP : partition_point (fun e => e <=? off) (ends ++ [lenN ids + 1]) = partition_point (fun e => e <=? off) ends).
    { clear - H. induction ends as [|e ends IH]; cbn.
      - now replace (lenN ids + 1 <=? off) with false by lia.
      - destruct (e <=? off); auto. now rewrite IH. }
    rewrite PP. destruct (N.eq_dec off 0) as [->|NE].
    + replace (partition_point (fun e => e <=? 0) ends) with 0; auto. destruct ends as [|e es]; auto. cbn.
      destruct (IN e (or_introl eq_refl)). now replace (e <=? 0) with false by lia.
    + rewrite G by lia. rewrite nthN_cons. now replace (off =? 0) with false by lia.
  - rewrite pp_app.
    2: { apply forallb_forall. intros e I. destruct (IN e I). lia. }
    cbn [partition_point]. replace (lenN ids + 1 <=? off) with true by lia.
    assert (N1 : nthN (id :: fs) (lenN ends + (1 + 0)) = None) by (apply nthN_none; rewrite lenN_cons; lia).
    assert (N2 : nthN (id :: ids) off = None) by (apply nthN_none; rewrite lenN_cons; lia).
    now rewrite N1, N2.
Qed.
Lemma fmt_from_none : forall ids, fmt_from ids = None <-> forall f, In f ids -> f = GENERAL.
Proof.
  intros ids. unfold fmt_from. destruct (forallb _ ids) eqn:F.
  - split; auto. intros _ f I. rewrite forallb_forall in F. apply F in I. now apply N.eqb_eq.
  - split; [destruct (fmt_loop 0 None ids); discriminate|]. intros H. exfalso. apply Bool.not_true_iff_false in F. apply F.
    apply forallb_forall. intros f I. rewrite (H f I). reflexivity.
Qed.

(* ---- the cells of a chunk ---- *)
Definition base_at (p : payload) (off : N) : lit := match base_lit p off with Some b => b | None => LEmpty end.
Definition cell_of (ch : chunk) (off : N) : cell :=
  if off <? c_len ch then
    Cell (ov_get (c_user ch) off) (ov_get (c_comp ch) off) (base_at (c_base ch) off)
         (ov_get_format (c_user ch) off) (ov_get_format (c_comp ch) off)
  else blank.
Definition ok_ov (len : N) (o : overlay) : Prop :=
  repr o (ov_get o) /\ no_general o /\ forall off, len <= off -> ov_get o off = None /\ ov_get_format o off = None.
Section Plain.
(* whether the chunks have no base formats *)
Variable pl : bool.
Definition ok_chunk (ch : chunk) : Prop :=
  ok_ov (c_len ch) (c_user ch) /\ ok_ov (c_len ch) (c_comp ch) /\ c_len ch <= U32_MAX /\ (pl = true -> c_fmt ch = None).

Lemma chunk_lit_cell : forall ch off, off < c_len ch -> chunk_lit ch off = Some (shown (cell_of ch off)).
Proof.
  intros ch off H. unfold chunk_lit, cell_of. replace (off <? c_len ch) with true by lia. unfold shown. cbn [x_user x_comp x_base].
  destruct (ov_get (c_user ch) off); auto. destruct (ov_get (c_comp ch) off); auto. unfold base_at, base_lit.
  destruct (nthN_lt _ (p_tags (c_base ch)) off H) as [t ->]. reflexivity.
Qed.
Lemma ok_ov_new : forall len, ok_ov len ov_new.
Proof.
  intros len. split; [|split].
  - eapply repr_ext; [apply repr_new|]. reflexivity.
  - split; [constructor|discriminate].
  - now split.
Qed.
Lemma ok_ov_mono : forall a b o, a <= b -> ok_ov a o -> ok_ov b o.
Proof. intros a b o L (A & B & C). split; auto. split; auto. intros. apply C. lia. Qed.
Lemma repr_self : forall o m, repr o m -> repr o (ov_get o).
Proof. intros o m R. eapply repr_ext; eauto. intros k. symmetry. now apply repr_get. Qed.

Lemma c_len_empty : forall n, c_len (empty_chunk n) = n.
Proof. intros n. unfold c_len, empty_chunk. cbn. rewrite lenN_repeat. lia. Qed.
Lemma ok_empty : forall n, n <= U32_MAX -> ok_chunk (empty_chunk n).
Proof. intros n H. unfold ok_chunk. rewrite c_len_empty. split; [apply ok_ov_new|]. split; [apply ok_ov_new|auto]. Qed.
Lemma cell_empty : forall n off, cell_of (empty_chunk n) off = blank.
Proof.
  intros n off. unfold cell_of. rewrite c_len_empty. destruct (off <? n) eqn:E; auto. unfold blank. f_equal.
  unfold base_at, base_lit. cbn. rewrite nthN_repeat. replace (off <? N.of_nat (N.to_nat n)) with true by lia. reflexivity.
Qed.

(* ---- growing ---- *)
Lemma lane_at_pad : forall A (l : option (list (option A))) n i, lane_at (option_map (pad None n) l) i = lane_at l i.
Proof.
  intros A [l|] n i; auto. unfold lane_at, pad. cbn [option_map]. rewrite nthN_app. destruct (i <? lenN l) eqn:E; auto.
  rewrite nthN_repeat. replace (nthN l i) with (@None (option A)) by (symmetry; apply nthN_none; lia).
  destruct (i - lenN l <? N.of_nat (N.to_nat n)); reflexivity.
Qed.
Lemma c_len_grow : forall n ch, c_len (grow_len_to n ch) = N.max n (c_len ch).
Proof.
  intros n ch. unfold grow_len_to. destruct (n <=? c_len ch) eqn:E; [lia|]. cbv zeta. unfold c_len at 1. cbn [c_base p_tags].
  unfold pad. rewrite lenN_app, lenN_repeat. fold (c_len ch). lia.
Qed.
Lemma ok_grow : forall n ch, n <= U32_MAX -> ok_chunk ch -> ok_chunk (grow_len_to n ch).
Proof.
  intros n ch L (A & B & C). unfold ok_chunk. rewrite c_len_grow.
  replace (c_user (grow_len_to n ch)) with (c_user ch) by (unfold grow_len_to; now destruct (_ <=? _)).
  replace (c_comp (grow_len_to n ch)) with (c_comp ch) by (unfold grow_len_to; now destruct (_ <=? _)).
  split; [eapply ok_ov_mono; [|exact A]; lia|]. split; [eapply ok_ov_mono; [|exact B]; lia|]. destruct C as [C1 C2]. split; [lia|].
  intros PL. specialize (C2 PL). unfold grow_len_to. destruct (_ <=? _); auto. cbn [c_fmt]. now rewrite C2.
Qed.
Lemma cell_grow : forall n ch off, ok_chunk ch -> cell_of (grow_len_to n ch) off = cell_of ch off.
Proof.
  intros n ch off (A & B & C). unfold cell_of. rewrite c_len_grow. unfold grow_len_to. destruct (n <=? c_len ch) eqn:E.
  { replace (N.max n (c_len ch)) with (c_len ch) by lia. reflexivity. }
  cbv zeta. cbn [c_user c_comp c_base]. destruct (off <? c_len ch) eqn:E2.
  - replace (off <? N.max n (c_len ch)) with true by lia. f_equal. unfold base_at, base_lit. cbn [p_tags p_nums p_bools p_text p_errs].
    rewrite !lane_at_pad. unfold pad. rewrite nthN_app. fold (c_len ch). now rewrite E2.
  - destruct (off <? N.max n (c_len ch)) eqn:E3; auto.
    destruct A as (_ & _ & A). destruct B as (_ & _ & B). destruct (A off), (B off); try lia. unfold blank. f_equal; auto.
    unfold base_at, base_lit. cbn [p_tags]. unfold pad. rewrite nthN_app. fold (c_len ch). rewrite E2.
    rewrite nthN_repeat. replace (off - c_len ch <? N.of_nat (N.to_nat (n - c_len ch))) with true by lia. reflexivity.
Qed.

(* ---- slices ---- *)
Lemma lane_at_slice : forall A (l : option (list (option A))) off len i, i < len ->
  lane_at (lane_slice off len l) i = lane_at l (off + i).
Proof.
  intros A [l|] off len i H; auto. unfold lane_slice, lane, lane_at. destruct (existsb is_some (sub off len l)) eqn:E.
  - rewrite nthN_sub. now replace (i <? len) with true by lia.
  - pose proof (nthN_sub _ l off len i) as X. replace (i <? len) with true in X by lia. rewrite <- X.
    destruct (nthN (sub off len l) i) as [[x|]|] eqn:EN; auto. exfalso. apply Bool.not_true_iff_false in E. apply E.
    apply existsb_exists. exists (Some x). split; auto. now apply nth_error_In with (N.to_nat i).
Qed.
Section Mem.
  Variable mem : payload -> N.
  Lemma slice_chunk_spec : forall ch off len, ok_chunk ch -> off + len <= c_len ch ->
    exists ch', slice_chunk mem ch off len = Some ch' /\ ok_chunk ch' /\ c_len ch' = len /\
      forall i, i < len -> cell_of ch' i = cell_of ch (off + i).
  Proof.
    intros ch off len (A & B & C & FM) H. unfold slice_chunk. replace (c_len ch <? off + len) with false by lia. cbv zeta.
    eexists. split; [reflexivity|].
    assert (B1 : off + len < USIZE_MAX) by (unfold U32_MAX, USIZE_MAX in *; lia).
    assert (OV : forall o, ok_ov (c_len ch) o -> ok_ov len (ov_slice mem o off len) /\
      forall i, i < len -> ov_get (ov_slice mem o off len) i = ov_get o (off + i) /\
        ov_get_format (ov_slice mem o off len) i = ov_get_format o (off + i)).
    { intros o (R & G & Z). destruct (ov_slice_spec mem o _ off len R G B1) as (R' & G' & F').
      assert (E : forall k, ov_get (ov_slice mem o off len) k = if k <? len then ov_get o (off + k) else None)
        by (intros k; now rewrite (repr_get _ _ k R')).
      split.
      - split; [now apply repr_self in R'|]. split; auto. intros k L. rewrite E, F'. now replace (k <? len) with false by lia.
      - intros i L. rewrite E, F'. now replace (i <? len) with true by lia. }
    destruct (OV _ A) as [A1 A2], (OV _ B) as [B2 B3].
    match goal with |- ok_chunk ?x /\ _ => assert (LEN : c_len x = len) end.
    { unfold c_len. cbn [c_base p_tags]. apply lenN_sub. exact H. }
    split; [|split; auto].
    - unfold ok_chunk. rewrite LEN. cbn [c_user c_comp c_fmt]. split; auto. split; auto. split; [lia|].
      intros PL. now rewrite (FM PL).
    - intros i L. unfold cell_of. rewrite LEN. replace (i <? len) with true by lia. replace (off + i <? c_len ch) with true by lia.
      cbn [c_user c_comp c_base]. destruct (A2 i L) as [-> ->], (B3 i L) as [-> ->]. f_equal. unfold base_at, base_lit.
      cbn [p_tags p_nums p_bools p_text p_errs]. rewrite nthN_sub. replace (i <? len) with true by lia.
      rewrite !lane_at_slice by auto. reflexivity.
  Qed.
End Mem.

(* ---- compaction ---- *)
Lemma lane_at_lane : forall A (l : list (option A)) i, lane_at (lane l) i = match nthN l i with Some x => x | None => None end.
Proof.
  intros A l i. unfold lane, lane_at. destruct (existsb is_some l) eqn:E; auto. destruct (nthN l i) as [[x|]|] eqn:EN; auto.
  exfalso. apply Bool.not_true_iff_false in E. apply E. apply existsb_exists. exists (Some x). split; auto.
  now apply nth_error_In with (N.to_nat i).
Qed.
Definition entry_lit (e : lane_entry) : lit :=
  match tag_of_u8 (e_tag e) with
  | TEmpty => LEmpty
  | TNumber | TDateTime | TDuration => or_empty LNumber (e_num e)
  | TBoolean => or_empty LBoolean (e_bool e)
  | TText => or_empty LText (e_text e)
  | TError => or_empty LError (e_err e)
  | TPending => LPending
  end.
Lemma base_lanes : forall es i, base_at (lanes_of es) i = match nthN es i with Some e => entry_lit e | None => LEmpty end.
Proof.
  intros es i. unfold base_at, base_lit, lanes_of. cbn [p_tags p_nums p_bools p_text p_errs]. rewrite !lane_at_lane, !nthN_map.
  destruct (nthN es i); reflexivity.
Qed.
Lemma entry_lit_of : forall v, entry_lit (entry_of v) = lit_of v.
Proof. now intros []. Qed.
Lemma entry_lit_base : forall p i, i < lenN (p_tags p) -> entry_lit (base_entry p i) = base_at p i.
Proof.
  intros p i H. unfold base_at, base_lit, base_entry. destruct (nthN_lt _ _ _ H) as [t ->]. destruct (tag_of_u8 t); reflexivity.
Qed.
Lemma len_fold_base : forall p o, lenN (p_tags (fold_base p o)) = lenN (p_tags p).
Proof. intros p o. unfold fold_base, lanes_of. cbn [p_tags]. rewrite !lenN_map, lenN_range. lia. Qed.
Lemma base_fold : forall p o i, i < lenN (p_tags p) ->
  base_at (fold_base p o) i = match ov_get o i with Some v => lit_of v | None => base_at p i end.
Proof.
  intros p o i H. unfold fold_base. rewrite base_lanes, nthN_map, nthN_range. replace (i <? lenN (p_tags p) - 0) with true by lia.
  cbn [option_map]. change (0 + i) with i. destruct (ov_get o i); [apply entry_lit_of|now apply entry_lit_base].
Qed.
Lemma cleared : forall len o, ok_ov len o -> ok_ov len (fst (clear_all o)) /\ (forall i, ov_get (fst (clear_all o)) i = None) /\
  forall i, ov_get_format (fst (clear_all o)) i = ov_get_format o i.
Proof.
  intros len o (A & B & C). split; [|split; auto]. split; [|split; auto].
  - eapply repr_ext with (m := om_empty); [|reflexivity]. cbn. split; [constructor|]. exists (fun _ => None).
    split; [now apply parts_nil|]. split; auto.
  - intros k L. split; auto. now apply C.
Qed.
(* a change of a chunk that keeps its length *)
Definition keeps (f : chunk -> chunk) : Prop := forall ch, ok_chunk ch -> ok_chunk (f ch) /\ c_len (f ch) = c_len ch.
Lemma compact_user_spec : forall t d ch, ok_chunk ch -> ok_chunk (compact_user t d ch) /\ c_len (compact_user t d ch) = c_len ch /\
  ((forall i, cell_of (compact_user t d ch) i = cell_of ch i) \/
   (forall i, i < c_len ch -> cell_of (compact_user t d ch) i = user_stored (cell_of ch i))).
Proof.
  intros t d ch (A & B & C). unfold compact_user. cbv zeta. destruct ((c_len ch =? 0) || _); [split; [unfold ok_chunk; auto|split; auto]|].
  match goal with |- ok_chunk ?x /\ _ => assert (LEN : c_len x = c_len ch) by (unfold c_len; cbn [c_base]; apply len_fold_base) end.
  destruct (cleared _ _ A) as (A1 & A2 & A3).
  split; [unfold ok_chunk; rewrite LEN; auto|]. split; auto. right. intros i H. unfold cell_of. rewrite LEN.
  replace (i <? c_len ch) with true by lia. unfold user_stored. cbn [c_user c_comp c_base x_user x_comp x_base x_ufmt x_cfmt].
  rewrite A2, A3. now rewrite base_fold.
Qed.
Lemma compact_comp_spec : forall ch, ok_chunk ch -> ok_chunk (compact_comp ch) /\ c_len (compact_comp ch) = c_len ch /\
  ((forall i, cell_of (compact_comp ch) i = cell_of ch i) \/
   (forall i, i < c_len ch -> cell_of (compact_comp ch) i = computed_stored (cell_of ch i))).
Proof.
  intros ch (A & B & C). unfold compact_comp. cbv zeta. destruct ((c_len ch =? 0) || _); [split; [unfold ok_chunk; auto|split; auto]|].
  match goal with |- ok_chunk ?x /\ _ => assert (LEN : c_len x = c_len ch) by (unfold c_len; cbn [c_base]; apply len_fold_base) end.
  destruct (cleared _ _ B) as (A1 & A2 & A3).
  split; [unfold ok_chunk; rewrite LEN; auto|]. split; auto. right. intros i H. unfold cell_of. rewrite LEN.
  replace (i <? c_len ch) with true by lia. unfold computed_stored. cbn [c_user c_comp c_base x_user x_comp x_base x_ufmt x_cfmt].
  rewrite A2, A3. now rewrite base_fold.
Qed.
End Plain.
