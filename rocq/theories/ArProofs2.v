(** Values come back. *)
From Coq Require Import List Bool NArith ZArith Lia ZifyN ZifyNat ZifyBool.
From Verif Require Import Base Maps LexModel RtModel InternModel InternProofs SheetModel ArModel ArSpec ArProofs1.
Import ListNotations.
Open Scope N_scope.

Lemma to_nat_count {A} (l : list A) : N.to_nat (count l) = length l.
Proof. apply Nnat.Nat2N.id. Qed.
Lemma sequence_some {A} (l : list A) : sequence (map Some l) = Some l.
Proof. induction l as [|x l IH]; [reflexivity|]. cbn. rewrite IH. reflexivity. Qed.
Lemma sequence_eq {A B} (f : A -> option B) l m : Forall2 (fun x y => f x = Some y) l m -> sequence (map f l) = Some m.
Proof. induction 1 as [|x y l m E _ IH]; [reflexivity|]. cbn. rewrite E, IH. reflexivity. Qed.
Lemma slice_ok {A} (l : list A) a b c : slice (a ++ l ++ b) (count a) (count a + c) = Some l <-> c = count l.
Proof.
  unfold slice, count. split.
  - destruct (_ && _) eqn:E; [|discriminate]. intros H. injection H as H.
    apply (f_equal (@length A)) in H. rewrite firstn_length, skipn_length, !app_length in *. lia.
  - intros ->. destruct (_ && _) eqn:E; [|rewrite !app_length in E; lia]. f_equal.
    rewrite Nnat.Nat2N.id, skipn_app, skipn_all, Nat.sub_diag. cbn [skipn app].
    replace (N.to_nat _) with (length l) by lia. rewrite firstn_app, firstn_all, Nat.sub_diag. cbn. apply app_nil_r.
Qed.
Lemma slice_at {A} (l a b : list A) i j : i = count a -> j = i + count l -> slice (a ++ l ++ b) i j = Some l.
Proof. intros -> ->. now apply slice_ok. Qed.
Lemma count_concat {A} (rows : list (list A)) c : rectangle rows c -> count (concat rows) = count rows * c.
Proof.
  induction 1 as [|r rows E _ IH]; [reflexivity|]. cbn [concat]. rewrite count_app, E, IH. unfold count. cbn [length]. lia.
Qed.
Lemma rows_back {A} (rows : list (list A)) c : forall pre k, rectangle rows c -> count pre = N.of_nat k * c ->
  (N.of_nat k + count rows) * c < 2 ^ 32 ->
  sequence (map (fun k => let s := (N.of_nat k * c) mod 2 ^ 32 in slice (pre ++ concat rows) s (s + c)) (seq k (length rows))) = Some rows.
Proof.
  induction rows as [|r rows IH]; intros pre k H P L; [reflexivity|].
  assert (Hr : count r = c /\ rectangle rows c) by (inversion H; subst; split; [reflexivity | assumption]).
  destruct Hr as (Hc & Hr). assert (L2 : count (r :: rows) = count rows + 1) by (unfold count; cbn [length]; lia). rewrite L2 in L.
  cbn [length seq map sequence concat]. cbv zeta.
  assert (M : (N.of_nat k * c) mod 2 ^ 32 = N.of_nat k * c) by (apply N.mod_small; nia).
  rewrite M. rewrite (slice_at r pre (concat rows)) by (rewrite ?Hc; auto; lia).
  specialize (IH (pre ++ r) (S k) Hr). rewrite <- app_assoc in IH. cbv zeta in IH. rewrite IH; [reflexivity | |].
  - rewrite count_app, P, Hc. lia.
  - replace (N.of_nat (S k) + count rows) with (N.of_nat k + (count rows + 1)) by lia. exact L.
Qed.
Lemma deepest_in {A} (f : A -> nat) l n : (deepest f l <= n)%nat <-> Forall (fun x => (f x <= n)%nat) l.
Proof.
  induction l as [|x l IH]; cbn [deepest fold_right]; [split; intros; [constructor | lia]|].
  fold (deepest f l). split.
  - intros H. constructor; [lia|]. apply IH. lia.
  - intros H. assert (K := Forall_inv H). apply Forall_inv_tail in H. apply IH in H. cbv beta in K. lia.
Qed.
Lemma total_count {A} (g : A -> N) rows :
  total (total (fun x => 1 + g x)) rows = count (concat rows) + total (total g) rows.
Proof.
  assert (T : forall l, total (fun x => 1 + g x) l = count l + total g l).
  { induction l as [|x l IH]; [reflexivity|]. change (total (fun x => 1 + g x) (x :: l)) with (1 + g x + total (fun x => 1 + g x) l).
    change (total g (x :: l)) with (g x + total g l). rewrite IH. unfold count. cbn [length]. lia. }
  induction rows as [|r rows IH]; [reflexivity|].
  change (total (total (fun x => 1 + g x)) (r :: rows)) with (total (fun x => 1 + g x) r + total (total (fun x => 1 + g x)) rows).
  change (total (total g) (r :: rows)) with (total g r + total (total g) rows).
  rewrite IH, T. cbn [concat]. rewrite count_app. lia.
Qed.
Lemma F2_count {A B} (P : A -> B -> Prop) l m : Forall2 P l m -> count l = count m.
Proof. intros F. unfold count. f_equal. induction F; cbn; lia. Qed.
Lemma F2_concat {A B} (P : A -> B -> Prop) l m : Forall2 (Forall2 P) l m -> count (concat l) = count (concat m).
Proof.
  induction 1 as [|x y l m F _ IH]; [reflexivity|]. cbn [concat]. rewrite !count_app, IH, (F2_count _ _ _ F). reflexivity.
Qed.

Section Values.
Variables (serial_of : Z -> N) (serial_to : N -> Z) (fraction_of : Z -> N).
Notation store_value := (store_value serial_of fraction_of).
Notation retrieve := (retrieve serial_to).
Notation kept := (kept serial_of serial_to).

Ltac same := repeat split; cbn [scal strs arrs ers tree_arena floats ints dims elems offs errs estrs nodes fargs aelems astrs specs]; try apply prefix_refl.
Ltac stay W := destruct W; split; assumption.

Lemma insert_float_some c f c' i : insert_float c f = Some (c', i) ->
  i = trunc_u32 (count (floats c)) /\ i <= INDEX_MASK /\ c' = Scalars (floats c ++ [f]) (ints c).
Proof.
  unfold insert_float, count. cbv zeta. destruct (_ <? _) eqn:E; [discriminate|]. intros H. injection H as <- <-.
  split; [reflexivity|]. split; [lia | reflexivity].
Qed.
Lemma insert_integer_some c z c' i : insert_integer c z = Some (c', i) ->
  exists j, i = N.lor j INT_BIT /\ j = trunc_u32 (count (ints c)) /\ j <= INDEX_MASK /\ c' = Scalars (floats c) (ints c ++ [z]).
Proof.
  unfold insert_integer, count. cbv zeta. destruct (_ <? _) eqn:E; [discriminate|]. intros H. injection H as <- <-.
  eexists. split; [reflexivity|]. split; [reflexivity|]. split; [lia | reflexivity].
Qed.
Lemma insert_rows_some a rows cols es a' i : insert_rows a rows cols es = Some (a', i) ->
  count es = (rows * cols) mod 2 ^ 32 /\ i = trunc_u32 (count (dims a)) /\
  a' = Arrays (dims a ++ [(rows, cols)]) (elems a ++ es) (offs a ++ [trunc_u32 (count (elems a ++ es))]).
Proof.
  unfold insert_rows, count. destruct (N.eqb_spec (N.of_nat (length es)) ((rows * cols) mod 2 ^ 32)) as [L|]; [|discriminate].
  cbv zeta. destruct (_ =? _); [discriminate|]. intros H. injection H as <- <-. split; [exact L|]. split; reflexivity.
Qed.
Lemma put_float_keeps s t f s' r : wf s -> put_float s t f = Some (s', r) -> wf s' /\ ext s s'.
Proof.
  intros W. unfold put_float. destruct (insert_float (scal s) f) as [[c i]|] eqn:E; [|discriminate].
  destruct (pack_index t i); [|discriminate]. intros H. injection H as <- <-.
  apply insert_float_some in E. destruct E as (_ & _ & ->).
  split; [stay W|]. same. apply prefix_app.
Qed.

Lemma value_keeps v : forall s s' r, wf s -> store_value s v = Some (s', r) -> wf s' /\ ext s s'.
Proof.
  pattern v; apply val_all; clear v; [intros v | intros rows IH].
  - destruct v; try exact I; intros s s' r W; cbn [ArModel.store_value]; intros H;
      try (injection H as <- <-; split; [exact W | apply ext_refl]); try (exact (put_float_keeps _ _ _ _ _ W H)).
    + destruct (small_int (as_i32 z)); [injection H as <- <-; split; [exact W | apply ext_refl]|].
      destruct (insert_integer (scal s) z) as [[c i]|] eqn:E; [|discriminate]. destruct (pack_index T_LARGE i); [|discriminate].
      injection H as <- <-. apply insert_integer_some in E. destruct E as (j & _ & _ & _ & ->).
      split; [stay W|]. same. apply prefix_app.
    + destruct (interned (strs s) t) as [[g i]|] eqn:E; [|discriminate]. destruct (pack_index T_STR i); [|discriminate].
      injection H as <- <-. destruct (interned_spec _ _ _ _ (w_strs _ W) E) as (A & B & _).
      split; [destruct W; split; assumption|]. same. exact B.
    + destruct (insert_error (ers s) kind msg) as [[e i]|] eqn:E; [|discriminate]. destruct (pack_index T_ERR i); [|discriminate].
      injection H as <- <-. destruct (insert_error_spec _ _ _ _ _ (w_estrs _ W) (w_cache _ W) E) as (A & B & C & D & _).
      split; [destruct W; split; assumption|]. same; assumption.
    + destruct (insert_integer (scal s) _) as [[c i]|] eqn:E; [|discriminate]. destruct (pack_index T_DUR _); [|discriminate].
      injection H as <- <-. apply insert_integer_some in E. destruct E as (j & _ & _ & _ & ->).
      split; [stay W|]. same. apply prefix_app.
  - intros s s' r W. cbn [ArModel.store_value].
    destruct (mapM (mapM store_value) s rows) as [[s1 es]|] eqn:E; [|discriminate].
    assert (K : wf s1 /\ ext s s1).
    { refine (mapM_keeps _ wf ext ext_refl ext_trans rows _ s s1 es W E).
      eapply Forall_impl; [|exact IH]. intros row Hrow s2 s3 y W2 E2. cbv beta in Hrow.
      exact (mapM_keeps _ wf ext ext_refl ext_trans row Hrow s2 s3 y W2 E2). }
    destruct K as (W1 & X1).
    destruct (insert_rows (arrs s1) _ _ _) as [[a i]|] eqn:E2; [|discriminate]. destruct (pack_index T_ARR i); [|discriminate].
    intros H. injection H as <- <-. apply insert_rows_some in E2. destruct E2 as (_ & _ & ->). split.
    + destruct W1 as [A B C D F G]. split; cbn [strs ers tree_arena arrs dims elems offs]; try assumption.
      * rewrite !app_length, D. cbn. lia.
      * rewrite app_length. cbn [length]. replace (length (dims (arrs s1)) + 1)%nat with (length (offs (arrs s1))) by lia.
        rewrite nth_error_app2, Nat.sub_diag by lia. reflexivity.
    + eapply ext_trans; [exact X1|]. same; apply prefix_app.
Qed.


Lemma get_2d_ok a rows c i a' :
  length (offs a) = S (length (dims a)) -> nth_error (offs a) (length (dims a)) = Some (trunc_u32 (count (elems a))) ->
  count (dims a') < 2 ^ 32 -> count (elems a') < 2 ^ 32 -> rectangle rows c -> c <> 0 ->
  insert_rows a (count rows) c (concat rows) = Some (a', i) ->
  nth_error (dims a') (N.to_nat i) = Some (count rows, c) /\
  elements a' i = Some (concat rows) /\ i = count (dims a).
Proof.
  intros O L D E R C H. apply insert_rows_some in H. destruct H as (_ & -> & ->). cbn [dims elems] in D, E.
  rewrite count_app in D. rewrite count_app in E.
  assert (I : trunc_u32 (count (dims a)) = count (dims a)) by (apply N.mod_small; unfold U32; lia). rewrite I.
  split; [|split; [|reflexivity]].
  - rewrite to_nat_count. cbn [dims]. rewrite nth_error_app2, Nat.sub_diag by lia. reflexivity.
  - unfold elements. cbn [offs elems]. rewrite !to_nat_count.
    rewrite nth_error_app1 by lia. rewrite L.
    rewrite nth_error_app2 by lia. replace (S (length (dims a)) - length (offs a))%nat with 0%nat by lia. cbn [nth_error].
    unfold trunc_u32, U32. rewrite !N.mod_small by (rewrite ?count_app; lia). rewrite count_app.
    pose proof (slice_at (concat rows) (elems a) [] (count (elems a)) (count (elems a) + count (concat rows)) eq_refl eq_refl) as X.
    rewrite app_nil_r in X. exact X.
Qed.

Lemma elements_ext a b i es : prefix (offs a) (offs b) -> prefix (elems a) (elems b) -> elements a i = Some es -> elements b i = Some es.
Proof.
  intros O E. unfold elements.
  destruct (nth_error (offs a) (N.to_nat i)) as [x|] eqn:A; [|discriminate].
  destruct (nth_error (offs a) (S (N.to_nat i))) as [y|] eqn:B; [|discriminate].
  rewrite (prefix_nth _ _ _ _ O A), (prefix_nth _ _ _ _ O B). apply prefix_slice, E.
Qed.


Definition gives v r s := forall n s2, (vdepth v <= n)%nat -> ext s s2 -> retrieve n s2 r = Some v.
Lemma gives_ext v r s s' : gives v r s -> ext s s' -> gives v r s'.
Proof. intros G E n s2 D X. apply G; [exact D | exact (ext_trans _ _ _ E X)]. Qed.

Ltac tagle := match goal with |- ?t <= T_AST => vm_compute; discriminate end.

Lemma float_back t f s s' r : wf s -> used s + 2 <= 2 ^ 28 -> t <= T_AST ->
  put_float s t f = Some (s', r) ->
  exists i, r = pack t i /\ i <= PAYLOAD_MASK /\ forall s2, ext s' s2 -> get_float (scal s2) i = Some f.
Proof.
  intros W U T. unfold put_float. destruct (insert_float (scal s) f) as [[c i]|] eqn:E; [|discriminate].
  destruct (pack_index t i) as [q|] eqn:P; [|discriminate]. intros H. injection H as <- <-.
  apply pack_index_some in P. destruct P as (P & ->). apply insert_float_some in E. destruct E as (-> & L & ->).
  eexists. split; [reflexivity|]. split; [exact P|]. intros s2 ((X & _) & _). cbn [scal floats] in X.
  unfold get_float. rewrite int_bit_off, index_mask_id by exact L. rewrite N.eqb_refl.
  apply (prefix_nth _ _ _ _ X).
  assert (C : count (floats (scal s)) < 2 ^ 28) by (unfold used in U; lia). change (2 ^ 28) with 268435456 in C.
  unfold trunc_u32. rewrite N.mod_small by (change U32 with 4294967296; lia). rewrite to_nat_count.
  rewrite nth_error_app2, Nat.sub_diag by lia. reflexivity.
Qed.
Lemma put_float_room s t f : used s + 2 <= 2 ^ 28 -> exists s' r, put_float s t f = Some (s', r) /\ used s' = used s + 1.
Proof.
  intros U. assert (C : count (floats (scal s)) + 2 <= 268435456) by (unfold used in U; change (2 ^ 28) with 268435456 in U; lia).
  unfold put_float, insert_float. fold (count (floats (scal s))).
  assert (M : trunc_u32 (count (floats (scal s))) = count (floats (scal s))) by (apply N.mod_small; change U32 with 4294967296; lia).
  rewrite M. cbv zeta. destruct (INDEX_MASK <? count (floats (scal s))) eqn:E; [change INDEX_MASK with 2147483647 in E; lia|].
  rewrite pack_index_ok by (unfold PAYLOAD_MASK; lia). eexists. eexists. split; [reflexivity|].
  unfold used. cbn [scal strs arrs ers tree_arena floats ints]. rewrite count_app. change (count [f]) with 1. lia.
Qed.


(** The main lemma: a kept value is stored while there is room, and comes back from every
    later store. *)
Lemma value_total v : kept v -> forall s, wf s -> used s + vsize v <= 2 ^ 28 ->
  exists s' r, store_value s v = Some (s', r) /\ wf s' /\ ext s s' /\ used s' <= used s + vsize v /\ gives v r s'.
Proof.
  assert (Q : forall v s s' r, wf s -> store_value s v = Some (s', r) -> used s' <= used s + vsize v -> gives v r s' ->
    exists s' r, store_value s v = Some (s', r) /\ wf s' /\ ext s s' /\ used s' <= used s + vsize v /\ gives v r s').
  { intros w s s' r W E U G. exists s', r. destruct (value_keeps _ _ _ _ W E) as (A & B). split; [exact E|].
    split; [exact A|]. split; [exact B|]. split; [exact U | exact G]. }
  pattern v; apply val_all; clear v; [intros v | intros rows IH].
  - destruct v; try exact I; intros K s W U; try (inversion K; fail).
    + assert (H : (- 2 ^ 27 <= z < 2 ^ 27)%Z) by (inversion K; assumption).
      assert (E : store_value s (VInt z) = Some (s, pack T_SMALL (N.land (z_as_u32 z) PAYLOAD_MASK))).
      { cbn [ArModel.store_value]. rewrite as_i32_id, small_some by (change (2 ^ 27)%Z with 134217728%Z in *; lia). reflexivity. }
      apply (Q _ _ _ _ W E); [lia|]. intros n s2 _ _.
      destruct n; cbn [ArModel.retrieve]; cbv zeta; rewrite tag_pack by (tagle || apply masked_ok); cbn [N.eqb T_SMALL T_EMPTY Pos.eqb];
        rewrite small_back by exact H; reflexivity.
    + cbn [vsize] in U. destruct (put_float_room s T_NUM bits U) as (s' & r & E & V).
      apply (Q (VNum bits) s s' r W E); [cbn [vsize]; lia|]. assert (T : T_NUM <= T_AST) by tagle. destruct (float_back _ _ _ _ _ W U T E) as (i & -> & L & G).
      intros n s2 _ X. destruct n; cbn [ArModel.retrieve]; cbv zeta; rewrite tag_pack, payload_pack by (tagle || exact L);
        cbn [N.eqb T_NUM T_LARGE T_SMALL T_EMPTY Pos.eqb]; rewrite (G _ X); reflexivity.
    + cbn [vsize] in U. destruct (interned_room (strs s) t (w_strs _ W)) as (g & i & E & L & V).
      { unfold used in U. unfold PAYLOAD_MASK. change (2 ^ 28) with 268435456 in U. lia. }
      assert (S' : store_value s (VText t) = Some (Store (scal s) g (arrs s) (ers s) (tree_arena s), pack T_STR i)).
      { cbn [ArModel.store_value]. rewrite E, pack_index_ok by exact L. reflexivity. }
      apply (Q _ _ _ _ W S'); [unfold used; cbn [vsize scal strs arrs ers tree_arena]; lia|].
      destruct (interned_spec _ _ _ _ (w_strs _ W) E) as (_ & _ & G).
      intros n s2 _ ((_ & _ & X) & _). cbn [strs] in X.
      destruct n; cbn [ArModel.retrieve]; cbv zeta; rewrite tag_pack, payload_pack by (tagle || exact L);
        cbn [N.eqb T_STR T_NUM T_LARGE T_SMALL T_EMPTY Pos.eqb]; rewrite (prefix_get _ _ _ _ X G); reflexivity.
    + apply (Q (VBool b) s s (pack T_BOOL (if b then 1 else 0)) W eq_refl); [lia|]. intros n s2 _ _. destruct n, b; reflexivity.
    + assert (rest = 0) by (inversion K; reflexivity). subst rest. cbn [vsize] in U.
      destruct (insert_error_room (ers s) kind msg (w_estrs _ W)) as (e & i & E & V).
      { unfold used in U. unfold PAYLOAD_MASK. change (2 ^ 28) with 268435456 in U. lia. }
      destruct (insert_error_spec _ _ _ _ _ (w_estrs _ W) (w_cache _ W) E) as (_ & _ & _ & _ & (id & N1 & M)).
      assert (C : count (errs e) <= 2 ^ 28) by (unfold used in U; change (2 ^ 28) with 268435456 in *; lia).
      assert (C2 : count (errs e) < 2 ^ 32) by (change (2 ^ 28) with 268435456 in C; change (2 ^ 32) with 4294967296; lia).
      specialize (N1 C2). assert (L : i <= PAYLOAD_MASK).
      { assert (N.to_nat i < length (errs e))%nat by (apply nth_error_Some; congruence).
        unfold count in C. change (2 ^ 28) with 268435456 in C. unfold PAYLOAD_MASK. lia. }
      assert (S' : store_value s (VErr kind msg 0) = Some (Store (scal s) (strs s) (arrs s) e (tree_arena s), pack T_ERR i)).
      { cbn [ArModel.store_value]. rewrite E, pack_index_ok by exact L. reflexivity. }
      apply (Q _ _ _ _ W S'); [unfold used in *; cbn [vsize scal strs arrs ers tree_arena]; lia|].
      intros n s2 _ (_ & _ & (X & Y) & _). cbn [ers] in X, Y.
      assert (G : get_error (ers s2) i = Some (Some (VErr kind msg 0))).
      { unfold get_error. rewrite (prefix_nth _ _ _ _ X N1). destruct msg as [t|].
        - destruct M as (j & -> & M). rewrite (prefix_get _ _ _ _ Y M). reflexivity.
        - subst id. reflexivity. }
      destruct n; cbn [ArModel.retrieve]; cbv zeta; rewrite tag_pack, payload_pack by (tagle || exact L);
        cbn [N.eqb T_ERR T_BOOL T_STR T_NUM T_LARGE T_SMALL T_EMPTY Pos.eqb]; rewrite G; reflexivity.
    + assert (H : serial_to (serial_of ns) = ns) by (inversion K; assumption).
      cbn [vsize] in U. destruct (put_float_room s T_DT (serial_of ns) U) as (s' & r & E & V).
      apply (Q (VDateTime ns) s s' r W E); [cbn [vsize]; lia|]. assert (T : T_DT <= T_AST) by tagle. destruct (float_back _ _ _ _ _ W U T E) as (i & -> & L & G).
      intros n s2 _ X. destruct n; cbn [ArModel.retrieve]; cbv zeta; rewrite tag_pack, payload_pack by (tagle || exact L);
        cbn [N.eqb T_DT T_ARR T_ERR T_BOOL T_STR T_NUM T_LARGE T_SMALL T_EMPTY Pos.eqb]; rewrite (G _ X), H; reflexivity.
    + assert (H : exists secs, ns = (secs * NS)%Z) by (inversion K; eexists; reflexivity). destruct H as (secs & ->).
      cbn [vsize] in U. assert (C : count (ints (scal s)) + 2 <= 268435456) by (unfold used in U; change (2 ^ 28) with 268435456 in U; lia).
      assert (M : trunc_u32 (count (ints (scal s))) = count (ints (scal s))) by (apply N.mod_small; change U32 with 4294967296; lia).
      assert (L : count (ints (scal s)) <= PAYLOAD_MASK) by (unfold PAYLOAD_MASK; lia).
      assert (S' : store_value s (VDur (secs * NS)) =
        Some (Store (Scalars (floats (scal s)) (ints (scal s) ++ [secs])) (strs s) (arrs s) (ers s) (tree_arena s),
              pack T_DUR (count (ints (scal s))))).
      { cbn [ArModel.store_value]. unfold num_seconds. rewrite Z.quot_mul by discriminate. unfold insert_integer. fold (count (ints (scal s))).
        rewrite M. cbv zeta. destruct (INDEX_MASK <? count (ints (scal s))) eqn:E; [change INDEX_MASK with 2147483647 in E; lia|].
        rewrite index_mask_int by (apply payload_small; exact L). rewrite pack_index_ok by exact L. reflexivity. }
      apply (Q _ _ _ _ W S').
      { unfold used. cbn [vsize scal strs arrs ers tree_arena ints floats]. rewrite count_app. change (count [secs]) with 1. lia. }
      intros n s2 _ ((_ & X & _) & _). cbn [scal ints] in X.
      assert (G : get_integer (scal s2) (N.lor (count (ints (scal s))) INT_BIT) = Some secs).
      { unfold get_integer. rewrite int_bit_on. change (INT_BIT =? 0) with false. cbn iota.
        rewrite index_mask_int by (apply payload_small; exact L). apply (prefix_nth _ _ _ _ X). rewrite to_nat_count.
        rewrite nth_error_app2, Nat.sub_diag by lia. reflexivity. }
      destruct n; cbn [ArModel.retrieve]; cbv zeta; rewrite tag_pack, payload_pack by (tagle || exact L);
        cbn [N.eqb T_DUR T_DT T_ARR T_ERR T_BOOL T_STR T_NUM T_LARGE T_SMALL T_EMPTY Pos.eqb]; rewrite G; reflexivity.
    + apply (Q VEmpty s s 0 W eq_refl); [lia|]. intros n s2 _ _. destruct n; reflexivity.
    + apply (Q VPending s s (pack T_PEND 0) W eq_refl); [lia|]. intros n s2 _ _. destruct n; reflexivity.
  - intros K s W U.
    assert (KK : exists c, rectangle rows c /\ c <> 0 /\ Forall (Forall kept) rows).
    { inversion K as [ | | | | | ? c R C F | | | |]; subst. exists c. split; [exact R|]. split; [exact C | exact F]. }
    destruct KK as (c & R & C & F). cbn [vsize] in U. rewrite total_count in U.
    assert (T : exists s1 ess, mapM (mapM store_value) s rows = Some (s1, ess) /\ wf s1 /\ ext s s1 /\
      used s1 <= used s + total (total vsize) rows /\ Forall2 (Forall2 (fun x y => gives x y s1)) rows ess).
    { refine (mapM_total (mapM store_value) wf ext ext_refl ext_trans used (total vsize) (2 ^ 28)
                (fun l ys s => Forall2 (fun x y => gives x y s) l ys) _ rows _ s W _).
      - intros l ys a b H X. induction H as [|x y l ys G _ IHl]; constructor; [exact (gives_ext _ _ _ _ G X) | exact IHl].
      - clear R U K. induction rows as [|row rows IHr]; [constructor|]. constructor.
        + intros s0 W0 U0.
          refine (mapM_total store_value wf ext ext_refl ext_trans used vsize (2 ^ 28) gives gives_ext row _ s0 W0 U0).
          assert (A := Forall_inv IH). assert (B := Forall_inv F). clear - A B.
          induction row as [|x row IHx]; [constructor|]. constructor.
          * exact (Forall_inv A (Forall_inv B)).
          * apply IHx; [exact (Forall_inv_tail A) | exact (Forall_inv_tail B)].
        + apply IHr; [exact (Forall_inv_tail IH) | exact (Forall_inv_tail F)].
      - lia. }
    destruct T as (s1 & ess & E1 & W1 & X1 & U1 & G1).
    assert (Cc : count (concat rows) = count (concat ess)) by exact (F2_concat _ _ _ G1).
    assert (Cr : count rows = count ess) by exact (F2_count _ _ _ G1).
    assert (Re : rectangle ess c).
    { clear - R G1. revert R. induction G1 as [|x y l m H _ IHm]; intros R; constructor.
      - rewrite <- (F2_count _ _ _ H). exact (Forall_inv R).
      - apply IHm. exact (Forall_inv_tail R). }
    assert (Hc : count (concat rows) = count rows * c) by exact (count_concat _ _ R).
    change (2 ^ 28) with 268435456 in U.
    assert (B1 : count rows <= count (concat rows)) by nia.
    assert (Hd : rows <> [] -> count (hd [] rows) = c) by (intros Ne; destruct rows; [congruence | exact (Forall_inv R)]).
    assert (Cm : rows <> [] -> c <= count (concat rows)).
    { intros Ne. assert (1 <= count rows) by (destruct rows; [congruence | unfold count; cbn [length]; lia]). nia. }
    assert (Tr : trunc_u32 (N.of_nat (length rows)) = count rows) by (apply N.mod_small; change U32 with 4294967296; unfold count in *; lia).
    assert (I1 : count (dims (arrs s1)) <= 268435455) by (unfold used in *; lia).
    assert (I2 : count (elems (arrs s1)) + count (concat ess) <= 268435456) by (unfold used in *; lia).
    assert (Ir : exists cc, trunc_u32 (N.of_nat (length (hd [] rows))) = cc /\ (rows <> [] -> cc = c) /\ count rows * cc = count (concat ess) /\ (rows = [] -> cc = 0)).
    { destruct rows as [|r0 rows0].
      - exists 0. split; [reflexivity|]. split; [congruence|]. split; [rewrite <- Cc; reflexivity | reflexivity].
      - exists c. fold (count (hd [] (r0 :: rows0))). rewrite Hd by discriminate. split.
        + apply N.mod_small. change U32 with 4294967296. specialize (Cm ltac:(discriminate)). lia.
        + split; [reflexivity|]. split; [congruence | discriminate]. }
    destruct Ir as (cc & Hcc & Hc1 & Hc2 & Hc3).
    set (a' := Arrays (dims (arrs s1) ++ [(count rows, cc)]) (elems (arrs s1) ++ concat ess)
                 (offs (arrs s1) ++ [trunc_u32 (count (elems (arrs s1) ++ concat ess))])).
    assert (Ia : insert_rows (arrs s1) (count rows) cc (concat ess) = Some (a', count (dims (arrs s1)))).
    { unfold insert_rows. fold (count (concat ess)). rewrite Hc2, N.mod_small by (change (2 ^ 32) with 4294967296; lia).
      rewrite N.eqb_refl. fold (count (dims (arrs s1))).
      assert (M : trunc_u32 (count (dims (arrs s1))) = count (dims (arrs s1))) by (apply N.mod_small; change U32 with 4294967296; lia).
      rewrite M. cbv zeta. destruct (count (dims (arrs s1)) =? 2 ^ 32 - 1) eqn:Z; [change (2 ^ 32) with 4294967296 in Z; lia|]. reflexivity. }
    assert (L : count (dims (arrs s1)) <= PAYLOAD_MASK) by (unfold PAYLOAD_MASK; lia).
    assert (S' : store_value s (VArr rows) = Some (Store (scal s1) (strs s1) a' (ers s1) (tree_arena s1), pack T_ARR (count (dims (arrs s1))))).
    { cbn [ArModel.store_value]. rewrite E1, Tr, Hcc, Ia, pack_index_ok by exact L. reflexivity. }
    apply (Q _ _ _ _ W S').
    { cbn [vsize]. rewrite total_count. unfold used in *. cbn [scal strs arrs ers tree_arena]. unfold a'. cbn [dims elems].
      rewrite !count_app. change (count [(count rows, cc)]) with 1. lia. }
    intros n s2 D X. cbn [vdepth] in D. destruct n as [|n]; [lia|].
    assert (D1 : (deepest (deepest vdepth) rows <= n)%nat) by lia.
    destruct X as (X1' & (Xd & Xe & Xo) & Xr). cbn [arrs] in Xd, Xe, Xo.
    assert (X0 : ext s1 s2).
    { destruct X1' as (Y1 & Y2 & Y3). destruct Xr as ((Y4 & Y5) & (Y6 & Y7 & Y8 & Y9 & Y10)).
      repeat split; try assumption; (eapply prefix_trans; [|eassumption]); unfold a'; cbn [dims elems offs]; apply prefix_app. }
    cbn [ArModel.retrieve]. cbv zeta. rewrite tag_pack, !payload_pack by (tagle || exact L).
    cbn [N.eqb T_ARR T_ERR T_BOOL T_STR T_NUM T_LARGE T_SMALL T_EMPTY Pos.eqb].
    assert (Nd : nth_error (dims (arrs s2)) (N.to_nat (count (dims (arrs s1)))) = Some (count rows, cc)).
    { apply (prefix_nth _ _ _ _ Xd). unfold a'. cbn [dims]. rewrite to_nat_count, nth_error_app2, Nat.sub_diag by lia. reflexivity. }
    rewrite Nd.
    assert (El : elements (arrs s2) (count (dims (arrs s1))) = Some (concat ess)).
    { apply (elements_ext a' (arrs s2) _ _ Xo Xe). unfold elements, a'. cbn [offs elems].
      pose proof (w_offs _ W1) as O. pose proof (w_last _ W1) as La. rewrite !to_nat_count.
      rewrite nth_error_app1 by lia. rewrite La. rewrite nth_error_app2 by lia.
      replace (S (length (dims (arrs s1))) - length (offs (arrs s1)))%nat with 0%nat by lia. cbn [nth_error].
      unfold trunc_u32. rewrite !N.mod_small by (change U32 with 4294967296; rewrite ?count_app; lia). rewrite count_app.
      pose proof (slice_at (concat ess) (elems (arrs s1)) [] _ _ eq_refl eq_refl) as Z. rewrite app_nil_r in Z. exact Z. }
    assert (G2 : get_2d (arrs s2) (count (dims (arrs s1))) = Some ess).
    { unfold get_2d. rewrite Nd, El. destruct rows as [|r0 rows0].
      - inversion G1; subst. reflexivity.
      - assert (Ec : cc = c) by (apply Hc1; discriminate). rewrite Ec.
        destruct (count (r0 :: rows0) =? 0) eqn:Z1; [unfold count in Z1; cbn [length] in Z1; lia|].
        destruct (c =? 0) eqn:Z2; [lia|]. cbn [orb].
        replace (N.to_nat (count (r0 :: rows0))) with (length ess) by (rewrite Cr; unfold count; lia).
        assert (B2 : (N.of_nat 0 + count ess) * c < 2 ^ 32).
        { change (2 ^ 32) with 4294967296. rewrite Cr in Hc. change (N.of_nat 0 + count ess) with (count ess). lia. }
        exact (rows_back ess c [] 0 Re eq_refl B2). }
    rewrite G2.
    assert (Sq : sequence (map (fun row => sequence (map (retrieve n s2) row)) ess) = Some rows).
    { apply sequence_eq. clear - G1 D1 X0. revert D1. induction G1 as [|l es rows ess H _ IHm]; intros D1; constructor.
      - apply deepest_in in D1. assert (D2 := Forall_inv D1). cbv beta in D2. apply sequence_eq. clear - H D2 X0. revert D2.
        induction H as [|x y l ys G _ IHl]; intros D2; constructor.
        + apply G; [|exact X0]. apply deepest_in in D2. exact (Forall_inv D2).
        + apply IHl. apply deepest_in in D2. apply deepest_in. exact (Forall_inv_tail D2).
      - apply IHm. apply deepest_in in D1. apply deepest_in. exact (Forall_inv_tail D1). }
    rewrite Sq. reflexivity.
Qed.
End Values.
