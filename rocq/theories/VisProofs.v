(** Row sets as sets of bits. *)
From Coq Require Import ZifyN ZifyNat ZifyBool.
From Verif Require Import Base BitLemmas VisModel VisSpec.
Local Open Scope N_scope.
Ltac Zify.zify_post_hook ::= Z.div_mod_to_equations.

Definition bit (ws : rowset) (r : N) : bool := N.testbit (nth (word_idx r) ws 0) (r mod 64).

Lemma land_pow2_bit : forall w k, negb (N.land w (N.shiftl 1 k) =? 0) = N.testbit w k.
Proof.
  intros w k. rewrite N.shiftl_1_l.
  destruct (N.testbit w k) eqn:T.
  - apply negb_true_iff, N.eqb_neq. intros E.
    assert (X : N.testbit (N.land w (2 ^ k)) k = true) by (rewrite N.land_spec, T, N.pow2_bits_true; reflexivity).
    rewrite E, N.bits_0 in X. discriminate.
  - apply negb_false_iff, N.eqb_eq. apply N.bits_inj_0. intros n. rewrite N.land_spec.
    destruct (N.eq_dec k n) as [<-|D]; [now rewrite T|]. rewrite N.pow2_bits_false by auto. apply andb_false_r.
Qed.

Lemma rs_get_bit : forall ws r, rs_get ws r = bit ws r.
Proof.
  intros ws r. unfold rs_get, bit, bit_mask. destruct (nth_error ws (word_idx r)) as [w|] eqn:E.
  - rewrite land_pow2_bit. now rewrite (nth_error_nth _ _ 0 E).
  - apply nth_error_None in E. rewrite nth_overflow by lia. now rewrite N.bits_0.
Qed.

Lemma nth_update : forall (l : list N) i j a, (i < length l)%nat ->
  nth j (update l i a) 0 = if (j =? i)%nat then a else nth j l 0.
Proof.
  induction l as [|x l IH]; intros i j a H; cbn in H; [lia|].
  destruct i; destruct j; cbn; auto. apply IH. lia.
Qed.

Lemma length_update : forall (l : list N) i a, length (update l i a) = length l.
Proof. induction l as [|x l IH]; intros [|i] a; cbn; auto. Qed.

Lemma nth_nil0 : forall i, nth i (@nil N) 0 = 0.
Proof. destruct i; reflexivity. Qed.

Lemma nth_trim : forall ws i, nth i (trim ws) 0 = nth i ws 0.
Proof.
  induction ws as [|w r IH]; intros i; cbn [trim]; auto.
  destruct (trim r) as [|y r'] eqn:T.
  - assert (Z : forall j, nth j r 0 = 0) by (intros j; rewrite <- IH; apply nth_nil0).
    destruct (w =? 0) eqn:E.
    + apply N.eqb_eq in E. subst w. destruct i; cbn [nth]; auto.
    + destruct i; cbn [nth]; auto. rewrite Z. destruct i; reflexivity.
  - destruct i; cbn [nth]; auto. apply IH.
Qed.

Lemma nth_resize : forall ws n i, nth i (resize ws n) 0 = nth i ws 0.
Proof.
  intros ws n i. unfold resize. destruct (lt_dec i (length ws)).
  - now rewrite app_nth1.
  - rewrite app_nth2 by lia. rewrite (nth_overflow ws) by lia. apply nth_repeat.
Qed.

Lemma length_resize : forall ws n, length (resize ws n) = Nat.max (length ws) n.
Proof. intros ws n. unfold resize. rewrite app_length, repeat_length. lia. Qed.

Lemma row_split : forall r r', word_idx r = word_idx r' -> r mod 64 = r' mod 64 -> r = r'.
Proof. intros r r' H1 H2. unfold word_idx in H1. lia. Qed.

Lemma mod64 : forall r, r mod 64 < 64.
Proof. intros r. apply N.mod_lt. discriminate. Qed.

(** Setting one row. *)
Lemma bit_set : forall ws r h r',
  bit (fst (rs_set ws r h)) r' = if r' =? r then h else bit ws r'.
Proof.
  intros ws r h r'. unfold rs_set.
  destruct (((length ws <=? word_idx r)%nat && negb h)) eqn:E0.
  - apply andb_true_iff in E0. destruct E0 as [L H]. cbn [fst]. destruct h; [discriminate|].
    destruct (r' =? r) eqn:E; auto. apply N.eqb_eq in E. subst r'. unfold bit.
    rewrite nth_overflow by (apply Nat.leb_le in L; lia). now rewrite N.bits_0.
  - set (ws1 := if (length ws <=? word_idx r)%nat then resize ws (S (word_idx r)) else ws).
    assert (N1 : forall i, nth i ws1 0 = nth i ws 0).
    { intros i. unfold ws1. destruct (length ws <=? word_idx r)%nat; auto using nth_resize. }
    assert (L1 : (word_idx r < length ws1)%nat).
    { unfold ws1. destruct (length ws <=? word_idx r)%nat eqn:L; [rewrite length_resize; lia|].
      apply Nat.leb_gt in L. lia. }
    clearbody ws1. cbv zeta. unfold bit_mask. rewrite land_pow2_bit, N1.
    fold (bit ws r).
    destruct (Bool.eqb (bit ws r) h) eqn:B.
    + cbn [fst]. apply eqb_prop in B. unfold bit at 1. rewrite N1. destruct (r' =? r) eqn:E; auto.
      apply N.eqb_eq in E. subst r'. exact B.
    + destruct h; cbn [fst]; unfold bit.
      * rewrite nth_update by auto. destruct (word_idx r' =? word_idx r)%nat eqn:W.
        -- apply Nat.eqb_eq in W. rewrite N.lor_spec, N.shiftl_1_l, ?W.
           destruct (r' =? r) eqn:E.
           ++ apply N.eqb_eq in E. subst r'. rewrite N.pow2_bits_true. apply orb_true_r.
           ++ rewrite N.pow2_bits_false; [apply orb_false_r|].
              intros X. apply N.eqb_neq in E. apply E. apply row_split; auto.
        -- rewrite N1. destruct (r' =? r) eqn:E; auto. apply N.eqb_eq in E. subst r'.
           now rewrite Nat.eqb_refl in W.
      * rewrite nth_trim. rewrite nth_update by auto. destruct (word_idx r' =? word_idx r)%nat eqn:W.
        -- apply Nat.eqb_eq in W. rewrite N.ldiff_spec, N.shiftl_1_l, ?W.
           destruct (r' =? r) eqn:E.
           ++ apply N.eqb_eq in E. subst r'. rewrite N.pow2_bits_true. apply andb_false_r.
           ++ rewrite N.pow2_bits_false; [apply andb_true_r|].
              intros X. apply N.eqb_neq in E. apply E. apply row_split; auto.
        -- rewrite N1. destruct (r' =? r) eqn:E; auto. apply N.eqb_eq in E. subst r'.
           now rewrite Nat.eqb_refl in W.
Qed.

Lemma changed_set : forall ws r h, snd (rs_set ws r h) = negb (Bool.eqb (bit ws r) h).
Proof.
  intros ws r h. unfold rs_set.
  destruct (((length ws <=? word_idx r)%nat && negb h)) eqn:E0.
  - apply andb_true_iff in E0. destruct E0 as [L H]. cbn [snd]. destruct h; [discriminate|].
    unfold bit. rewrite nth_overflow by (apply Nat.leb_le in L; lia). now rewrite N.bits_0.
  - set (ws1 := if (length ws <=? word_idx r)%nat then resize ws (S (word_idx r)) else ws).
    assert (N1 : forall i, nth i ws1 0 = nth i ws 0).
    { intros i. unfold ws1. destruct (length ws <=? word_idx r)%nat; auto using nth_resize. }
    clearbody ws1. cbv zeta. unfold bit_mask. rewrite land_pow2_bit, N1. fold (bit ws r).
    destruct (Bool.eqb (bit ws r) h); [reflexivity|]. destruct h; reflexivity.
Qed.

(** Well-formed: 64-bit words, no trailing zero word. *)
Definition canon (ws : rowset) : Prop :=
  match ws with [] => True | _ => last ws 0 <> 0 end.
Definition wf (ws : rowset) : Prop := Forall (fun w => w < 2 ^ 64) ws /\ canon ws.

Lemma trim_canon : forall ws, canon (trim ws).
Proof.
  induction ws as [|w r IH]; cbn [trim]; [exact I|].
  destruct (trim r) as [|y r'] eqn:T.
  - destruct (w =? 0) eqn:E; [exact I|]. cbn. apply N.eqb_neq in E. exact E.
  - unfold canon in *. replace (last (w :: y :: r') 0) with (last (y :: r') 0) by reflexivity. exact IH.
Qed.

Lemma trim_forall : forall P ws, Forall P ws -> Forall P (trim ws).
Proof.
  intros P ws. induction 1 as [|w r Hw Hr IH]; cbn [trim]; auto.
  destruct (trim r) as [|y r'] eqn:T; [destruct (w =? 0); auto|]. constructor; auto.
Qed.

Lemma update_forall : forall (P : N -> Prop) ws i a, Forall P ws -> P a -> Forall P (update ws i a).
Proof.
  intros P ws. induction ws as [|w r IH]; intros i a F Pa; cbn; auto.
  inversion F; subst. destruct i; constructor; auto.
Qed.

Lemma resize_forall : forall (P : N -> Prop) ws n, Forall P ws -> P 0 -> Forall P (resize ws n).
Proof.
  intros P ws n F P0. unfold resize. apply Forall_app. split; auto.
  apply Forall_forall. intros x H. apply repeat_spec in H. now subst.
Qed.

Lemma last_nth : forall (l : list N), last l 0 = nth (length l - 1) l 0.
Proof.
  induction l as [|x [|y l] IH]; [reflexivity|reflexivity|].
  replace (last (x :: y :: l) 0) with (last (y :: l) 0) by reflexivity. rewrite IH.
  cbn [length]. replace (S (S (length l)) - 1)%nat with (S (S (length l) - 1)) by lia. reflexivity.
Qed.

Lemma lor_pow_lt : forall w k, w < 2 ^ 64 -> k < 64 -> N.lor w (N.shiftl 1 k) < 2 ^ 64.
Proof.
  intros w k Hw Hk. rewrite N.shiftl_1_l.
  destruct (N.eq_dec (N.lor w (2 ^ k)) 0) as [E|E]; [rewrite E; reflexivity|].
  apply N.log2_lt_pow2; [lia|]. rewrite N.log2_lor, N.log2_pow2 by lia.
  apply N.max_lub_lt; auto. destruct (N.eq_dec w 0) as [->|]; [reflexivity|]. apply N.log2_lt_pow2; lia.
Qed.

Lemma ldiff_le : forall a b, N.ldiff a b <= a.
Proof.
  intros a b.
  assert (D : N.land (N.ldiff a b) (N.land a b) = 0).
  { apply N.bits_inj_0. intros n. rewrite !N.land_spec, N.ldiff_spec.
    destruct (N.testbit a n), (N.testbit b n); reflexivity. }
  assert (S : a = N.ldiff a b + N.land a b).
  { rewrite (N.add_nocarry_lxor _ _ D). apply N.bits_inj. intros n.
    rewrite N.lxor_spec, N.ldiff_spec, N.land_spec. destruct (N.testbit a n), (N.testbit b n); reflexivity. }
  lia.
Qed.

Lemma wf_set : forall ws r h, wf ws -> wf (fst (rs_set ws r h)).
Proof.
  intros ws r h [F C]. unfold rs_set.
  destruct (((length ws <=? word_idx r)%nat && negb h)) eqn:E0; [split; auto|].
  set (ws1 := if (length ws <=? word_idx r)%nat then resize ws (S (word_idx r)) else ws).
  assert (N1 : forall i, nth i ws1 0 = nth i ws 0).
  { intros i. unfold ws1. destruct (length ws <=? word_idx r)%nat; auto using nth_resize. }
  assert (F1 : Forall (fun w => w < 2 ^ 64) ws1).
  { unfold ws1. destruct (length ws <=? word_idx r)%nat; auto. apply resize_forall; auto. reflexivity. }
  assert (L1 : (word_idx r < length ws1)%nat).
  { unfold ws1. destruct (length ws <=? word_idx r)%nat eqn:L; [rewrite length_resize; lia|].
    apply Nat.leb_gt in L. lia. }
  cbv zeta. unfold bit_mask. rewrite land_pow2_bit. rewrite N1. fold (bit ws r).
  assert (W : nth (word_idx r) ws 0 < 2 ^ 64).
  { rewrite <- N1. rewrite Forall_forall in F1. apply F1. now apply nth_In. }
  destruct (Bool.eqb (bit ws r) h) eqn:B.
  - cbn [fst]. split; auto. unfold ws1. destruct (length ws <=? word_idx r)%nat eqn:L; auto.
    exfalso. destruct h; [|discriminate]. apply eqb_prop in B. unfold bit in B.
    rewrite nth_overflow, N.bits_0 in B by (apply Nat.leb_le in L; lia). discriminate.
  - destruct h; cbn [fst].
    + split; [apply update_forall; auto; apply lor_pow_lt; auto using mod64|].
      unfold canon. destruct (update ws1 (word_idx r) _) as [|y l] eqn:U; auto. rewrite <- U.
      rewrite last_nth, length_update, nth_update by auto.
      destruct (length ws1 - 1 =? word_idx r)%nat eqn:E.
      * intros X. apply N.lor_eq_0_iff in X. destruct X as [_ X]. rewrite N.shiftl_1_l in X.
        apply N.pow_nonzero in X; auto. discriminate.
      * apply Nat.eqb_neq in E. rewrite N1.
        assert (L2 : (length ws <=? word_idx r)%nat = false).
        { destruct (length ws <=? word_idx r)%nat eqn:L; auto. exfalso. apply Nat.leb_le in L.
          unfold ws1 in E, L1. replace (length ws <=? word_idx r)%nat with true in * by (symmetry; now apply Nat.leb_le).
          rewrite length_resize in *. lia. }
        assert (EW : ws1 = ws) by (unfold ws1; now rewrite L2).
        rewrite EW, <- last_nth. destruct ws; [cbn in L2; discriminate|]. exact C.
    + split; [|apply trim_canon]. apply trim_forall, update_forall; auto.
      eapply N.le_lt_trans; [apply ldiff_le|exact W].
Qed.

(** Ranges. *)
Lemma bit_set_loop : forall n ws a h c r,
  bit (fst (set_loop ws a n h c)) r =
  if (a <=? r) && (r <? a + N.of_nat n) then h else bit ws r.
Proof.
  induction n as [|n IH]; intros ws a h c r; cbn [set_loop].
  - replace ((a <=? r) && (r <? a + N.of_nat 0)) with false by lia. reflexivity.
  - destruct (rs_set ws a h) as [ws' c'] eqn:SE. rewrite IH.
    assert (B : bit ws' r = if r =? a then h else bit ws r).
    { rewrite <- bit_set. now rewrite SE. }
    rewrite B.
    destruct ((a + 1 <=? r) && (r <? a + 1 + N.of_nat n)) eqn:E1;
    destruct ((a <=? r) && (r <? a + N.of_nat (S n))) eqn:E2; auto;
    destruct (r =? a) eqn:E3; auto; lia.
Qed.

Lemma wf_set_loop : forall n ws a h c, wf ws -> wf (fst (set_loop ws a n h c)).
Proof.
  induction n as [|n IH]; intros ws a h c W; cbn [set_loop]; auto.
  destruct (rs_set ws a h) as [ws' c'] eqn:SE. apply IH.
  replace ws' with (fst (rs_set ws a h)) by now rewrite SE. now apply wf_set.
Qed.

Lemma changed_set_loop : forall n ws a h c,
  snd (set_loop ws a n h c) = true <->
  (c = true \/ exists r, a <= r < a + N.of_nat n /\ bit ws r <> h).
Proof.
  induction n as [|n IH]; intros ws a h c; cbn [set_loop].
  - cbn [snd]. split; auto. intros [?|(r & Hr & _)]; auto. lia.
  - destruct (rs_set ws a h) as [ws' c'] eqn:SE. rewrite IH.
    assert (B : forall r, bit ws' r = if r =? a then h else bit ws r).
    { intros r. rewrite <- bit_set. now rewrite SE. }
    assert (Cc : c' = negb (Bool.eqb (bit ws a) h)) by (rewrite <- changed_set; now rewrite SE).
    rewrite orb_true_iff. split.
    + intros [[H|H]|(r & Hr & D)]; auto.
      * right. exists a. split; [lia|]. rewrite Cc in H. destruct (bit ws a), h; cbn in H; congruence.
      * right. exists r. split; [lia|]. rewrite B in D. destruct (r =? a) eqn:E; auto.
    + intros [H|(r & Hr & D)]; auto. destruct (N.eq_dec r a) as [->|Ne].
      * left. right. rewrite Cc. destruct (bit ws a), h; cbn; congruence.
      * right. exists r. split; [lia|]. rewrite B. destruct (r =? a) eqn:E; auto. lia.
Qed.

Lemma bit_set_range : forall ws a b h r, bit (fst (rs_set_range ws a b h)) r = spec_range (bit ws) a b h r.
Proof.
  intros ws a b h r. unfold rs_set_range, spec_range. destruct (b <? a) eqn:E.
  - cbn [fst]. replace ((a <=? r) && (r <=? b)) with false by lia. reflexivity.
  - rewrite bit_set_loop. replace (a + N.of_nat (N.to_nat (b - a + 1))) with (b + 1) by lia.
    destruct ((a <=? r) && (r <? b + 1)) eqn:E1; destruct ((a <=? r) && (r <=? b)) eqn:E2; auto; lia.
Qed.

(** Enumerating set bits. *)
Lemma testbit_double : forall a k, N.testbit (2 * a) k = negb (k =? 0) && N.testbit a (N.pred k).
Proof.
  intros a k. destruct (N.eq_dec k 0) as [->|Ne]; [apply N.testbit_even_0|].
  replace k with (N.succ (N.pred k)) at 1 by lia. rewrite N.testbit_even_succ by lia.
  now replace (k =? 0) with false by lia.
Qed.

Lemma testbit_sdouble : forall a k, N.testbit (2 * a + 1) k = (k =? 0) || N.testbit a (N.pred k).
Proof.
  intros a k. destruct (N.eq_dec k 0) as [->|Ne]; [rewrite N.testbit_odd_0; reflexivity|].
  replace k with (N.succ (N.pred k)) at 1 by lia. rewrite N.testbit_odd_succ by lia.
  now replace (k =? 0) with false by lia.
Qed.

Lemma ctz_bit : forall p, N.testbit (Npos p) (ctz p) = true.
Proof.
  induction p as [p IH|p IH|]; cbn [ctz]; try reflexivity.
  change (N.pos p~0) with (2 * N.pos p). rewrite testbit_double.
  replace (N.pred (1 + ctz p)) with (ctz p) by lia. rewrite IH.
  now replace (1 + ctz p =? 0) with false by lia.
Qed.

Lemma clear_lowest : forall p k,
  N.testbit (N.land (Npos p) (Npos p - 1)) k = N.testbit (Npos p) k && negb (k =? ctz p).
Proof.
  induction p as [p IH|p IH|]; intros k.
  - change (N.pos p~1) with (2 * N.pos p + 1). replace (2 * N.pos p + 1 - 1) with (2 * N.pos p) by lia.
    rewrite N.land_spec, testbit_sdouble, testbit_double. cbn [ctz].
    destruct (k =? 0); cbn [negb andb orb]; [reflexivity|]. destruct (N.testbit (N.pos p) (N.pred k)); reflexivity.
  - change (N.pos p~0) with (2 * N.pos p). replace (2 * N.pos p - 1) with (2 * (N.pos p - 1) + 1) by lia.
    rewrite N.land_spec, testbit_sdouble, testbit_double. cbn [ctz].
    specialize (IH (N.pred k)). rewrite N.land_spec in IH.
    destruct (k =? 0) eqn:E; cbn [negb andb orb]; [reflexivity|].
    rewrite IH. f_equal. f_equal. destruct (N.pred k =? ctz p) eqn:E1; destruct (k =? 1 + ctz p) eqn:E2; auto; lia.
  - cbn [ctz]. replace (N.land 1 (1 - 1)) with 0 by reflexivity. rewrite N.bits_0.
    destruct (N.eq_dec k 0) as [->|Ne]; [reflexivity|]. change 1 with (2 * 0 + 1) at 1. rewrite testbit_sdouble.
    replace (k =? 0) with false by lia. now rewrite N.bits_0.
Qed.

Lemma ctz_lt : forall p k, Npos p < 2 ^ k -> ctz p < k.
Proof.
  intros p k H. destruct (N.lt_ge_cases (ctz p) k) as [L|G]; auto. exfalso.
  pose proof (ctz_bit p) as T. rewrite (testbit_small (Npos p) k) in T; [discriminate|auto|auto].
Qed.

(** Number of set bits below [k], as a fuel bound. *)
Fixpoint popc (n : nat) (b : N) : nat :=
  match n with O => O | S k => ((if N.testbit b (N.of_nat k) then 1 else 0) + popc k b)%nat end.

Lemma popc_le : forall n b, (popc n b <= n)%nat.
Proof. induction n as [|n IH]; intros b; cbn; auto. specialize (IH b). destruct (N.testbit b (N.of_nat n)); lia. Qed.

Lemma popc_ext : forall n a b, (forall k, k < N.of_nat n -> N.testbit a k = N.testbit b k) -> popc n a = popc n b.
Proof.
  induction n as [|n IH]; intros a b H; cbn; auto. rewrite H by lia. f_equal. apply IH. intros k Hk. apply H. lia.
Qed.

Lemma popc_clear : forall n a b j, j < N.of_nat n -> N.testbit a j = true ->
  (forall k, N.testbit b k = N.testbit a k && negb (k =? j)) -> (popc n b < popc n a)%nat.
Proof.
  induction n as [|n IH]; intros a b j Hj Ta Hb; [lia|]. cbn.
  destruct (N.eq_dec j (N.of_nat n)) as [->|Ne].
  - rewrite Hb, Ta, N.eqb_refl. cbn.
    assert (popc n b = popc n a); [|lia]. apply popc_ext. intros k Hk. rewrite Hb.
    replace (k =? N.of_nat n) with false by lia. apply andb_true_r.
  - assert (popc n b < popc n a)%nat by (apply (IH a b j); auto; lia).
    rewrite Hb. replace (N.of_nat n =? j) with false by lia. rewrite andb_true_r. lia.
Qed.

Lemma word_rows_In : forall fuel base b, b < 2 ^ 64 -> (popc 64 b <= fuel)%nat ->
  forall r, In r (word_rows fuel base b) <-> (base <= r /\ N.testbit b (r - base) = true).
Proof.
  induction fuel as [|f IH]; intros base b Hb Hp r.
  - assert (b = 0).
    { destruct b as [|p]; auto. exfalso.
      pose proof (popc_clear 64 (Npos p) (N.land (Npos p) (Npos p - 1)) (ctz p)
         (ctz_lt p 64 Hb) (ctz_bit p) (clear_lowest p)). lia. }
    subst b. cbn [word_rows In]. rewrite N.bits_0. split; [tauto|intros [_ ?]; discriminate].
  - destruct b as [|p].
    + cbn [word_rows In]. rewrite N.bits_0. split; [tauto|intros [_ ?]; discriminate].
    + cbn [word_rows In].
      pose proof (popc_clear 64 (Npos p) (N.land (Npos p) (Npos p - 1)) (ctz p)
         (ctz_lt p 64 Hb) (ctz_bit p) (clear_lowest p)) as PC.
      rewrite IH; [| |lia].
      * rewrite clear_lowest. split.
        -- intros [<-|[L T]].
           ++ split; [lia|]. replace (base + ctz p - base) with (ctz p) by lia. apply ctz_bit.
           ++ apply andb_true_iff in T. tauto.
        -- intros [L T]. destruct (N.eq_dec (r - base) (ctz p)) as [E|E]; [left; lia|right].
           split; auto. rewrite T. now replace (r - base =? ctz p) with false by lia.
      * eapply N.le_lt_trans; [|exact Hb]. rewrite N.land_comm. 
        assert (X : forall a c, N.land a c <= c).
        { intros a c. assert (Y : c = N.land a c + N.ldiff c a).
          { assert (D : N.land (N.land a c) (N.ldiff c a) = 0).
            { apply N.bits_inj_0. intros n. rewrite !N.land_spec, N.ldiff_spec.
              destruct (N.testbit a n), (N.testbit c n); reflexivity. }
            rewrite (N.add_nocarry_lxor _ _ D). apply N.bits_inj. intros n.
            rewrite N.lxor_spec, N.ldiff_spec, N.land_spec. destruct (N.testbit a n), (N.testbit c n); reflexivity. }
          lia. }
        apply X.
Qed.

Lemma collect_from_In : forall ws i r, Forall (fun w => w < 2 ^ 64) ws ->
  (In r (collect_from i ws) <->
   (i * 64 <= r /\ N.testbit (nth (N.to_nat (r / 64 - i)) ws 0) (r mod 64) = true)).
Proof.
  induction ws as [|w ws IH]; intros i r F; cbn [collect_from].
  - split; [intros []|]. intros [_ T]. rewrite nth_nil0, N.bits_0 in T; discriminate.
  - inversion F; subst. rewrite in_app_iff, word_rows_In by (auto; apply popc_le). rewrite IH by auto.
    split.
    + intros [[L T]|[L T]].
      * assert (r - i * 64 < 64).
        { destruct (N.lt_ge_cases (r - i * 64) 64) as [|G]; auto.
          rewrite (testbit_small w 64) in T; [discriminate|auto|auto]. }
        split; auto. replace (N.to_nat (r / 64 - i)) with 0%nat by lia. cbn [nth].
        replace (r mod 64) with (r - i * 64) by lia. exact T.
      * split; [lia|]. replace (N.to_nat (r / 64 - i)) with (S (N.to_nat (r / 64 - (i + 1)))) by lia. exact T.
    + intros [L T]. destruct (N.eq_dec (r / 64) i) as [E|E].
      * left. split; auto. replace (N.to_nat (r / 64 - i)) with 0%nat in T by lia. cbn [nth] in T.
        replace (r - i * 64) with (r mod 64) by lia. exact T.
      * right. split; [lia|]. replace (N.to_nat (r / 64 - i)) with (S (N.to_nat (r / 64 - (i + 1)))) in T by lia.
        exact T.
Qed.

Lemma collect_In : forall ws r, wf ws -> (In r (collect_set_rows ws) <-> bit ws r = true).
Proof.
  intros ws r [F _]. unfold collect_set_rows. rewrite collect_from_In by auto. unfold bit, word_idx.
  replace (r / 64 - 0) with (r / 64) by lia. split; [tauto|]. intros T; split; [lia|auto].
Qed.

Lemma rebuild_gen : forall rows ws, wf ws ->
  wf (fold_left (fun ws r => fst (rs_set ws r true)) rows ws) /\
  forall r, bit (fold_left (fun ws r => fst (rs_set ws r true)) rows ws) r = bit ws r || existsb (N.eqb r) rows.
Proof.
  induction rows as [|x rows IH]; intros ws W; cbn [fold_left existsb].
  - split; auto. intros r. now rewrite orb_false_r.
  - destruct (IH (fst (rs_set ws x true)) (wf_set ws x true W)) as [W' B]. split; auto.
    intros r. rewrite B, bit_set. destruct (r =? x); cbn [orb]; [now rewrite orb_true_r|reflexivity].
Qed.

Lemma wf_nil : wf []. Proof. split; [constructor|exact I]. Qed.
Lemma bit_nil : forall r, bit [] r = false.
Proof. intros r. unfold bit. destruct (word_idx r); apply N.bits_0. Qed.

Lemma rebuild_spec : forall rows, wf (rebuild rows) /\
  forall r, bit (rebuild rows) r = existsb (N.eqb r) rows.
Proof.
  intros rows. destruct (rebuild_gen rows [] wf_nil) as [W B]. split; auto.
  intros r. unfold rebuild. rewrite B, bit_nil. reflexivity.
Qed.

Definition bounded (ws : rowset) : Prop := forall r, bit ws r = true -> r <= U32MAX.

Lemma existsb_eq : forall r l, existsb (N.eqb r) l = true <-> In r l.
Proof.
  intros r l. rewrite existsb_exists. split.
  - intros (x & I & E). apply N.eqb_eq in E. now subst.
  - intros I. exists r. split; auto. apply N.eqb_refl.
Qed.

Lemma bool_eq_iff : forall a b : bool, (a = true <-> b = true) -> a = b.
Proof. intros [] [] H; intuition congruence. Qed.

(** Insertion in full, saturation included. *)
Lemma insert_bits : forall ws b c r, wf ws ->
  bit (fst (rs_insert ws b c)) r = true <->
  exists q, bit ws q = true /\ r = (if (b <=? q) && negb (c =? 0) then N.min (q + c) U32MAX else q).
Proof.
  intros ws b c r W. unfold rs_insert. destruct (c =? 0) eqn:C0.
  - cbn [fst]. split; [intros H; exists r; rewrite andb_false_r; auto|].
    intros (q & H & E). rewrite andb_false_r in E. now subst.
  - cbn [negb]. pose proof (fun r => collect_In ws r W) as CI.
    destruct (collect_set_rows ws) as [|x l] eqn:CE.
    + cbn [fst]. split; [intros H; apply CI in H; destruct H|].
      intros (q & H & _). apply CI in H. destruct H.
    + rewrite <- CE in *. clear CE x l. set (rows := collect_set_rows ws) in *.
      destruct (existsb (fun r0 => b <=? r0) rows) eqn:EX; cbn [fst].
      * destruct (rebuild_spec (map (fun r0 => if b <=? r0 then sat_add r0 c else r0) rows)) as [_ B].
        rewrite B, existsb_eq, in_map_iff. split.
        -- intros (q & E & I). exists q. split; [now apply CI|]. rewrite andb_true_r. unfold sat_add in E. auto.
        -- intros (q & H & E). exists q. rewrite andb_true_r in E. split; [unfold sat_add; auto|now apply CI].
      * assert (NB : forall q, bit ws q = true -> (b <=? q) = false).
        { intros q H. apply CI in H. destruct (b <=? q) eqn:Q; auto.
          assert (X : existsb (fun r0 => b <=? r0) rows = true) by (apply existsb_exists; eauto). congruence. }
        split.
        -- intros H. exists r. rewrite (NB r H). auto.
        -- intros (q & H & E). rewrite (NB q H) in E. cbn in E. now subst.
Qed.

Lemma insert_exact : forall ws b c r, wf ws ->
  (forall q, bit ws q = true -> b <= q -> q + c <= U32MAX) ->
  bit (fst (rs_insert ws b c)) r = spec_insert (bit ws) b c r.
Proof.
  intros ws b c r W NS. apply bool_eq_iff. rewrite (insert_bits ws b c r W). unfold spec_insert. split.
  - intros (q & H & ->). destruct (b <=? q) eqn:E; cbn [andb].
    + specialize (NS q H ltac:(lia)). destruct (c =? 0) eqn:C0; cbn [negb].
      * apply N.eqb_eq in C0. subst c. replace (q <? b) with false by lia. replace (q <? b + 0) with false by lia.
        now rewrite N.sub_0_r.
      * rewrite N.min_l by auto. replace (q + c <? b) with false by lia. replace (q + c <? b + c) with false by lia.
        now replace (q + c - c) with q by lia.
    + now replace (q <? b) with true by lia.
  - destruct (r <? b) eqn:E.
    + intros H. exists r. now replace (b <=? r) with false by lia.
    + destruct (r <? b + c) eqn:E2; [discriminate|]. intros H. exists (r - c). split; auto.
      replace (b <=? r - c) with true by lia. cbn [andb].
      destruct (c =? 0) eqn:C0; cbn [negb]; [lia|]. specialize (NS _ H ltac:(lia)). lia.
Qed.

Definition del_row (a c q : N) : list N :=
  if q <? a then [q] else if q <=? sat_add a (c - 1) then [] else [q - c].

Lemma del_row_In : forall a c q r, q <= U32MAX -> c <> 0 ->
  (In r (del_row a c q) <-> q = if r <? a then r else r + c).
Proof.
  intros a c q r Hq Hc. unfold del_row, sat_add. generalize dependent U32MAX. intros M Hq.
  destruct (q <? a) eqn:E1; [cbn [In]; destruct (r <? a) eqn:E2; split; intros H; intuition (try lia)|].
  destruct (q <=? N.min (a + (c - 1)) M) eqn:E3; cbn [In]; destruct (r <? a) eqn:E2; split; intros H; intuition (try lia).
Qed.

Lemma delete_exact : forall ws a c r, wf ws -> bounded ws ->
  bit (fst (rs_delete ws a c)) r = spec_delete (bit ws) a c r.
Proof.
  intros ws a c r W BD. unfold rs_delete, spec_delete. destruct (c =? 0) eqn:C0.
  - cbn [fst]. apply N.eqb_eq in C0. subst c. rewrite N.add_0_r. now destruct (r <? a).
  - pose proof (fun r => collect_In ws r W) as CI.
    destruct (collect_set_rows ws) as [|x l] eqn:CE.
    + cbn [fst]. assert (Z : forall q, bit ws q = false).
      { intros q. destruct (bit ws q) eqn:H; auto. apply CI in H. destruct H. }
      now rewrite !Z; destruct (r <? a).
    + rewrite <- CE in *. clear CE x l. set (rows := collect_set_rows ws) in *.
      destruct (existsb (fun r0 => a <=? r0) rows) eqn:EX; cbn [fst].
      * match goal with |- bit (rebuild ?rs) _ = _ => destruct (rebuild_spec rs) as [_ B] end.
        rewrite B. apply bool_eq_iff. rewrite existsb_eq, in_flat_map. split.
        -- intros (q & I & E). apply CI in I. apply (del_row_In a c q r (BD q I)) in E; [|lia].
           subst q. now destruct (r <? a).
        -- intros H. exists (if r <? a then r else r + c).
           assert (H' : bit ws (if r <? a then r else r + c) = true) by now destruct (r <? a).
           split; [now apply CI|]. apply (del_row_In a c _ r (BD _ H')); [lia|reflexivity].
      * assert (NB : forall q, bit ws q = true -> (a <=? q) = false).
        { intros q H. apply CI in H. destruct (a <=? q) eqn:Q; auto.
          assert (X : existsb (fun r0 => a <=? r0) rows = true) by (apply existsb_exists; eauto). congruence. }
        destruct (r <? a) eqn:E1; auto.
        destruct (bit ws r) eqn:B1; [specialize (NB r B1); lia|].
        destruct (bit ws (r + c)) eqn:B2; [specialize (NB _ B2); lia|reflexivity].
Qed.

Lemma wf_insert : forall ws b c, wf ws -> wf (fst (rs_insert ws b c)).
Proof.
  intros ws b c W. unfold rs_insert. destruct (c =? 0); auto. destruct (collect_set_rows ws) as [|x l]; auto.
  destruct (existsb _ _); auto. apply rebuild_spec.
Qed.
Lemma wf_delete : forall ws b c, wf ws -> wf (fst (rs_delete ws b c)).
Proof.
  intros ws b c W. unfold rs_delete. destruct (c =? 0); auto. destruct (collect_set_rows ws) as [|x l]; auto.
  destruct (existsb _ _); auto. apply rebuild_spec.
Qed.

(** When an insertion or deletion reports a change. *)
Lemma changed_insert : forall ws b c, wf ws ->
  (snd (rs_insert ws b c) = true <-> c <> 0 /\ exists q, bit ws q = true /\ b <= q).
Proof.
  intros ws b c W. unfold rs_insert. destruct (c =? 0) eqn:C0.
  - cbn [snd]. split; [discriminate|]. intros [X _]. lia.
  - pose proof (fun r => collect_In ws r W) as CI.
    destruct (collect_set_rows ws) as [|x l] eqn:CE.
    + cbn [snd]. split; [discriminate|]. intros [_ (q & H & _)]. apply CI in H. destruct H.
    + rewrite <- CE in *. destruct (existsb (fun r0 => b <=? r0) (collect_set_rows ws)) eqn:EX; cbn [snd].
      * apply existsb_exists in EX. destruct EX as (q & I & L). split; [|reflexivity]. intros _. split; [lia|].
        exists q. split; [now apply CI|lia].
      * split; [discriminate|]. intros [_ (q & H & L)]. apply CI in H.
        assert (X : existsb (fun r0 => b <=? r0) (collect_set_rows ws) = true) by (apply existsb_exists; exists q; split; auto; lia).
        congruence.
Qed.
Lemma changed_delete : forall ws a c, wf ws ->
  (snd (rs_delete ws a c) = true <-> c <> 0 /\ exists q, bit ws q = true /\ a <= q).
Proof.
  intros ws b c W. unfold rs_delete. destruct (c =? 0) eqn:C0.
  - cbn [snd]. split; [discriminate|]. intros [X _]. lia.
  - pose proof (fun r => collect_In ws r W) as CI.
    destruct (collect_set_rows ws) as [|x l] eqn:CE.
    + cbn [snd]. split; [discriminate|]. intros [_ (q & H & _)]. apply CI in H. destruct H.
    + rewrite <- CE in *. destruct (existsb (fun r0 => b <=? r0) (collect_set_rows ws)) eqn:EX; cbn [snd].
      * apply existsb_exists in EX. destruct EX as (q & I & L). split; [|reflexivity]. intros _. split; [lia|].
        exists q. split; [now apply CI|lia].
      * split; [discriminate|]. intros [_ (q & H & L)]. apply CI in H.
        assert (X : existsb (fun r0 => b <=? r0) (collect_set_rows ws) = true) by (apply existsb_exists; exists q; split; auto; lia).
        congruence.
Qed.
