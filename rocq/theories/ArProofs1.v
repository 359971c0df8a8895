(** Packed references, prefixes and what every call keeps. *)
From Coq Require Import List Bool NArith ZArith Lia ZifyN ZifyNat ZifyBool.
From Verif Require Import Base Maps LexModel RtModel InternModel InternProofs SheetModel ArModel ArSpec.
Import ListNotations.
Open Scope N_scope.

(** * Packed references *)
Lemma shl28 t : N.shiftl t 28 = t * 2 ^ 28. Proof. apply N.shiftl_mul_pow2. Qed.
Lemma mask_mod r : N.land r PAYLOAD_MASK = r mod 2 ^ 28.
Proof. change PAYLOAD_MASK with (N.ones 28). apply N.land_ones. Qed.
Lemma payload_pack t p : p <= PAYLOAD_MASK -> payload (pack t p) = p.
Proof.
  intros H. unfold payload, pack. rewrite N.land_lor_distr_l, !mask_mod, shl28, N.mod_mul by discriminate.
  rewrite N.lor_0_l. apply N.mod_small. unfold PAYLOAD_MASK in H. change (2 ^ 28) with 268435456. lia.
Qed.
Lemma type_mask r : r < 2 ^ 32 -> N.shiftr (N.land r TYPE_MASK) 28 = N.shiftr r 28.
Proof.
  intros H. rewrite N.shiftr_land. change (N.shiftr TYPE_MASK 28) with (N.ones 4). rewrite N.land_ones.
  apply N.mod_small. rewrite N.shiftr_div_pow2. apply N.div_lt_upper_bound; [discriminate|]. exact H.
Qed.
Lemma tag_pack t p : t <= T_AST -> p <= PAYLOAD_MASK -> tag (pack t p) = t.
Proof.
  intros Ht Hp. unfold tag, pack, PAYLOAD_MASK, T_AST in *.
  assert (L : N.shiftr p 28 = 0).
  { rewrite N.shiftr_div_pow2. apply N.div_small. change (2 ^ 28) with 268435456. lia. }
  rewrite N.shiftr_land, N.shiftr_lor, L, N.lor_0_r, N.shiftr_shiftl_l, N.sub_diag, N.shiftl_0_r by lia.
  change (N.shiftr TYPE_MASK 28) with (N.ones 4). rewrite N.land_ones, N.mod_small by (change (2 ^ 4) with 16; lia).
  destruct (t <=? 11) eqn:E; [reflexivity | lia].
Qed.
Lemma pack_index_some t i r : pack_index t i = Some r -> i <= PAYLOAD_MASK /\ r = pack t i.
Proof. unfold pack_index. destruct (i <=? PAYLOAD_MASK) eqn:E; [|discriminate]. intros H. split; [lia | congruence]. Qed.
Lemma pack_index_ok t i : i <= PAYLOAD_MASK -> pack_index t i = Some (pack t i).
Proof. intros H. unfold pack_index. destruct (i <=? PAYLOAD_MASK) eqn:E; [reflexivity | lia]. Qed.

Lemma as_i32_id z : (- 2 ^ 31 <= z < 2 ^ 31)%Z -> as_i32 z = z.
Proof.
  intros H. unfold as_i32. change (2 ^ 31)%Z with 2147483648%Z in *. change (2 ^ 32)%Z with 4294967296%Z.
  cbv zeta. destruct (Z_lt_le_dec z 0) as [L | L].
  - rewrite <- (Z.mod_unique z 4294967296 (-1) (z + 4294967296)) by lia.
    destruct (z + 4294967296 <? 2147483648)%Z eqn:E; lia.
  - rewrite Z.mod_small by lia. destruct (z <? 2147483648)%Z eqn:E; lia.
Qed.
Lemma small_some z : (- 2 ^ 27 <= z < 2 ^ 27)%Z -> small_int z = Some (pack T_SMALL (N.land (z_as_u32 z) PAYLOAD_MASK)).
Proof.
  intros H. unfold small_int. destruct ((- 2 ^ 27 <=? z) && (z <=? 2 ^ 27 - 1))%Z eqn:E; [reflexivity | lia].
Qed.
Lemma masked_ok r : N.land r PAYLOAD_MASK <= PAYLOAD_MASK.
Proof.
  rewrite mask_mod. pose proof (N.mod_lt r (2 ^ 28)) as H. unfold PAYLOAD_MASK.
  change (2 ^ 28) with 268435456 in *. specialize (H ltac:(discriminate)). lia.
Qed.
Lemma sign_bit p : p < 2 ^ 28 -> (N.land p (2 ^ 27) =? 0) = (p <? 2 ^ 27).
Proof.
  intros H. change (2 ^ 28) with 268435456 in H.
  assert (E : N.land p (2 ^ 27) = if N.testbit p 27 then 2 ^ 27 else 0).
  { apply N.bits_inj. intros i. rewrite N.land_spec, N.pow2_bits_eqb.
    destruct (N.eqb_spec 27 i) as [<- |]; [|rewrite andb_false_r].
    - rewrite andb_true_r. destruct (N.testbit p 27) eqn:B; [symmetry; apply N.pow2_bits_true | symmetry; apply N.bits_0].
    - destruct (N.testbit p 27); [symmetry; apply N.pow2_bits_false; congruence | symmetry; apply N.bits_0]. }
  rewrite E. rewrite N.testbit_eqb. change (2 ^ 27) with 134217728.
  destruct (N.ltb_spec p 134217728) as [L | L].
  - rewrite N.div_small by lia. reflexivity.
  - assert (Q : p / 134217728 = 1).
    { symmetry. apply (N.div_unique p 134217728 1 (p - 134217728)); lia. }
    rewrite Q. reflexivity.
Qed.
Lemma lor_disjoint p : p < 2 ^ 28 -> N.lor p TYPE_MASK = p + TYPE_MASK.
Proof.
  intros H. assert (D : N.land p TYPE_MASK = 0).
  { apply N.bits_inj. intros i. rewrite N.land_spec, N.bits_0. destruct (N.ltb_spec i 28) as [L | L].
    - change TYPE_MASK with (N.shiftl 15 28). rewrite N.shiftl_spec_low by exact L. apply andb_false_r.
    - destruct (N.eq_dec p 0) as [-> | P]; [now rewrite N.bits_0|].
      rewrite N.bits_above_log2; [reflexivity|]. assert (N.log2 p < 28) by (apply N.log2_lt_pow2; lia). lia. }
  rewrite <- N.lxor_lor by exact D. symmetry. apply N.add_nocarry_lxor. exact D.
Qed.
Lemma small_back z : (- 2 ^ 27 <= z < 2 ^ 27)%Z -> as_small_int (pack T_SMALL (N.land (z_as_u32 z) PAYLOAD_MASK)) = z.
Proof.
  intros H. unfold as_small_int. cbv zeta. rewrite payload_pack by apply masked_ok. rewrite mask_mod.
  change (2 ^ 27)%Z with 134217728%Z in H. unfold z_as_u32. change (2 ^ 32)%Z with 4294967296%Z.
  destruct (Z_lt_le_dec z 0) as [L | L].
  - rewrite <- (Z.mod_unique z 4294967296 (-1) (z + 4294967296)) by lia.
    assert (E : Z.to_N (z + 4294967296) mod 2 ^ 28 = Z.to_N (z + 268435456)).
    { symmetry. apply (N.mod_unique _ _ 15); change (2 ^ 28) with 268435456; lia. }
    rewrite E. rewrite sign_bit by (change (2 ^ 28) with 268435456; lia).
    change (2 ^ 27) with 134217728. destruct (Z.to_N (z + 268435456) <? 134217728) eqn:B; [lia|].
    rewrite lor_disjoint by (change (2 ^ 28) with 268435456; lia). unfold TYPE_MASK, as_i32. cbv zeta.
    change (2 ^ 32)%Z with 4294967296%Z. change (2 ^ 31)%Z with 2147483648%Z.
    rewrite Z.mod_small by lia. destruct (Z.of_N (Z.to_N (z + 268435456) + 4026531840) <? 2147483648)%Z eqn:C; lia.
  - rewrite Z.mod_small by lia. rewrite N.mod_small by (change (2 ^ 28) with 268435456; lia).
    rewrite sign_bit by (change (2 ^ 28) with 268435456; lia). change (2 ^ 27) with 134217728.
    destruct (Z.to_N z <? 134217728) eqn:B; lia.
Qed.

(** A scalar index with its bit, scalar.rs *)
Lemma int_bit_off i : i <= INDEX_MASK -> N.land i INT_BIT = 0.
Proof.
  intros H. apply N.bits_inj. intros k. rewrite N.land_spec, N.bits_0. unfold INT_BIT. rewrite N.pow2_bits_eqb.
  destruct (N.eqb_spec 31 k) as [<- |]; [|apply andb_false_r]. rewrite andb_true_r.
  destruct (N.eq_dec i 0) as [-> | P]; [apply N.bits_0|]. apply N.bits_above_log2.
  apply N.log2_lt_pow2; [lia|]. unfold INDEX_MASK in H. change (2 ^ 31) with 2147483648 in *. lia.
Qed.
Lemma int_bit_on i : N.land (N.lor i INT_BIT) INT_BIT = INT_BIT.
Proof. rewrite N.land_comm. apply N.bits_inj. intros k. rewrite N.land_spec, N.lor_spec. destruct (N.testbit INT_BIT k), (N.testbit i k); reflexivity. Qed.
Lemma index_mask_id i : i <= INDEX_MASK -> N.land i INDEX_MASK = i.
Proof.
  intros H. change INDEX_MASK with (N.ones 31). rewrite N.land_ones. apply N.mod_small.
  unfold INDEX_MASK in H. change (2 ^ 31) with 2147483648 in *. lia.
Qed.
Lemma index_mask_int i : i <= INDEX_MASK -> N.land (N.lor i INT_BIT) INDEX_MASK = i.
Proof. intros H. rewrite N.land_lor_distr_l, index_mask_id by exact H. change (N.land INT_BIT INDEX_MASK) with 0. apply N.lor_0_r. Qed.
Lemma payload_small i : i <= PAYLOAD_MASK -> i <= INDEX_MASK.
Proof. unfold PAYLOAD_MASK. change INDEX_MASK with 2147483647. lia. Qed.

(** * Prefixes *)
Definition prefix {A} (l m : list A) : Prop := exists r, m = l ++ r.
Lemma prefix_refl {A} (l : list A) : prefix l l. Proof. exists []. symmetry. apply app_nil_r. Qed.
Lemma prefix_trans {A} (l m k : list A) : prefix l m -> prefix m k -> prefix l k.
Proof. intros (r & ->) (q & ->). exists (r ++ q). symmetry. apply app_assoc. Qed.
Lemma prefix_app {A} (l r : list A) : prefix l (l ++ r). Proof. exists r. reflexivity. Qed.
Lemma prefix_nth {A} (l m : list A) i x : prefix l m -> nth_error l i = Some x -> nth_error m i = Some x.
Proof. intros (r & ->) H. rewrite nth_error_app1; [exact H|]. apply nth_error_Some. congruence. Qed.
Lemma prefix_slice {A} (l m : list A) a b x : prefix l m -> slice l a b = Some x -> slice m a b = Some x.
Proof.
  intros (r & ->). unfold slice. rewrite app_length.
  destruct ((a <=? b) && (b <=? N.of_nat (length l))) eqn:E; [|discriminate]. intros H. injection H as <-.
  destruct ((a <=? b) && (b <=? N.of_nat (length l + length r))) eqn:E2; [|lia]. f_equal.
  rewrite skipn_app. replace (N.to_nat a - length l)%nat with 0%nat by lia. cbn [skipn].
  rewrite firstn_app. replace (N.to_nat (b - a) - length (skipn (N.to_nat a) l))%nat with 0%nat by (rewrite skipn_length; lia).
  cbn [firstn]. apply app_nil_r.
Qed.
Lemma prefix_count {A} (l m : list A) : prefix l m -> count l <= count m.
Proof. intros (r & ->). unfold count. rewrite app_length. lia. Qed.
Lemma prefix_get g h i t : prefix (strings g) (strings h) -> int_get g i = Some t -> int_get h i = Some t.
Proof. intros P. unfold int_get. destruct (i =? INVALID_ID); [auto|]. apply prefix_nth, P. Qed.

Definition ext (s s' : store) : Prop :=
  (prefix (floats (scal s)) (floats (scal s')) /\ prefix (ints (scal s)) (ints (scal s')) /\
   prefix (strings (strs s)) (strings (strs s'))) /\
  (prefix (dims (arrs s)) (dims (arrs s')) /\ prefix (elems (arrs s)) (elems (arrs s')) /\
   prefix (offs (arrs s)) (offs (arrs s'))) /\
  (prefix (errs (ers s)) (errs (ers s')) /\ prefix (strings (estrs (ers s))) (strings (estrs (ers s')))) /\
  (prefix (nodes (tree_arena s)) (nodes (tree_arena s')) /\ prefix (fargs (tree_arena s)) (fargs (tree_arena s')) /\
   prefix (aelems (tree_arena s)) (aelems (tree_arena s')) /\
   prefix (strings (astrs (tree_arena s))) (strings (astrs (tree_arena s'))) /\
   prefix (specs (tree_arena s)) (specs (tree_arena s'))).
Lemma ext_refl s : ext s s.
Proof. repeat split; apply prefix_refl. Qed.
Lemma ext_trans a b c : ext a b -> ext b c -> ext a c.
Proof.
  intros ((A1 & A2 & A3) & (A4 & A5 & A6) & (A7 & A8) & (A9 & A10 & A11 & A12 & A13)).
  intros ((B1 & B2 & B3) & (B4 & B5 & B6) & (B7 & B8) & (B9 & B10 & B11 & B12 & B13)).
  repeat split; eapply prefix_trans; eassumption.
Qed.

(** * What every call keeps *)
Record wf (s : store) : Prop := {
  w_strs : int_reach (strs s);
  w_estrs : int_reach (estrs (ers s));
  w_astrs : int_reach (astrs (tree_arena s));
  w_offs : length (offs (arrs s)) = S (length (dims (arrs s)));
  w_last : nth_error (offs (arrs s)) (length (dims (arrs s))) = Some (trunc_u32 (count (elems (arrs s))));
  w_cache : forall k i, mget ekey_eqb (ecache (ers s)) k = Some i -> count (errs (ers s)) < 2 ^ 32 ->
              nth_error (errs (ers s)) (N.to_nat i) = Some k }.

Lemma wf_empty : wf empty_store.
Proof. split; cbn; try (constructor; fail); try reflexivity. discriminate. Qed.

Lemma intern_prefix g t g' i : intern g t = Ok (g', i) -> prefix (strings g) (strings g').
Proof.
  unfold intern. destruct (mget Maps.text_eqb (lookup g) t); [intros H; injection H as <- _; apply prefix_refl|].
  cbv zeta. destruct (_ <? _); [discriminate|]. intros H. injection H as <- _. apply prefix_app.
Qed.
Lemma interned_spec g t g' i : int_reach g -> interned g t = Some (g', i) ->
  int_reach g' /\ prefix (strings g) (strings g') /\ int_get g' i = Some t.
Proof.
  intros R. unfold interned. destruct (intern g t) as [[h j]| |] eqn:E; try discriminate. intros H. injection H as <- <-.
  split; [econstructor; eassumption|]. split; [exact (intern_prefix _ _ _ _ E)|].
  pose proof (intern_resolve _ _ _ _ R E) as X. unfold int_resolve in X. destruct (int_get h j); [injection X as ->; reflexivity | discriminate].
Qed.
Lemma count_app {A} (l m : list A) : count (l ++ m) = count l + count m.
Proof. unfold count. rewrite app_length. lia. Qed.
Lemma interned_room g t : int_reach g -> count (strings g) <= PAYLOAD_MASK ->
  exists g' i, interned g t = Some (g', i) /\ i <= PAYLOAD_MASK /\ count (strings g') <= count (strings g) + 1.
Proof.
  intros R L. pose proof (int_inv g R) as I. unfold PAYLOAD_MASK, count in *.
  unfold interned. destruct (intern_cases g t I) as [(i & M & E) | [M [[X _] | [_ E]]]]; try (unfold INVALID_ID in *; lia); rewrite E.
  - exists g, i. split; [reflexivity|]. apply (ii_a g I) in M.
    assert (N.to_nat i < length (strings g))%nat by (apply nth_error_Some; congruence). lia.
  - eexists. eexists. split; [reflexivity|]. split; [lia|]. cbn [strings]. rewrite app_length. cbn. lia.
Qed.

Lemma ekey_eqb_spec a b : ekey_eqb a b = true <-> a = b.
Proof.
  destruct a as [k [m|]], b as [j [n|]]; unfold ekey_eqb; cbn [fst snd];
    rewrite ?andb_true_iff, ?N.eqb_eq, ?andb_false_r; split; intros H; try discriminate; try (destruct H; congruence);
    injection H; intros; subst; split; reflexivity.
Qed.
Lemma insert_error_spec e k m e' i :
  int_reach (estrs e) ->
  (forall k i, mget ekey_eqb (ecache e) k = Some i -> count (errs e) < 2 ^ 32 -> nth_error (errs e) (N.to_nat i) = Some k) ->
  insert_error e k m = Some (e', i) ->
  int_reach (estrs e') /\ prefix (errs e) (errs e') /\ prefix (strings (estrs e)) (strings (estrs e')) /\
  (forall k i, mget ekey_eqb (ecache e') k = Some i -> count (errs e') < 2 ^ 32 -> nth_error (errs e') (N.to_nat i) = Some k) /\
  exists id, (count (errs e') < 2 ^ 32 -> nth_error (errs e') (N.to_nat i) = Some (k, id)) /\
    match m with None => id = None | Some t => exists j, id = Some j /\ int_get (estrs e') j = Some t end.
Proof.
  intros R C. unfold insert_error.
  assert (G : forall g id, (match m with None => Some (estrs e, None) | Some t => do (g, i) <- interned (estrs e) t; Some (g, Some i) end) = Some (g, id) ->
    int_reach g /\ prefix (strings (estrs e)) (strings g) /\
    match m with None => id = None | Some t => exists j, id = Some j /\ int_get g j = Some t end).
  { intros g id. destruct m as [t|].
    - destruct (interned (estrs e) t) as [[h j]|] eqn:E; [|discriminate]. intros H. injection H as <- <-.
      destruct (interned_spec _ _ _ _ R E) as (A & B & D). split; [exact A|]. split; [exact B|]. exists j. split; [reflexivity | exact D].
    - intros H. injection H as <- <-. split; [exact R|]. split; [apply prefix_refl | reflexivity]. }
  destruct (match m with None => _ | Some t => _ end) as [[g id]|]; [|discriminate].
  destruct (G g id eq_refl) as (A & B & D). clear G.
  destruct (mget ekey_eqb (ecache e) (k, id)) as [j|] eqn:E; intros H; injection H as <- <-; cbn [errs ecache estrs].
  - split; [exact A|]. split; [apply prefix_refl|]. split; [exact B|]. split; [exact C|]. exists id. split; [exact (C _ _ E) | exact D].
  - split; [exact A|]. split; [apply prefix_app|]. split; [exact B|].
    assert (X : count (errs e ++ [(k, id)]) < 2 ^ 32 ->
              nth_error (errs e ++ [(k, id)]) (N.to_nat (trunc_u32 (N.of_nat (length (errs e))))) = Some (k, id)).
    { intros L. rewrite count_app in L. unfold count in L. cbn in L. unfold trunc_u32, U32. rewrite N.mod_small by lia.
      rewrite Nnat.Nat2N.id, nth_error_app2, Nat.sub_diag by lia. reflexivity. }
    split; [|exists id; split; [exact X | exact D]].
    intros q j F L. destruct (ekey_eqb (k, id) q) eqn:Q.
    + apply ekey_eqb_spec in Q. subst q. rewrite mget_put_same in F by apply ekey_eqb_spec. injection F as <-. exact (X L).
    + assert (Ne : (k, id) <> q) by (intros Y; apply ekey_eqb_spec in Y; congruence).
      rewrite mget_put_other in F by (exact ekey_eqb_spec || exact Ne).
      rewrite count_app in L. apply C in F; [|lia]. exact (prefix_nth _ _ _ _ (prefix_app _ _) F).
Qed.
Lemma insert_error_room e k m : int_reach (estrs e) -> count (strings (estrs e)) <= PAYLOAD_MASK ->
  exists e' i, insert_error e k m = Some (e', i) /\
    count (errs e') + count (strings (estrs e')) <= count (errs e) + count (strings (estrs e)) + 2.
Proof.
  intros R L. unfold insert_error. destruct m as [t|].
  - destruct (interned_room _ t R L) as (g & j & E & _ & K). rewrite E.
    destruct (mget ekey_eqb (ecache e) (k, Some j)); eexists; eexists; (split; [reflexivity|]); cbn [errs estrs]; [lia|].
    rewrite count_app. change (count [(k, Some j)]) with 1. lia.
  - destruct (mget ekey_eqb (ecache e) (k, None)); eexists; eexists; (split; [reflexivity|]); cbn [errs estrs]; [lia|].
    rewrite count_app. change (count [(k, @None N)]) with 1. lia.
Qed.

(** mapM *)
Section MapM.
  Context {St A B : Type}.
  Variables (f : St -> A -> option (St * B)) (I : St -> Prop) (R : St -> St -> Prop).
  Hypothesis Rr : forall s, R s s.
  Hypothesis Rt : forall a b c, R a b -> R b c -> R a c.
  Lemma mapM_keeps l : Forall (fun x => forall s s' y, I s -> f s x = Some (s', y) -> I s' /\ R s s') l ->
    forall s s' ys, I s -> mapM f s l = Some (s', ys) -> I s' /\ R s s'.
  Proof.
    induction 1 as [|x l Hx Hl IH]; intros s s' ys Hs H; cbn in H.
    - injection H as <- <-. split; [exact Hs | apply Rr].
    - destruct (f s x) as [[s1 y]|] eqn:E; [|discriminate]. destruct (Hx _ _ _ Hs E) as (H1 & R1).
      fold (@mapM St A B f) in H. destruct (mapM f s1 l) as [[s2 zs]|] eqn:E2; [|discriminate].
      injection H as <- <-. destruct (IH _ _ _ H1 E2) as (H2 & R2). split; [exact H2 | exact (Rt _ _ _ R1 R2)].
  Qed.
  Variables (W : St -> N) (z : A -> N) (M : N) (Q : A -> B -> St -> Prop).
  Hypothesis Qs : forall x y s s', Q x y s -> R s s' -> Q x y s'.
  Lemma mapM_total l :
    Forall (fun x => forall s, I s -> W s + z x <= M ->
      exists s' y, f s x = Some (s', y) /\ I s' /\ R s s' /\ W s' <= W s + z x /\ Q x y s') l ->
    forall s, I s -> W s + total z l <= M ->
    exists s' ys, mapM f s l = Some (s', ys) /\ I s' /\ R s s' /\ W s' <= W s + total z l /\ Forall2 (fun x y => Q x y s') l ys.
  Proof.
    induction 1 as [|x l Hx Hl IH]; intros s Hs L.
    - exists s, []. cbn. split; [reflexivity|]. split; [exact Hs|]. split; [apply Rr|]. split; [lia | constructor].
    - change (total z (x :: l)) with (z x + total z l) in *. destruct (Hx s Hs) as (s1 & y & E & I1 & R1 & W1 & Q1); [lia|].
      destruct (IH s1 I1) as (s2 & ys & E2 & I2 & R2 & W2 & Q2); [lia|].
      exists s2, (y :: ys). cbn [mapM]. rewrite E. fold (@mapM St A B f). rewrite E2.
      split; [reflexivity|]. split; [exact I2|]. split; [exact (Rt _ _ _ R1 R2)|].
      split; [lia|].
      constructor; [exact (Qs _ _ _ _ Q1 R2) | exact Q2].
  Qed.
End MapM.

(** Induction on values and formulas *)
Section Ind.
  Variable P : val -> Prop.
  Hypothesis Hs : forall v, match v with VArr _ => True | _ => P v end.
  Hypothesis Ha : forall rows, Forall (Forall P) rows -> P (VArr rows).
  Fixpoint val_all (v : val) : P v :=
    match v as v return P v with
    | VArr rows =>
        Ha rows ((fix go l : Forall (Forall P) l :=
          match l with
          | [] => Forall_nil _
          | r :: l => Forall_cons _ ((fix go2 r : Forall P r :=
              match r with [] => Forall_nil _ | x :: r => Forall_cons _ (val_all x) (go2 r) end) r) (go l)
          end) rows)
    | VInt z => Hs (VInt z)
    | VNum b => Hs (VNum b)
    | VText t => Hs (VText t)
    | VBool b => Hs (VBool b)
    | VErr k m r => Hs (VErr k m r)
    | VDate d => Hs (VDate d)
    | VDateTime n => Hs (VDateTime n)
    | VTime n => Hs (VTime n)
    | VDur n => Hs (VDur n)
    | VEmpty => Hs VEmpty
    | VPending => Hs VPending
    end.
End Ind.
Section TInd.
  Variable P : tree -> Prop.
  Hypotheses (H1 : forall v, P (TLit v)) (H2 : P TOmit) (H3 : forall o r, P (TRef o r)) (H4 : forall op e, P e -> P (TUn op e))
    (H5 : forall op l r, P l -> P r -> P (TBin op l r)) (H6 : forall n args, Forall P args -> P (TFn n args))
    (H7 : forall f args, P (TCall f args)) (H8 : forall rows, Forall (Forall P) rows -> P (TArr rows)).
  Fixpoint tree_all (t : tree) : P t :=
    match t as t return P t with
    | TLit v => H1 v
    | TOmit => H2
    | TRef o r => H3 o r
    | TUn op e => H4 op e (tree_all e)
    | TBin op l r => H5 op l r (tree_all l) (tree_all r)
    | TFn n args => H6 n args ((fix go r : Forall P r :=
              match r with [] => Forall_nil _ | x :: r => Forall_cons _ (tree_all x) (go r) end) args)
    | TCall f args => H7 f args
    | TArr rows =>
        H8 rows ((fix go l : Forall (Forall P) l :=
          match l with
          | [] => Forall_nil _
          | r :: l => Forall_cons _ ((fix go2 r : Forall P r :=
              match r with [] => Forall_nil _ | x :: r => Forall_cons _ (tree_all x) (go2 r) end) r) (go l)
          end) rows)
    end.
End TInd.
