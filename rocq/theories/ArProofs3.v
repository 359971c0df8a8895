(** Formulas come back. *)
From Coq Require Import List Bool NArith ZArith Lia ZifyN ZifyNat ZifyBool.
From Verif Require Import Base Maps LexModel LexProofs RtModel InternModel InternProofs SheetModel ArModel ArSpec ArProofs1 ArProofs2.
Import ListNotations.
Open Scope N_scope.

Lemma tspec_eqb_true : forall a b, tspec_eqb a b = true -> a = b.
Proof.
  fix IH 1. intros a b. destruct a as [| | c | x y | i | l], b as [| | c' | x' y' | i' | m]; cbn [tspec_eqb]; try discriminate; try reflexivity; intros H.
  - apply text_eqb_spec in H. congruence.
  - apply andb_true_iff in H. destruct H as (A & B). apply text_eqb_spec in A. apply text_eqb_spec in B. congruence.
  - destruct i, i'; try discriminate; reflexivity.
  - f_equal. revert m H. induction l as [|x l IHl]; intros [|y m] H; try discriminate; [reflexivity|].
    apply andb_true_iff in H. destruct H as (A & B). f_equal; [exact (IH _ _ A) | exact (IHl _ B)].
Qed.
Lemma tspec_eqb_refl : forall a, tspec_eqb a a = true.
Proof.
  fix IH 1. intros a. destruct a as [| | c | x y | i | l]; cbn [tspec_eqb]; try reflexivity.
  - apply text_eqb_refl.
  - rewrite !text_eqb_refl. reflexivity.
  - destruct i; reflexivity.
  - induction l as [|x l IHl]; [reflexivity|]. rewrite IH, IHl. reflexivity.
Qed.

Lemma row_back {A T} (f : A -> option T) rest e t b : Forall2 (fun x y => f x = Some y) e t ->
  forall pre q, length pre = (b + q)%nat ->
  keep (map (fun j => do id <- nth_error (pre ++ e ++ rest) (b + j); f id) (seq q (length e))) = t.
Proof.
  induction 1 as [|x y e t E _ IH]; intros pre q L; [reflexivity|].
  cbn [length seq map]. rewrite nth_error_app2 by lia. replace (b + q - length pre)%nat with 0%nat by lia. cbn [app nth_error].
  rewrite E. cbn [keep]. f_equal. specialize (IH (pre ++ [x]) (S q)). rewrite <- app_assoc in IH. cbn [app] in IH. apply IH.
  rewrite app_length. cbn. lia.
Qed.
Lemma grid_back {T} (f : N -> option T) c ess ts : Forall2 (Forall2 (fun x y => f x = Some y)) ess ts -> rectangle ess c ->
  forall pre k, count pre = N.of_nat k * c -> (N.of_nat k + count ess) * c < 65536 ->
  map (fun r => keep (map (fun j => do id <- nth_error (pre ++ concat ess) (N.to_nat (trunc_u16 (N.of_nat r * c + N.of_nat j))); f id)
                        (seq 0 (N.to_nat c)))) (seq k (length ess)) = ts.
Proof.
  induction 1 as [|e t ess ts E _ IH]; intros R pre k P L; [reflexivity|].
  assert (Hc : count e = c) by exact (Forall_inv R). assert (Hr := Forall_inv_tail R).
  assert (L2 : count (e :: ess) = count ess + 1) by (unfold count; cbn [length]; lia). rewrite L2 in L.
  cbn [length seq map concat]. f_equal.
  - replace (N.to_nat c) with (length e) by (rewrite <- Hc; unfold count; lia).
    assert (Q : length pre = (N.to_nat (N.of_nat k * c) + 0)%nat) by (rewrite <- P; unfold count; lia).
    rewrite <- (row_back f (concat ess) e t _ E pre 0 Q). f_equal. apply map_ext_in. intros j J. apply in_seq in J.
    assert (J2 : N.of_nat j < c) by (rewrite <- Hc; unfold count; lia).
    assert (J3 : N.to_nat (trunc_u16 (N.of_nat k * c + N.of_nat j)) = (N.to_nat (N.of_nat k * c) + j)%nat).
    { unfold trunc_u16. rewrite N.mod_small; [lia | nia]. }
    rewrite J3. reflexivity.
  - specialize (IH Hr (pre ++ e) (S k)). rewrite <- app_assoc in IH. apply IH.
    + rewrite count_app, P, Hc. lia.
    + replace (N.of_nat (S k) + count ess) with (N.of_nat k + (count ess + 1)) by lia. exact L.
Qed.
Lemma keep_eq {A B} (f : A -> option B) l m : Forall2 (fun x y => f x = Some y) l m -> keep (map f l) = m.
Proof. induction 1 as [|x y l m E _ IH]; [reflexivity|]. cbn [map]. rewrite E. cbn [keep]. rewrite IH. reflexivity. Qed.

Section Trees.
Variable lower : text -> text.
Variables (serial_of : Z -> N) (serial_to : N -> Z) (fraction_of : Z -> N).
Variables (hash_node : anode -> N) (hash_spec : tspec -> N).
Notation store_value := (store_value serial_of fraction_of).
Notation retrieve := (retrieve serial_to).
Notation insert_node := (insert_node hash_node).
Notation put_node := (put_node hash_node).
Notation put_function := (put_function hash_node).
Notation put_array := (put_array hash_node).
Notation convert := (convert lower serial_of fraction_of hash_node hash_spec).
Notation rebuild := (rebuild serial_to).
Notation intern_spec := (intern_spec hash_spec).
Notation pack_ref := (pack_ref lower hash_spec).
Notation kept := (kept serial_of serial_to).
Notation tree_kept := (tree_kept serial_of serial_to).

Definition aext (a b : asts) : Prop :=
  prefix (nodes a) (nodes b) /\ prefix (fargs a) (fargs b) /\ prefix (aelems a) (aelems b) /\
  prefix (strings (astrs a)) (strings (astrs b)) /\ prefix (specs a) (specs b).
Lemma aext_refl a : aext a a. Proof. repeat split; apply prefix_refl. Qed.
Lemma aext_trans a b c : aext a b -> aext b c -> aext a c.
Proof. intros (A & B & C & D & E) (F & G & H & I & J). repeat split; eapply prefix_trans; eassumption. Qed.
Lemma ext_asts s s' : ext s s' -> aext (tree_arena s) (tree_arena s').
Proof. intros (_ & _ & _ & H). exact H. Qed.
Lemma on_asts_ext s a : aext (tree_arena s) a -> ext s (on_asts s a).
Proof. intros H. repeat split; try apply prefix_refl; apply H. Qed.
Lemma on_asts_wf s a : wf s -> int_reach (astrs a) -> wf (on_asts s a).
Proof. intros [A B C D E F] H. split; cbn [on_asts strs ers tree_arena arrs]; assumption. Qed.

Definition afull (a : asts) : N :=
  count (nodes a) + count (fargs a) + count (aelems a) + count (strings (astrs a)) + count (specs a).
Lemma used_asts s a : used (on_asts s a) + afull (tree_arena s) = used s + afull a.
Proof. unfold used, afull, on_asts. cbn [scal strs arrs ers tree_arena]. lia. Qed.
Lemma afull_used s : afull (tree_arena s) <= used s.
Proof. unfold used, afull. lia. Qed.

Lemma to_nat_trunc {A} (l : list A) : count l < 2 ^ 32 -> N.to_nat (trunc_u32 (N.of_nat (length l))) = length l.
Proof. intros H. unfold trunc_u32. rewrite N.mod_small by exact H. apply Nnat.Nat2N.id. Qed.

Lemma insert_node_spec a d a' i : insert_node a d = (a', i) ->
  aext a a' /\ astrs a' = astrs a /\ afull a' <= afull a + 1 /\
  (count (nodes a') < 2 ^ 32 -> nth_error (nodes a') (N.to_nat i) = Some d).
Proof.
  unfold ArModel.insert_node. cbv zeta.
  assert (F : forall h, (Asts (nodes a ++ [d]) h (fargs a) (aelems a) (astrs a) (specs a) (smap a), trunc_u32 (N.of_nat (length (nodes a)))) = (a', i) ->
    aext a a' /\ astrs a' = astrs a /\ afull a' <= afull a + 1 /\ (count (nodes a') < 2 ^ 32 -> nth_error (nodes a') (N.to_nat i) = Some d)).
  { intros h H. injection H as <- <-. split; [repeat split; try apply prefix_refl; apply prefix_app|]. split; [reflexivity|].
    split; [unfold afull; cbn [nodes fargs aelems astrs specs]; rewrite count_app; change (count [d]) with 1; lia|].
    cbn [nodes]. rewrite count_app. intros L. rewrite to_nat_trunc by lia. rewrite nth_error_app2, Nat.sub_diag by lia. reflexivity. }
  destruct (mget N.eqb (nmap a) (hash_node d)) as [j|]; [|apply F].
  destruct (nth_error (nodes a) (N.to_nat j)) as [d'|] eqn:E; [|apply F].
  destruct (anode_eq_dec d' d) as [-> |]; [|apply F]. intros H. injection H as <- <-.
  split; [apply aext_refl|]. split; [reflexivity|]. split; [lia|]. intros _. exact E.
Qed.
Lemma intern_ast_spec a t a' i : int_reach (astrs a) -> intern_ast a t = Some (a', i) ->
  int_reach (astrs a') /\ aext a a' /\ int_get (astrs a') i = Some t.
Proof.
  intros R. unfold intern_ast. destruct (interned (astrs a) t) as [[g j]|] eqn:E; [|discriminate]. intros H. injection H as <- <-.
  destruct (interned_spec _ _ _ _ R E) as (A & B & C). split; [exact A|]. split; [|exact C]. repeat split; try apply prefix_refl. exact B.
Qed.
Lemma intern_ast_room a t : int_reach (astrs a) -> afull a + 1 <= 2 ^ 28 ->
  exists a' i, intern_ast a t = Some (a', i) /\ afull a' <= afull a + 1.
Proof.
  intros R L. destruct (interned_room (astrs a) t R) as (g & i & E & _ & C).
  { unfold afull in L. unfold PAYLOAD_MASK. change (2 ^ 28) with 268435456 in L.
    lia. }
  unfold intern_ast. rewrite E. eexists. eexists. split; [reflexivity|].
  unfold afull, with_strs in *. cbn [nodes fargs aelems astrs specs]. lia.
Qed.

Lemma intern_spec_spec a p a' i : intern_spec a p = (a', i) ->
  aext a a' /\ astrs a' = astrs a /\ afull a' <= afull a + 1 /\
  (count (specs a') < 2 ^ 32 -> nth_error (specs a') (N.to_nat i) = Some p).
Proof.
  unfold ArModel.intern_spec. cbv zeta.
  assert (F : forall h, (Asts (nodes a) (nmap a) (fargs a) (aelems a) (astrs a) (specs a ++ [p]) h, trunc_u32 (N.of_nat (length (specs a)))) = (a', i) ->
    aext a a' /\ astrs a' = astrs a /\ afull a' <= afull a + 1 /\ (count (specs a') < 2 ^ 32 -> nth_error (specs a') (N.to_nat i) = Some p)).
  { intros h H. injection H as <- <-. split; [repeat split; try apply prefix_refl; apply prefix_app|]. split; [reflexivity|].
    split; [unfold afull; cbn [nodes fargs aelems astrs specs]; rewrite count_app; change (count [p]) with 1; lia|].
    cbn [specs]. rewrite count_app. intros L. rewrite to_nat_trunc by lia. rewrite nth_error_app2, Nat.sub_diag by lia. reflexivity. }
  destruct (mget N.eqb (smap a) (hash_spec p)) as [j|]; [|apply F].
  destruct (nth_error (specs a) (N.to_nat j)) as [q|] eqn:E; [|apply F].
  destruct (tspec_eqb q p) eqn:Q; [|apply F]. apply tspec_eqb_true in Q. subst q. intros H. injection H as <- <-.
  split; [apply aext_refl|]. split; [reflexivity|]. split; [lia|]. intros _. exact E.
Qed.

Notation renamed := (renamed lower).

Lemma pack_sheet_spec g a s a' k : int_reach (astrs a) -> pack_sheet lower g a s = Some (a', k) ->
  int_reach (astrs a') /\ aext a a' /\
  forall g' b, aext a' b -> unpack_sheet g' b k = Some (option_map (renamed g g') s).
Proof.
  intros R. unfold pack_sheet. destruct s as [n|]; [|intros H; injection H as <- <-; split; [exact R|]; split; [apply aext_refl | reflexivity]].
  unfold ArSpec.renamed. cbn [option_map]. destruct (get_id lower g n) as [id|] eqn:G.
  - intros H. injection H as <- <-. split; [exact R|]. split; [apply aext_refl|]. intros g' b _. reflexivity.
  - destruct (intern_ast a n) as [[a1 i]|] eqn:E; [|discriminate]. intros H. injection H as <- <-.
    destruct (intern_ast_spec _ _ _ _ R E) as (A & B & C). split; [exact A|]. split; [exact B|].
    intros g' b (_ & _ & _ & X & _). cbn [unpack_sheet]. rewrite (prefix_get _ _ _ _ X C). reflexivity.
Qed.
Lemma box_back b : box_ok b -> unpack_box (pack_box b) = b.
Proof.
  destruct b as [sr sc er ec]. intros (A & B & C & D). cbn [b_sr b_sc b_er b_ec] in *. unfold pack_box, unpack_box. cbn [c_sr c_sc c_er c_ec b_sr b_sc b_er b_ec].
  assert (Lo : forall x, lo_ok x -> of_lo (lo_of x) = x).
  { intros [[v f]|] H; [|reflexivity]. cbn [lo_of]. unfold of_lo. cbn [fst lo_ok] in *. destruct (N.eqb_spec v 0); [contradiction | reflexivity]. }
  assert (Hi : forall x, hi_ok x -> of_hi (hi_of x) = x).
  { intros [[v f]|] H; [|reflexivity]. cbn [hi_of]. unfold of_hi. cbn [fst hi_ok] in *. change (2 ^ 32 - 1) with U32_MAX in H. destruct (N.eqb_spec v U32_MAX); [contradiction | reflexivity]. }
  rewrite !Lo, !Hi by assumption. reflexivity.
Qed.

Ltac one H R' X' G' := match type of H with
  | (match intern_ast ?a ?t with _ => _ end) = _ =>
      let E := fresh "E" in let a' := fresh "a" in let i := fresh "i" in
      destruct (intern_ast a t) as [[a' i]|] eqn:E; [|discriminate H];
      match goal with R : int_reach (astrs a) |- _ => destruct (intern_ast_spec _ _ _ _ R E) as (R' & X' & G') end
  end.
Ltac strs_of X := let H := fresh in destruct X as (_ & _ & _ & H & _); exact H.
Lemma aget a b i t : aext a b -> int_get (astrs a) i = Some t -> int_get (astrs b) i = Some t.
Proof. intros (_ & _ & _ & X & _). apply prefix_get, X. Qed.

Lemma pack_ref_spec g a r a' c : int_reach (astrs a) -> pack_ref g a r = Some (a', c) ->
  int_reach (astrs a') /\ aext a a' /\
  (ref_kept r -> count (specs a') < 2 ^ 32 -> forall g' b, aext a' b -> unpack_ref g' b c = Some (on_ref (renamed g g') r)).
Proof.
  intros R. destruct r as [s row col ra ca | s bx | f l row col ra ca | f l bx | raw book sheet row col ra ca | raw book sheet bx | n p | n];
    cbn [ArModel.pack_ref]; intros H.
  - destruct (pack_sheet lower g a s) as [[a1 k]|] eqn:E; [|discriminate]. injection H as <- <-.
    destruct (pack_sheet_spec _ _ _ _ _ R E) as (A & B & C). split; [exact A|]. split; [exact B|]. intros _ _ g' b X.
    cbn [unpack_ref]. rewrite (C g' b X). destruct s; reflexivity.
  - destruct (pack_sheet lower g a s) as [[a1 k]|] eqn:E; [|discriminate]. injection H as <- <-.
    destruct (pack_sheet_spec _ _ _ _ _ R E) as (A & B & C). split; [exact A|]. split; [exact B|]. intros K _ g' b X.
    cbn [unpack_ref]. rewrite (C g' b X), (box_back _ K). destruct s; reflexivity.
  - one H R1 X1 G1. one H R2 X2 G2. injection H as <- <-. split; [exact R2|]. split; [exact (aext_trans _ _ _ X1 X2)|]. intros _ _ g' b X.
    cbn [unpack_ref]. rewrite (aget _ _ _ _ (aext_trans _ _ _ X2 X) G1), (aget _ _ _ _ X G2). reflexivity.
  - one H R1 X1 G1. one H R2 X2 G2. injection H as <- <-. split; [exact R2|]. split; [exact (aext_trans _ _ _ X1 X2)|]. intros K _ g' b X.
    cbn [unpack_ref]. rewrite (aget _ _ _ _ (aext_trans _ _ _ X2 X) G1), (aget _ _ _ _ X G2), (box_back _ K). reflexivity.
  - one H R1 X1 G1. one H R2 X2 G2. one H R3 X3 G3. injection H as <- <-. split; [exact R3|].
    split; [exact (aext_trans _ _ _ X1 (aext_trans _ _ _ X2 X3))|]. intros _ _ g' b X.
    cbn [unpack_ref]. rewrite (aget _ _ _ _ (aext_trans _ _ _ X2 (aext_trans _ _ _ X3 X)) G1), (aget _ _ _ _ (aext_trans _ _ _ X3 X) G2), (aget _ _ _ _ X G3). reflexivity.
  - one H R1 X1 G1. one H R2 X2 G2. one H R3 X3 G3. injection H as <- <-. split; [exact R3|].
    split; [exact (aext_trans _ _ _ X1 (aext_trans _ _ _ X2 X3))|]. intros _ _ g' b X.
    cbn [unpack_ref]. rewrite (aget _ _ _ _ (aext_trans _ _ _ X2 (aext_trans _ _ _ X3 X)) G1), (aget _ _ _ _ (aext_trans _ _ _ X3 X) G2), (aget _ _ _ _ X G3). reflexivity.
  - one H R1 X1 G1. destruct p as [p|].
    + destruct (intern_spec a0 p) as [a2 j] eqn:E2. injection H as <- <-.
      destruct (intern_spec_spec _ _ _ _ E2) as (X2 & Q & _ & Sp). split; [rewrite Q; exact R1|]. split; [exact (aext_trans _ _ _ X1 X2)|].
      intros _ L g' b X. cbn [unpack_ref]. rewrite (aget _ _ _ _ (aext_trans _ _ _ X2 X) G1).
      destruct X as (_ & _ & _ & _ & Xs). rewrite (prefix_nth _ _ _ _ Xs (Sp L)). reflexivity.
    + injection H as <- <-. split; [exact R1|]. split; [exact X1|]. intros _ _ g' b X. cbn [unpack_ref]. rewrite (aget _ _ _ _ X G1). reflexivity.
  - one H R1 X1 G1. injection H as <- <-. split; [exact R1|]. split; [exact X1|]. intros _ _ g' b X. cbn [unpack_ref].
    rewrite (aget _ _ _ _ X G1). reflexivity.
Qed.
Ltac room a t := match goal with
  | R : int_reach (astrs a) |- _ =>
     let a' := fresh "a" in let i := fresh "i" in let E := fresh "E" in let L := fresh "L" in
     destruct (intern_ast_room a t R) as (a' & i & E & L); [lia|]; rewrite E;
     pose proof (proj1 (intern_ast_spec _ _ _ _ R E))
  end.
Lemma pack_ref_room g a r : int_reach (astrs a) -> afull a + 5 <= 2 ^ 28 ->
  exists a' c, pack_ref g a r = Some (a', c) /\ afull a' <= afull a + 3.
Proof.
  intros R L.
  assert (Sh : forall s, exists a' k, pack_sheet lower g a s = Some (a', k) /\ afull a' <= afull a + 1).
  { intros [n|]; cbn [pack_sheet]; [|eexists; eexists; split; [reflexivity | lia]].
    destruct (get_id lower g n); [eexists; eexists; split; [reflexivity | lia]|].
    room a n. eexists; eexists; split; [reflexivity | lia]. }
  destruct r as [s row col ra ca | s bx | f l row col ra ca | f l bx | raw book sheet row col ra ca | raw book sheet bx | n p | n];
    cbn [ArModel.pack_ref].
  - destruct (Sh s) as (a' & k & -> & L'). eexists; eexists; split; [reflexivity | lia].
  - destruct (Sh s) as (a' & k & -> & L'). eexists; eexists; split; [reflexivity | lia].
  - room a f. room a0 l. eexists; eexists; split; [reflexivity | lia].
  - room a f. room a0 l. eexists; eexists; split; [reflexivity | lia].
  - room a raw. room a0 book. room a1 sheet. eexists; eexists; split; [reflexivity | lia].
  - room a raw. room a0 book. room a1 sheet. eexists; eexists; split; [reflexivity | lia].
  - room a n. destruct p as [p|]; [|eexists; eexists; split; [reflexivity | lia]].
    destruct (intern_spec a0 p) as [a2 j] eqn:E2. destruct (intern_spec_spec _ _ _ _ E2) as (_ & _ & L2 & _).
    eexists; eexists; split; [reflexivity | lia].
  - room a n. eexists; eexists; split; [reflexivity | lia].
Qed.

(** * What every call keeps *)
Lemma put_node_spec s d s' i : put_node s d = (s', i) -> wf s ->
  wf s' /\ ext s s' /\ used s' <= used s + 1 /\
  (used s' <= 2 ^ 28 -> nth_error (nodes (tree_arena s')) (N.to_nat i) = Some d).
Proof.
  unfold ArModel.put_node. destruct (insert_node (tree_arena s) d) as [a j] eqn:E. intros H W. injection H as <- <-.
  destruct (insert_node_spec _ _ _ _ E) as (X & S' & L & G).
  split; [apply on_asts_wf; [exact W | rewrite S'; exact (w_astrs _ W)]|]. split; [apply on_asts_ext; exact X|].
  pose proof (used_asts s a) as U. split; [lia|]. intros V. apply G. pose proof (afull_used (on_asts s a)) as F.
  cbn [on_asts tree_arena] in F. change (2 ^ 28) with 268435456 in V. change (2 ^ 32) with 4294967296. unfold afull in F. lia.
Qed.
Lemma named_spec s t s' i : wf s -> named s t = Some (s', i) ->
  wf s' /\ ext s s' /\ int_get (astrs (tree_arena s')) i = Some t.
Proof.
  intros W. unfold named. destruct (intern_ast (tree_arena s) t) as [[a j]|] eqn:E; [|discriminate]. intros H. injection H as <- <-.
  destruct (intern_ast_spec _ _ _ _ (w_astrs _ W) E) as (A & B & C).
  split; [exact (on_asts_wf _ _ W A)|]. split; [exact (on_asts_ext _ _ B) | exact C].
Qed.
Lemma named_room s t : wf s -> used s + 1 <= 2 ^ 28 -> exists s' i, named s t = Some (s', i) /\ used s' <= used s + 1.
Proof.
  intros W U. pose proof (afull_used s) as F.
  destruct (intern_ast_room (tree_arena s) t (w_astrs _ W)) as (a & i & E & L); [lia|].
  unfold named. rewrite E. eexists; eexists; split; [reflexivity|]. pose proof (used_asts s a). lia.
Qed.
Definition more_args (s : store) (l : list N) : store :=
  let a := tree_arena s in on_asts s (Asts (nodes a) (nmap a) (fargs a ++ l) (aelems a) (astrs a) (specs a) (smap a)).
Definition more_elems (s : store) (l : list N) : store :=
  let a := tree_arena s in on_asts s (Asts (nodes a) (nmap a) (fargs a) (aelems a ++ l) (astrs a) (specs a) (smap a)).
Lemma more_args_spec s l : wf s -> wf (more_args s l) /\ ext s (more_args s l) /\ used (more_args s l) = used s + count l.
Proof.
  intros W. unfold more_args. cbv zeta. split; [apply on_asts_wf; [exact W | exact (w_astrs _ W)]|].
  split; [apply on_asts_ext; repeat split; try apply prefix_refl; apply prefix_app|].
  unfold used, on_asts. cbn [scal strs arrs ers tree_arena nodes fargs aelems astrs specs]. rewrite count_app. lia.
Qed.
Lemma more_elems_spec s l : wf s -> wf (more_elems s l) /\ ext s (more_elems s l) /\ used (more_elems s l) = used s + count l.
Proof.
  intros W. unfold more_elems. cbv zeta. split; [apply on_asts_wf; [exact W | exact (w_astrs _ W)]|].
  split; [apply on_asts_ext; repeat split; try apply prefix_refl; apply prefix_app|].
  unfold used, on_asts. cbn [scal strs arrs ers tree_arena nodes fargs aelems astrs specs]. rewrite count_app. lia.
Qed.
Lemma put_some s d s' i : Some (put_node s d) = Some (s', i) -> put_node s d = (s', i).
Proof. congruence. Qed.

Ltac chain := eapply ext_trans; [eassumption|].
Lemma convert_keeps g t : forall s s' i, wf s -> convert g s t = Some (s', i) -> wf s' /\ ext s s'.
Proof.
  induction t as [v | | o r | op e IHe | op l r IHl IHr | n args IH | f args | rows IH] using tree_all;
    intros s s' i W H; cbn [ArModel.convert] in H.
  - destruct (store_value s v) as [[s1 q]|] eqn:E; [|discriminate]. apply put_some in H.
    destruct (value_keeps serial_of serial_to fraction_of _ _ _ _ W E) as (W1 & X1). destruct (put_node_spec _ _ _ _ H W1) as (W2 & X2 & _).
    split; [exact W2 | exact (ext_trans _ _ _ X1 X2)].
  - apply put_some in H. destruct (put_node_spec _ _ _ _ H W) as (W2 & X2 & _). split; assumption.
  - destruct (pack_ref g (tree_arena s) r) as [[a c]|] eqn:E; [|discriminate].
    destruct (pack_ref_spec _ _ _ _ _ (w_astrs _ W) E) as (R & X & _).
    destruct (named (on_asts s a) o) as [[s1 j]|] eqn:E1; [|discriminate]. apply put_some in H.
    destruct (named_spec _ _ _ _ (on_asts_wf _ _ W R) E1) as (W1 & X1 & _).
    destruct (put_node_spec _ _ _ _ H W1) as (W2 & X2 & _). split; [exact W2|].
    exact (ext_trans _ _ _ (on_asts_ext _ _ X) (ext_trans _ _ _ X1 X2)).
  - destruct (convert g s e) as [[s1 j]|] eqn:E; [|discriminate]. destruct (IHe _ _ _ W E) as (W1 & X1).
    destruct (named s1 op) as [[s2 n]|] eqn:E2; [|discriminate]. destruct (named_spec _ _ _ _ W1 E2) as (W2 & X2 & _).
    apply put_some in H. destruct (put_node_spec _ _ _ _ H W2) as (W3 & X3 & _). split; [exact W3|].
    exact (ext_trans _ _ _ X1 (ext_trans _ _ _ X2 X3)).
  - destruct (convert g s l) as [[s1 j]|] eqn:E; [|discriminate]. destruct (IHl _ _ _ W E) as (W1 & X1).
    destruct (convert g s1 r) as [[s2 k]|] eqn:E2; [|discriminate]. destruct (IHr _ _ _ W1 E2) as (W2 & X2).
    destruct (named s2 op) as [[s3 n]|] eqn:E3; [|discriminate]. destruct (named_spec _ _ _ _ W2 E3) as (W3 & X3 & _).
    apply put_some in H. destruct (put_node_spec _ _ _ _ H W3) as (W4 & X4 & _). split; [exact W4|].
    exact (ext_trans _ _ _ X1 (ext_trans _ _ _ X2 (ext_trans _ _ _ X3 X4))).
  - destruct (mapM (convert g) s args) as [[s1 ids]|] eqn:E; [|discriminate].
    destruct (mapM_keeps _ wf ext ext_refl ext_trans args IH _ _ _ W E) as (W1 & X1).
    unfold ArModel.put_function in H. destruct (named s1 n) as [[s2 m]|] eqn:E2; [|discriminate].
    destruct (named_spec _ _ _ _ W1 E2) as (W2 & X2 & _). cbv zeta in H. apply put_some in H. fold (more_args s2 ids) in H.
    destruct (more_args_spec s2 ids W2) as (W3 & X3 & _). destruct (put_node_spec _ _ _ _ H W3) as (W4 & X4 & _). split; [exact W4|].
    exact (ext_trans _ _ _ X1 (ext_trans _ _ _ X2 (ext_trans _ _ _ X3 X4))).
  - destruct (store_value s call_error) as [[s1 q]|] eqn:E; [|discriminate]. apply put_some in H.
    destruct (value_keeps serial_of serial_to fraction_of _ _ _ _ W E) as (W1 & X1). destruct (put_node_spec _ _ _ _ H W1) as (W2 & X2 & _).
    split; [exact W2 | exact (ext_trans _ _ _ X1 X2)].
  - destruct (mapM (mapM (convert g)) s rows) as [[s1 ids]|] eqn:E; [|discriminate].
    assert (K : wf s1 /\ ext s s1).
    { refine (mapM_keeps _ wf ext ext_refl ext_trans rows _ s s1 ids W E).
      eapply Forall_impl; [|exact IH]. intros row Hrow s2 s3 y W2 E2. cbv beta in Hrow.
      exact (mapM_keeps _ wf ext ext_refl ext_trans row Hrow s2 s3 y W2 E2). }
    destruct K as (W1 & X1). unfold ArModel.put_array in H. destruct (_ =? _); [|discriminate]. cbv zeta in H. apply put_some in H.
    fold (more_elems s1 (concat ids)) in H. destruct (more_elems_spec s1 (concat ids) W1) as (W3 & X3 & _).
    destruct (put_node_spec _ _ _ _ H W3) as (W4 & X4 & _). split; [exact W4|]. exact (ext_trans _ _ _ X1 (ext_trans _ _ _ X3 X4)).
Qed.

Definition tgives g t i s := forall g' n s2, (tdepth t <= n)%nat -> ext s s2 -> rebuild n g' s2 i = Some (on_sheets (renamed g g') t).
Lemma tgives_ext g t i s s' : tgives g t i s -> ext s s' -> tgives g t i s'.
Proof. intros G E g' n s2 D X. apply G; [exact D | exact (ext_trans _ _ _ E X)]. Qed.
Lemma ext_node s s' i d : ext s s' -> nth_error (nodes (tree_arena s)) i = Some d -> nth_error (nodes (tree_arena s')) i = Some d.
Proof. intros X. apply ext_asts in X. destruct X as (X & _). exact (prefix_nth _ _ _ _ X). Qed.
Lemma ext_text s s' i t : ext s s' -> int_get (astrs (tree_arena s)) i = Some t -> int_get (astrs (tree_arena s')) i = Some t.
Proof. intros X. apply aget, ext_asts, X. Qed.
Lemma prefix_slice {A} (l m x : list A) i j : prefix (l ++ x) m -> i = count l -> j = i + count x -> slice m i j = Some x.
Proof. intros (r & ->) E1 E2. rewrite <- app_assoc. apply slice_at; assumption. Qed.
Lemma total_shift {A} (h : A -> N) l : total (fun x => 1 + h x) l = count l + total h l.
Proof.
  induction l as [|x l IH]; [reflexivity|]. change (total (fun x => 1 + h x) (x :: l)) with (1 + h x + total (fun x => 1 + h x) l).
  change (total h (x :: l)) with (h x + total h l). rewrite IH. unfold count. cbn [length]. lia.
Qed.

(** The last step of every case *)
Lemma put_last g t s0 s d : wf s -> ext s0 s -> used s + 1 <= used s0 + tsize t -> used s0 + tsize t <= 2 ^ 28 ->
  (forall g' n s2 i, (tdepth t <= n)%nat -> ext s s2 -> nth_error (nodes (tree_arena s2)) (N.to_nat i) = Some d ->
     rebuild n g' s2 i = Some (on_sheets (renamed g g') t)) ->
  exists s' i, Some (put_node s d) = Some (s', i) /\ wf s' /\ ext s0 s' /\ used s' <= used s0 + tsize t /\ tgives g t i s'.
Proof.
  intros W X U V G. destruct (put_node s d) as [s' i] eqn:E.
  destruct (put_node_spec _ _ _ _ E W) as (W' & X' & U' & N').
  exists s', i. split; [reflexivity|]. split; [exact W'|]. split; [exact (ext_trans _ _ _ X X')|]. split; [lia|].
  intros g' n s2 D X2. apply G; [exact D | exact (ext_trans _ _ _ X' X2)|]. apply (ext_node _ _ _ _ X2), N'. lia.
Qed.

Lemma convert_total g t : tree_kept t -> forall s, wf s -> used s + tsize t <= 2 ^ 28 ->
  exists s' i, convert g s t = Some (s', i) /\ wf s' /\ ext s s' /\ used s' <= used s + tsize t /\ tgives g t i s'.
Proof.
  induction t as [v | | o r | op e IHe | op l r IHl IHr | n args IH | f args | rows IH] using tree_all;
    intros K s W U; cbn [ArModel.convert].
  - assert (Kv : kept v) by (inversion K; assumption). cbn [tsize] in U.
    destruct (value_total serial_of serial_to fraction_of v Kv s W) as (s1 & q & E & W1 & X1 & U1 & G); [lia|]. rewrite E.
    apply put_last; [exact W1 | exact X1 | cbn [tsize]; lia | exact U |].
    intros g' n s2 i D X N1. cbn [tdepth] in D. destruct n as [|n]; [lia|]. cbn [ArModel.rebuild]. cbv zeta. rewrite N1.
    rewrite (G n s2) by (lia || exact X). reflexivity.
  - apply put_last; [exact W | apply ext_refl | cbn [tsize]; lia | exact U |].
    intros g' n s2 i D X N1. cbn [tdepth] in D. destruct n as [|n]; [lia|]. cbn [ArModel.rebuild]. cbv zeta. rewrite N1. reflexivity.
  - assert (Kr : ref_kept r) by (inversion K; assumption). cbn [tsize] in U. pose proof (afull_used s) as Fu.
    destruct (pack_ref_room g (tree_arena s) r (w_astrs _ W)) as (a & c & E & L); [lia|]. rewrite E.
    destruct (pack_ref_spec _ _ _ _ _ (w_astrs _ W) E) as (R & X & B).
    assert (W0 := on_asts_wf _ _ W R). assert (X0 := on_asts_ext _ _ X). pose proof (used_asts s a) as U0.
    destruct (named_room (on_asts s a) o W0) as (s1 & j & E1 & U1); [lia|]. rewrite E1.
    destruct (named_spec _ _ _ _ W0 E1) as (W1 & X1 & T1).
    apply put_last; [exact W1 | exact (ext_trans _ _ _ X0 X1) | cbn [tsize]; lia | exact U |].
    intros g' n s2 i D X2 N1. cbn [tdepth] in D. destruct n as [|n]; [lia|]. cbn [ArModel.rebuild]. cbv zeta. rewrite N1.
    rewrite (ext_text _ _ _ _ X2 T1).
    assert (Sp : count (specs a) < 2 ^ 32).
    { pose proof (afull_used (on_asts s a)) as F2. cbn [on_asts tree_arena] in F2. unfold afull in F2. change (2 ^ 28) with 268435456 in U. change (2 ^ 32) with 4294967296. lia. }
    rewrite (B Kr Sp g' (tree_arena s2)); [reflexivity|].
    exact (ext_asts _ _ (ext_trans _ _ _ X1 X2)).
  - assert (Ke : tree_kept e) by (inversion K; assumption). cbn [tsize] in U.
    destruct (IHe Ke s W) as (s1 & j & E & W1 & X1 & U1 & G1); [lia|]. rewrite E.
    destruct (named_room s1 op W1) as (s2 & m & E2 & U2); [lia|]. rewrite E2. destruct (named_spec _ _ _ _ W1 E2) as (W2 & X2 & T2).
    apply put_last; [exact W2 | exact (ext_trans _ _ _ X1 X2) | cbn [tsize]; lia | exact U |].
    intros g' n s3 i D X3 N1. cbn [tdepth] in D. destruct n as [|n]; [lia|]. cbn [ArModel.rebuild]. cbv zeta. rewrite N1.
    rewrite (ext_text _ _ _ _ X3 T2). rewrite (G1 g' n s3) by (lia || exact (ext_trans _ _ _ X2 X3)). reflexivity.
  - assert (Ke : tree_kept l /\ tree_kept r) by (inversion K; split; assumption). destruct Ke as (Kl & Kr). cbn [tsize] in U.
    destruct (IHl Kl s W) as (s1 & j & E & W1 & X1 & U1 & G1); [lia|]. rewrite E.
    destruct (IHr Kr s1 W1) as (s2 & k & E' & W2 & X2 & U2 & G2); [lia|]. rewrite E'.
    destruct (named_room s2 op W2) as (s3 & m & E3 & U3); [lia|]. rewrite E3. destruct (named_spec _ _ _ _ W2 E3) as (W3 & X3 & T3).
    apply put_last; [exact W3 | exact (ext_trans _ _ _ X1 (ext_trans _ _ _ X2 X3)) | cbn [tsize]; lia | exact U |].
    intros g' n s4 i D X4 N1. cbn [tdepth] in D. destruct n as [|n]; [lia|]. cbn [ArModel.rebuild]. cbv zeta. rewrite N1.
    rewrite (ext_text _ _ _ _ X4 T3).
    rewrite (G1 g' n s4) by (lia || exact (ext_trans _ _ _ X2 (ext_trans _ _ _ X3 X4))).
    rewrite (G2 g' n s4) by (lia || exact (ext_trans _ _ _ X3 X4)). reflexivity.
  - assert (Ka : count args < 65536 /\ Forall tree_kept args) by (inversion K; split; assumption). destruct Ka as (Ca & Fa).
    cbn [tsize] in U. rewrite total_shift in U.
    assert (T : exists s1 ids, mapM (convert g) s args = Some (s1, ids) /\ wf s1 /\ ext s s1 /\
      used s1 <= used s + total tsize args /\ Forall2 (fun x y => tgives g x y s1) args ids).
    { refine (mapM_total (convert g) wf ext ext_refl ext_trans used tsize (2 ^ 28) (tgives g) (tgives_ext g) args _ s W _); [|lia].
      clear - IH Fa. induction args as [|x args IHa]; [constructor|]. constructor; [exact (Forall_inv IH (Forall_inv Fa))|].
      apply IHa; [exact (Forall_inv_tail IH) | exact (Forall_inv_tail Fa)]. }
    destruct T as (s1 & ids & E & W1 & X1 & U1 & G1). rewrite E. unfold ArModel.put_function.
    destruct (named_room s1 n W1) as (s2 & m & E2 & U2); [lia|]. rewrite E2. destruct (named_spec _ _ _ _ W1 E2) as (W2 & X2 & T2).
    cbv zeta. fold (more_args s2 ids). destruct (more_args_spec s2 ids W2) as (W3 & X3 & U3).
    assert (Ci : count args = count ids) by exact (F2_count _ _ _ G1).
    apply put_last; [exact W3 | exact (ext_trans _ _ _ X1 (ext_trans _ _ _ X2 X3)) | cbn [tsize]; rewrite total_shift; lia | cbn [tsize]; rewrite total_shift; exact U |].
    intros g' k s4 i D X4 N1. cbn [tdepth] in D. destruct k as [|k]; [lia|]. cbn [ArModel.rebuild]. cbv zeta. rewrite N1.
    rewrite (ext_text _ _ _ _ (ext_trans _ _ _ X3 X4) T2).
    assert (X5 := ext_asts _ _ X4). destruct X5 as (_ & X5 & _). cbn [more_args on_asts tree_arena fargs] in X5.
    assert (Cf : count (fargs (tree_arena s2)) < U32).
    { pose proof (afull_used (more_args s2 ids)) as F2. unfold more_args, afull in F2. cbn [on_asts tree_arena nodes fargs aelems astrs specs] in F2. rewrite count_app in F2.
      change (2 ^ 28) with 268435456 in U. change U32 with 4294967296. fold (more_args s2 ids) in F2. lia. }
    unfold trunc_u32, trunc_u16. fold (count (fargs (tree_arena s2))). fold (count ids). rewrite !N.mod_small by (exact Cf || lia).
    rewrite (prefix_slice _ _ _ _ _ X5 eq_refl eq_refl). cbn [on_sheets]. f_equal. f_equal. apply keep_eq.
    assert (D1 : (deepest tdepth args <= k)%nat) by lia. apply deepest_in in D1.
    assert (X7 : ext s1 s4) by exact (ext_trans _ _ _ X2 (ext_trans _ _ _ X3 X4)). clear - D1 G1 X7.
    induction G1 as [|x y args ids G _ IHg]; cbn [map]; constructor.
    + apply G; [exact (Forall_inv D1) | exact X7].
    + apply IHg. exact (Forall_inv_tail D1).
  - inversion K.
  - assert (KK : exists c, rectangle rows c /\ count rows < 65536 /\ c < 65536 /\ count rows * c < 65536 /\ Forall (Forall tree_kept) rows).
    { inversion K; subst. exists c. repeat split; assumption. }
    destruct KK as (c & R & L1 & L2 & L3 & Fa). cbn [tsize] in U. rewrite total_count in U.
    assert (T : exists s1 ess, mapM (mapM (convert g)) s rows = Some (s1, ess) /\ wf s1 /\ ext s s1 /\
      used s1 <= used s + total (total tsize) rows /\ Forall2 (Forall2 (fun x y => tgives g x y s1)) rows ess).
    { refine (mapM_total (mapM (convert g)) wf ext ext_refl ext_trans used (total tsize) (2 ^ 28)
                (fun l ys s => Forall2 (fun x y => tgives g x y s) l ys) _ rows _ s W _).
      - intros l ys a b H X. induction H as [|x y l ys G _ IHl]; constructor; [exact (tgives_ext _ _ _ _ _ G X) | exact IHl].
      - clear R U K L1 L2 L3. induction rows as [|row rows IHr]; [constructor|]. constructor.
        + intros s0 W0 U0.
          refine (mapM_total (convert g) wf ext ext_refl ext_trans used tsize (2 ^ 28) (tgives g) (tgives_ext g) row _ s0 W0 U0).
          assert (A := Forall_inv IH). assert (B := Forall_inv Fa). clear - A B.
          induction row as [|x row IHx]; [constructor|]. constructor.
          * exact (Forall_inv A (Forall_inv B)).
          * apply IHx; [exact (Forall_inv_tail A) | exact (Forall_inv_tail B)].
        + apply IHr; [exact (Forall_inv_tail IH) | exact (Forall_inv_tail Fa)].
      - lia. }
    destruct T as (s1 & ess & E1 & W1 & X1 & U1 & G1). rewrite E1. unfold ArModel.put_array.
    assert (Cc : count (concat rows) = count (concat ess)) by exact (F2_concat _ _ _ G1).
    assert (Cr : count rows = count ess) by exact (F2_count _ _ _ G1).
    assert (Re : rectangle ess c).
    { clear - R G1. revert R. induction G1 as [|x y l m H _ IHm]; intros R; constructor.
      - rewrite <- (F2_count _ _ _ H). exact (Forall_inv R).
      - apply IHm. exact (Forall_inv_tail R). }
    assert (Hc : count (concat rows) = count rows * c) by exact (count_concat _ _ R).
    assert (Tr : trunc_u16 (N.of_nat (length rows)) = count rows) by (apply N.mod_small; exact L1). rewrite Tr.
    assert (Ir : exists cc, trunc_u16 (N.of_nat (length (hd [] rows))) = cc /\ count rows * cc = count (concat ess) /\ rectangle ess cc).
    { destruct rows as [|r0 rows0].
      - exists 0. split; [reflexivity|]. split; [rewrite <- Cc; reflexivity|]. inversion G1. constructor.
      - exists c. split; [|split; [congruence | exact Re]]. cbn [hd]. fold (count r0). rewrite (Forall_inv R). apply N.mod_small. exact L2. }
    destruct Ir as (cc & Hcc & Hc2 & Rc). rewrite Hcc, Hc2. fold (count (concat ess)).
    assert (M : trunc_u16 (count (concat ess)) = count (concat ess)) by (apply N.mod_small; rewrite <- Cc, Hc; exact L3).
    rewrite M, N.eqb_refl. cbv zeta. fold (more_elems s1 (concat ess)). destruct (more_elems_spec s1 (concat ess) W1) as (W3 & X3 & U3).
    apply put_last; [exact W3 | exact (ext_trans _ _ _ X1 X3) | cbn [tsize]; rewrite total_count; lia | cbn [tsize]; rewrite total_count; exact U |].
    intros g' k s4 i D X4 N1. cbn [tdepth] in D. destruct k as [|k]; [lia|]. cbn [ArModel.rebuild]. cbv zeta. rewrite N1.
    assert (X5 := ext_asts _ _ X4). destruct X5 as (_ & _ & X5 & _). cbn [more_elems on_asts tree_arena aelems] in X5.
    assert (Cf : count (aelems (tree_arena s1)) < U32).
    { pose proof (afull_used s1) as F2. unfold afull in F2. change (2 ^ 28) with 268435456 in U. change U32 with 4294967296. lia. }
    unfold trunc_u32. fold (count (aelems (tree_arena s1))). rewrite Hc2, M, N.mod_small by exact Cf.
    rewrite (prefix_slice _ _ _ _ _ X5 eq_refl eq_refl). cbn [on_sheets]. f_equal. f_equal.
    rewrite Cr, to_nat_count.
    refine (grid_back (rebuild k g' s4) cc ess _ _ Rc [] 0 eq_refl _).
    + assert (D1 : (deepest (deepest tdepth) rows <= k)%nat) by lia. apply deepest_in in D1.
      assert (X7 : ext s1 s4) by exact (ext_trans _ _ _ X3 X4). clear - D1 G1 X7.
      induction G1 as [|x y rows ess H _ IHg]; cbn [map]; constructor.
      * assert (D2 := Forall_inv D1). cbv beta in D2. apply deepest_in in D2. clear - H D2 X7.
        induction H as [|u w x y G _ IHg]; cbn [map]; constructor.
        -- apply G; [exact (Forall_inv D2) | exact X7].
        -- apply IHg. exact (Forall_inv_tail D2).
      * apply IHg. exact (Forall_inv_tail D1).
    + rewrite N.add_0_l, <- Cr, Hc2, <- Cc, Hc. exact L3.
Qed.

Lemma reach_wf s : st_reach lower serial_of fraction_of hash_node hash_spec s -> wf s.
Proof.
  induction 1 as [|s v s' r _ W E | s g t s' i _ W E]; [exact wf_empty | |].
  - exact (proj1 (value_keeps serial_of serial_to fraction_of _ _ _ _ W E)).
  - exact (proj1 (convert_keeps _ _ _ _ _ W E)).
Qed.
Lemma later_ext s s' : later_store lower serial_of fraction_of hash_node hash_spec s s' -> wf s -> wf s' /\ ext s s'.
Proof.
  induction 1 as [s | s s1 v s' r _ IH E | s s1 g t s' i _ IH E]; intros W.
  - split; [exact W | apply ext_refl].
  - destruct (IH W) as (W1 & X1). destruct (value_keeps serial_of serial_to fraction_of _ _ _ _ W1 E) as (W2 & X2).
    split; [exact W2 | exact (ext_trans _ _ _ X1 X2)].
  - destruct (IH W) as (W1 & X1). destruct (convert_keeps _ _ _ _ _ W1 E) as (W2 & X2).
    split; [exact W2 | exact (ext_trans _ _ _ X1 X2)].
Qed.
End Trees.
