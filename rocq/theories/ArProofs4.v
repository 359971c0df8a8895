(** Storing a formula again gives the node it has. *)
From Coq Require Import List Bool NArith ZArith Lia ZifyN ZifyNat ZifyBool.
From Verif Require Import Base Maps LexModel LexProofs RtModel InternModel InternProofs SheetModel ArModel ArSpec ArProofs1 ArProofs2 ArProofs3.
Import ListNotations.
Open Scope N_scope.

(** A list without repetitions and the map from keys to places. *)
Definition dd {A K} (eqb : K -> K -> bool) (key : A -> K) (l : list A) (m : list (K * N)) : Prop :=
  (forall k d, nth_error l k = Some d -> mget eqb m (key d) = Some (N.of_nat k)) /\
  (forall h i, mget eqb m h = Some i -> exists d, nth_error l (N.to_nat i) = Some d /\ key d = h).
Lemma dd_nil {A K} eqb (key : A -> K) : dd eqb key [] [].
Proof. split; [intros [|k] d H; discriminate | discriminate]. Qed.
Lemma dd_snoc {A K} (eqb : K -> K -> bool) (key : A -> K) l m d : (forall a b, eqb a b = true <-> a = b) ->
  dd eqb key l m -> mget eqb m (key d) = None -> count (l ++ [d]) < 2 ^ 32 ->
  dd eqb key (l ++ [d]) (mput eqb m (key d) (trunc_u32 (N.of_nat (length l)))).
Proof.
  intros Sp (A1 & B1) Nn L. rewrite count_app in L. change (count [d]) with 1 in L. unfold count in L.
  assert (T : trunc_u32 (N.of_nat (length l)) = N.of_nat (length l)) by (apply N.mod_small; change U32 with (2 ^ 32); lia). rewrite T.
  split.
  - intros k x H. destruct (lt_dec k (length l)) as [Lt | Ge].
    + rewrite nth_error_app1 in H by exact Lt. pose proof (A1 _ _ H) as M.
      rewrite mget_put_other; [exact M | exact Sp | congruence].
    + assert (k = length l).
      { assert (k < length (l ++ [d]))%nat by (apply nth_error_Some; congruence). rewrite app_length in H0. cbn in H0. lia. }
      subst k. rewrite nth_error_app2, Nat.sub_diag in H by lia. injection H as <-. apply mget_put_same. exact Sp.
  - intros h i H. destruct (eqb (key d) h) eqn:E.
    + apply Sp in E. subst h. rewrite mget_put_same in H by exact Sp. injection H as <-. exists d.
      rewrite Nnat.Nat2N.id, nth_error_app2, Nat.sub_diag by lia. split; reflexivity.
    + assert (Ne : key d <> h) by (intros Y; apply Sp in Y; congruence). rewrite mget_put_other in H by (exact Sp || exact Ne).
      destruct (B1 _ _ H) as (x & X & Y). exists x. split; [|exact Y]. exact (prefix_nth _ _ _ _ (prefix_app _ _) X).
Qed.
Lemma prefix_in {A} (l m : list A) x : prefix l m -> In x l -> In x m.
Proof. intros (r & ->) H. apply in_or_app. left. exact H. Qed.

Section Again.
Variable lower : text -> text.
Variables (serial_of : Z -> N) (serial_to : N -> Z) (fraction_of : Z -> N).
Variables (hash_node : anode -> N) (hash_spec : tspec -> N).
Notation store_value := (store_value serial_of fraction_of).
Notation insert_node := (insert_node hash_node).
Notation put_node := (put_node hash_node).
Notation convert := (convert lower serial_of fraction_of hash_node hash_spec).
Notation intern_spec := (intern_spec hash_spec).
Notation pack_ref := (pack_ref lower hash_spec).
Notation no_clash := (no_clash hash_node hash_spec).
Notation put_node_spec := (put_node_spec serial_of serial_to fraction_of hash_node).
Notation insert_node_spec := (insert_node_spec serial_of serial_to fraction_of hash_node).
Notation intern_spec_spec := (intern_spec_spec serial_of serial_to fraction_of hash_spec).
Notation pack_ref_spec := (pack_ref_spec lower serial_of serial_to fraction_of hash_spec).
Notation more_args_spec := (more_args_spec lower).
Notation convert_keeps := (convert_keeps lower serial_of serial_to fraction_of hash_node hash_spec).
Notation value_keeps := (value_keeps serial_of serial_to fraction_of).

Definition shared_asts (a : asts) : Prop := dd N.eqb hash_node (nodes a) (nmap a) /\ dd N.eqb hash_spec (specs a) (smap a).
Definition shared (s : store) : Prop := shared_asts (tree_arena s) /\ dd ekey_eqb (fun k => k) (errs (ers s)) (ecache (ers s)).
Definition small (s : store) : Prop := used s <= 2 ^ 28 /\ no_clash s.
Definition I (s : store) : Prop := wf s /\ (small s -> shared s).

Lemma used_ext s s' : ext s s' -> used s <= used s'.
Proof.
  intros ((A1 & A2 & A3) & (A4 & A5 & A6) & (A7 & A8) & (A9 & A10 & A11 & A12 & A13)). unfold used.
  repeat match goal with H : prefix _ _ |- _ => apply prefix_count in H end. lia.
Qed.
Lemma distinct_prefix {A} (h : A -> N) l m : prefix l m -> distinct_hashes h m -> distinct_hashes h l.
Proof. intros P D x y X Y. apply D; [exact (prefix_in _ _ _ P X) | exact (prefix_in _ _ _ P Y)]. Qed.
Lemma small_ext s s' : ext s s' -> small s' -> small s.
Proof.
  intros X (U & C & D). split; [pose proof (used_ext _ _ X); lia|]. apply ext_asts in X. destruct X as (P & _ & _ & _ & Q).
  split; [exact (distinct_prefix _ _ _ P C) | exact (distinct_prefix _ _ _ Q D)].
Qed.
Lemma small_counts s : small s -> count (nodes (tree_arena s)) < 2 ^ 32 /\ count (specs (tree_arena s)) < 2 ^ 32 /\ count (errs (ers s)) < 2 ^ 32.
Proof. intros (U & _). unfold used in U. change (2 ^ 28) with 268435456 in U. change (2 ^ 32) with 4294967296. lia. Qed.

(** * Every call keeps the maps complete *)
Lemma insert_node_shared a d a' i : insert_node a d = (a', i) -> count (nodes a') < 2 ^ 32 -> distinct_hashes hash_node (nodes a') ->
  shared_asts a -> shared_asts a'.
Proof.
  unfold ArModel.insert_node. cbv zeta. intros H L D (A & B). destruct (mget N.eqb (nmap a) (hash_node d)) as [j|] eqn:M.
  - destruct (proj2 A _ _ M) as (d' & E & Hh). rewrite E in H. destruct (anode_eq_dec d' d) as [-> | Ne].
    + injection H as <- _. split; assumption.
    + exfalso. injection H as <- _. cbn [nodes] in D. apply Ne. apply D; [| |exact Hh].
      * apply in_or_app. left. exact (nth_error_In _ _ E).
      * apply in_or_app. right. left. reflexivity.
  - injection H as <- _. split; cbn [nodes nmap specs smap] in *; [|exact B]. apply dd_snoc; [exact N.eqb_eq | exact A | exact M | exact L].
Qed.
Lemma intern_spec_shared a p a' i : intern_spec a p = (a', i) -> count (specs a') < 2 ^ 32 -> distinct_hashes hash_spec (specs a') ->
  shared_asts a -> shared_asts a'.
Proof.
  unfold ArModel.intern_spec. cbv zeta. intros H L D (A & B). destruct (mget N.eqb (smap a) (hash_spec p)) as [j|] eqn:M.
  - destruct (proj2 B _ _ M) as (q & E & Hh). rewrite E in H. destruct (tspec_eqb q p) eqn:T.
    + injection H as <- _. split; assumption.
    + exfalso. injection H as <- _. cbn [specs] in D. assert (q = p); [|subst; rewrite tspec_eqb_refl in T; discriminate].
      apply D; [| |exact Hh].
      * apply in_or_app. left. exact (nth_error_In _ _ E).
      * apply in_or_app. right. left. reflexivity.
  - injection H as <- _. split; cbn [nodes nmap specs smap] in *; [exact A|]. apply dd_snoc; [exact N.eqb_eq | exact B | exact M | exact L].
Qed.
Lemma intern_ast_shared a t a' i : intern_ast a t = Some (a', i) -> shared_asts a -> shared_asts a'.
Proof.
  unfold intern_ast. destruct (interned (astrs a) t) as [[g j]|]; [|discriminate]. intros H. injection H as <- _. intros K. exact K.
Qed.
Lemma I_asts s a : wf (on_asts s a) -> ext s (on_asts s a) -> I s ->
  (small (on_asts s a) -> shared_asts (tree_arena s) -> shared_asts a) -> I (on_asts s a).
Proof.
  intros W X (_ & K) H. split; [exact W|]. intros Sm. destruct (K (small_ext _ _ X Sm)) as (A & B). split; [exact (H Sm A) | exact B].
Qed.
Lemma put_node_I s d s' i : put_node s d = (s', i) -> I s -> I s' /\ ext s s'.
Proof.
  intros H K. destruct (put_node_spec _ _ _ _ H (proj1 K)) as (W & X & _). split; [|exact X].
  unfold ArModel.put_node in H. destruct (insert_node (tree_arena s) d) as [a j] eqn:E. injection H as <- <-.
  apply I_asts; try assumption. intros Sm. pose proof (small_counts _ Sm) as (L & _). destruct Sm as (_ & D & _).
  exact (insert_node_shared _ _ _ _ E L D).
Qed.
Lemma named_I s t s' i : named s t = Some (s', i) -> I s -> I s' /\ ext s s'.
Proof.
  intros H K. destruct (named_spec _ _ _ _ (proj1 K) H) as (W & X & _). split; [|exact X].
  unfold named in H. destruct (intern_ast (tree_arena s) t) as [[a j]|] eqn:E; [|discriminate]. injection H as <- <-.
  apply I_asts; try assumption. intros _. exact (intern_ast_shared _ _ _ _ E).
Qed.
Lemma pack_ref_shared g a r a' c : pack_ref g a r = Some (a', c) -> count (specs a') < 2 ^ 32 -> distinct_hashes hash_spec (specs a') ->
  shared_asts a -> shared_asts a'.
Proof.
  assert (Sh : forall s a1 k, pack_sheet lower g a s = Some (a1, k) -> shared_asts a -> shared_asts a1).
  { intros s a1 k. unfold pack_sheet. destruct s as [n|]; [|congruence]. destruct (get_id lower g n); [congruence|].
    destruct (intern_ast a n) as [[a2 i]|] eqn:E; [|discriminate]. intros H. injection H as <- _. exact (intern_ast_shared _ _ _ _ E). }
  destruct r as [s row col ra ca | s bx | f l row col ra ca | f l bx | raw book sheet row col ra ca | raw book sheet bx | n p | n];
    cbn [ArModel.pack_ref]; intros H L D K.
  1, 2: destruct (pack_sheet lower g a s) as [[a1 k]|] eqn:E; [|discriminate]; injection H as <- _; exact (Sh _ _ _ E K).
  all: repeat match type of H with
    | (match intern_ast ?a ?t with _ => _ end) = _ =>
        let E := fresh "E" in let a' := fresh "a" in let i := fresh "i" in
        destruct (intern_ast a t) as [[a' i]|] eqn:E; [|discriminate H]; apply intern_ast_shared in E; [|assumption]
    end.
  5: destruct p as [p|]; [|injection H as <- _; assumption]; destruct (intern_spec a0 p) as [a2 j] eqn:E2; injection H as <- _;
     exact (intern_spec_shared _ _ _ _ E2 L D E).
  all: injection H as <- _; assumption.
Qed.

Lemma insert_error_shared e k m e' i : insert_error e k m = Some (e', i) -> count (errs e') < 2 ^ 32 ->
  dd ekey_eqb (fun k => k) (errs e) (ecache e) -> dd ekey_eqb (fun k => k) (errs e') (ecache e').
Proof.
  unfold insert_error. destruct (match m with None => _ | Some t => _ end) as [[g id]|]; [|discriminate]. intros H L D.
  destruct (mget ekey_eqb (ecache e) (k, id)) as [j|] eqn:M; injection H as <- _; cbn [errs ecache] in *; [exact D|].
  exact (dd_snoc ekey_eqb (fun k => k) _ _ (k, id) ekey_eqb_spec D M L).
Qed.
Lemma value_shared v : forall s s' r, I s -> store_value s v = Some (s', r) -> I s' /\ ext s s'.
Proof.
  assert (Q : forall v s s' r, I s -> store_value s v = Some (s', r) -> tree_arena s' = tree_arena s -> ers s' = ers s -> I s' /\ ext s s').
  { intros w s s' r (W & K) H T R. destruct (value_keeps w s s' r W H) as (W' & X). split; [|exact X]. split; [exact W'|].
    intros Sm. unfold shared. rewrite T, R. exact (K (small_ext _ _ X Sm)). }
  assert (Qf : forall s t f s' r, put_float s t f = Some (s', r) -> tree_arena s' = tree_arena s /\ ers s' = ers s).
  { intros s t f s' r. unfold put_float. destruct (insert_float (scal s) f) as [[c i]|]; [|discriminate].
    destruct (pack_index t i); [|discriminate]. intros H. injection H as <- _. split; reflexivity. }
  pattern v; apply val_all; clear v; [intros v | intros rows IH].
  - destruct v; try exact Logic.I; intros s s' r K H; pose proof H as H'; cbn [ArModel.store_value] in H;
      try (apply Qf in H; destruct H as (T & R); exact (Q _ _ _ _ K H' T R));
      try (injection H as <- _; exact (Q _ _ _ _ K H' eq_refl eq_refl)).
    + destruct (small_int (as_i32 z)); [injection H as <- _; exact (Q _ _ _ _ K H' eq_refl eq_refl)|].
      destruct (insert_integer (scal s) z) as [[c i]|]; [|discriminate]. destruct (pack_index T_LARGE i); [|discriminate].
      injection H as <- _. exact (Q _ _ _ _ K H' eq_refl eq_refl).
    + destruct (interned (strs s) t) as [[g i]|]; [|discriminate]. destruct (pack_index T_STR i); [|discriminate].
      injection H as <- _. exact (Q _ _ _ _ K H' eq_refl eq_refl).
    + destruct (insert_error (ers s) kind msg) as [[e i]|] eqn:E; [|discriminate]. destruct (pack_index T_ERR i); [|discriminate].
      injection H as <- _. destruct (value_keeps _ _ _ _ (proj1 K) H') as (W & X). split; [|exact X]. split; [exact W|].
      intros Sm. destruct (proj2 K (small_ext _ _ X Sm)) as (A & B). split; [exact A|].
      exact (insert_error_shared _ _ _ _ _ E (proj2 (proj2 (small_counts _ Sm))) B).
    + destruct (insert_integer (scal s) (num_seconds ns)) as [[c i]|]; [|discriminate]. destruct (pack_index T_DUR _); [|discriminate].
      injection H as <- _. exact (Q _ _ _ _ K H' eq_refl eq_refl).
  - intros s s' r K H. pose proof H as H'. cbn [ArModel.store_value] in H.
    destruct (mapM (mapM store_value) s rows) as [[s1 es]|] eqn:E; [|discriminate].
    assert (K1 : I s1 /\ ext s s1).
    { refine (mapM_keeps _ I ext ext_refl ext_trans rows _ s s1 es K E).
      eapply Forall_impl; [|exact IH]. intros row Hrow s2 s3 y W2 E2. cbv beta in Hrow.
      exact (mapM_keeps _ I ext ext_refl ext_trans row Hrow s2 s3 y W2 E2). }
    destruct (insert_rows (arrs s1) _ _ _) as [[a i]|]; [|discriminate]. destruct (pack_index T_ARR i); [|discriminate].
    injection H as <- _. destruct (value_keeps _ _ _ _ (proj1 K) H') as (W & X). split; [|exact X]. split; [exact W|].
    intros Sm. destruct K1 as ((_ & K1) & _). apply K1. destruct Sm as (U & D). split; [|exact D].
    revert U. unfold used. cbn [scal strs arrs ers tree_arena].
    assert (P : count (dims (arrs s1)) <= count (dims a) /\ count (elems (arrs s1)) <= count (elems a)).
    { cbn [ArModel.store_value] in H'. rewrite E in H'. clear - H'. unfold insert_rows in H'.
      destruct (_ =? _) in H'; [|discriminate]. destruct (_ =? _) in H'; [discriminate|].
      destruct (pack_index _ _) in H'; [|discriminate]. injection H' as <- _. cbn [dims elems]. rewrite !count_app. lia. }
    lia.
Qed.
Lemma convert_shared g t : forall s s' i, I s -> convert g s t = Some (s', i) -> I s' /\ ext s s'.
Proof.
  induction t as [v | | o r | op e IHe | op l r IHl IHr | n args IH | f args | rows IH] using tree_all;
    intros s s' i K H; cbn [ArModel.convert] in H.
  - destruct (store_value s v) as [[s1 q]|] eqn:E; [|discriminate]. apply put_some in H.
    destruct (value_shared _ _ _ _ K E) as (K1 & X1). destruct (put_node_I _ _ _ _ H K1) as (K2 & X2).
    split; [exact K2 | exact (ext_trans _ _ _ X1 X2)].
  - apply put_some in H. exact (put_node_I _ _ _ _ H K).
  - destruct (pack_ref g (tree_arena s) r) as [[a c]|] eqn:E; [|discriminate].
    destruct (pack_ref_spec _ _ _ _ _ (w_astrs _ (proj1 K)) E) as (R & X & _).
    destruct (named (on_asts s a) o) as [[s1 j]|] eqn:E1; [|discriminate]. apply put_some in H.
    assert (K0 : I (on_asts s a)).
    { apply I_asts; [exact (on_asts_wf _ _ (proj1 K) R) | exact (on_asts_ext _ _ X) | exact K |].
      intros Sm. pose proof (small_counts _ Sm) as (_ & L & _). destruct Sm as (_ & _ & D). exact (pack_ref_shared _ _ _ _ _ E L D). }
    destruct (named_I _ _ _ _ E1 K0) as (K1 & X1).
    destruct (put_node_I _ _ _ _ H K1) as (K2 & X2). split; [exact K2|].
    exact (ext_trans _ _ _ (on_asts_ext _ _ X) (ext_trans _ _ _ X1 X2)).
  - destruct (convert g s e) as [[s1 j]|] eqn:E; [|discriminate]. destruct (IHe _ _ _ K E) as (K1 & X1).
    destruct (named s1 op) as [[s2 n]|] eqn:E2; [|discriminate]. destruct (named_I _ _ _ _ E2 K1) as (K2 & X2).
    apply put_some in H. destruct (put_node_I _ _ _ _ H K2) as (K3 & X3). split; [exact K3|].
    exact (ext_trans _ _ _ X1 (ext_trans _ _ _ X2 X3)).
  - destruct (convert g s l) as [[s1 j]|] eqn:E; [|discriminate]. destruct (IHl _ _ _ K E) as (K1 & X1).
    destruct (convert g s1 r) as [[s2 k]|] eqn:E2; [|discriminate]. destruct (IHr _ _ _ K1 E2) as (K2 & X2).
    destruct (named s2 op) as [[s3 n]|] eqn:E3; [|discriminate]. destruct (named_I _ _ _ _ E3 K2) as (K3 & X3).
    apply put_some in H. destruct (put_node_I _ _ _ _ H K3) as (K4 & X4). split; [exact K4|].
    exact (ext_trans _ _ _ X1 (ext_trans _ _ _ X2 (ext_trans _ _ _ X3 X4))).
  - destruct (mapM (convert g) s args) as [[s1 ids]|] eqn:E; [|discriminate].
    destruct (mapM_keeps _ I ext ext_refl ext_trans args IH _ _ _ K E) as (K1 & X1).
    unfold ArModel.put_function in H. destruct (named s1 n) as [[s2 m]|] eqn:E2; [|discriminate].
    destruct (named_I _ _ _ _ E2 K1) as (K2 & X2). cbv zeta in H. apply put_some in H. fold (more_args s2 ids) in H.
    destruct (more_args_spec s2 ids (proj1 K2)) as (W3 & X3 & _).
    assert (K3 : I (more_args s2 ids)) by (apply I_asts; [exact W3 | exact X3 | exact K2 | intros _ Y; exact Y]).
    destruct (put_node_I _ _ _ _ H K3) as (K4 & X4). split; [exact K4|].
    exact (ext_trans _ _ _ X1 (ext_trans _ _ _ X2 (ext_trans _ _ _ X3 X4))).
  - destruct (store_value s call_error) as [[s1 q]|] eqn:E; [|discriminate]. apply put_some in H.
    destruct (value_shared _ _ _ _ K E) as (K1 & X1). destruct (put_node_I _ _ _ _ H K1) as (K2 & X2).
    split; [exact K2 | exact (ext_trans _ _ _ X1 X2)].
  - destruct (mapM (mapM (convert g)) s rows) as [[s1 ids]|] eqn:E; [|discriminate].
    assert (K1 : I s1 /\ ext s s1).
    { refine (mapM_keeps _ I ext ext_refl ext_trans rows _ s s1 ids K E).
      eapply Forall_impl; [|exact IH]. intros row Hrow s2 s3 y W2 E2. cbv beta in Hrow.
      exact (mapM_keeps _ I ext ext_refl ext_trans row Hrow s2 s3 y W2 E2). }
    destruct K1 as (K1 & X1). unfold ArModel.put_array in H. destruct (_ =? _); [|discriminate]. cbv zeta in H. apply put_some in H.
    fold (more_elems s1 (concat ids)) in H. destruct (more_elems_spec lower s1 (concat ids) (proj1 K1)) as (W3 & X3 & _).
    assert (K3 : I (more_elems s1 (concat ids))) by (apply I_asts; [exact W3 | exact X3 | exact K1 | intros _ Y; exact Y]).
    destruct (put_node_I _ _ _ _ H K3) as (K4 & X4). split; [exact K4|]. exact (ext_trans _ _ _ X1 (ext_trans _ _ _ X3 X4)).
Qed.

(** * Storing again *)
Lemma interned_again g i t : int_reach g -> int_get g i = Some t -> interned g t = Some (g, i).
Proof.
  intros R H. apply (proj2 (get_id_spec g t i R)) in H. unfold int_get_id in H. unfold interned, intern. rewrite H. reflexivity.
Qed.
Lemma intern_ast_again a b t a' i : int_reach (astrs a) -> intern_ast a t = Some (a', i) -> aext a' b -> int_reach (astrs b) ->
  intern_ast b t = Some (b, i).
Proof.
  intros R H X Rb. destruct (intern_ast_spec _ _ _ _ R H) as (_ & _ & G). unfold intern_ast.
  rewrite (interned_again _ _ _ Rb (aget _ _ _ _ X G)). destruct b; reflexivity.
Qed.
Lemma named_again s t s1 i s2 : wf s -> named s t = Some (s1, i) -> wf s2 -> ext s1 s2 -> named s2 t = Some (s2, i).
Proof.
  intros W H W2 X. unfold named in *. destruct (intern_ast (tree_arena s) t) as [[a j]|] eqn:E; [|discriminate]. injection H as <- <-.
  apply ext_asts in X. cbn [on_asts tree_arena] in X. rewrite (intern_ast_again _ _ _ _ _ (w_astrs _ W) E X (w_astrs _ W2)).
  destruct s2; reflexivity.
Qed.
Lemma put_node_again s d s1 i s2 : wf s -> put_node s d = (s1, i) -> small s2 -> shared s2 -> ext s1 s2 -> put_node s2 d = (s2, i).
Proof.
  intros W H Sm (K & _) X. destruct (put_node_spec _ _ _ _ H W) as (_ & _ & _ & G).
  assert (U : used s1 <= 2 ^ 28) by (pose proof (used_ext _ _ X); destruct Sm; lia).
  specialize (G U). apply (ext_node _ _ _ _ X) in G. destruct K as (K & _). pose proof (proj1 K _ _ G) as M. rewrite N2Nat.id in M.
  unfold ArModel.put_node, ArModel.insert_node. cbv zeta. rewrite M, G. destruct (anode_eq_dec d d) as [_ | Ne]; [|congruence].
  destruct s2; reflexivity.
Qed.
Lemma pack_sheet_again g a s a' k b : int_reach (astrs a) -> pack_sheet lower g a s = Some (a', k) -> aext a' b -> int_reach (astrs b) ->
  pack_sheet lower g b s = Some (b, k).
Proof.
  intros R H X Rb. unfold pack_sheet in *. destruct s as [n|]; [|injection H as _ <-; reflexivity].
  destruct (get_id lower g n); [injection H as _ <-; reflexivity|].
  destruct (intern_ast a n) as [[a1 i]|] eqn:E; [|discriminate]. injection H as <- <-.
  rewrite (intern_ast_again _ _ _ _ _ R E X Rb). reflexivity.
Qed.
Lemma pack_ref_again g a r a' c b : int_reach (astrs a) -> pack_ref g a r = Some (a', c) -> aext a' b -> int_reach (astrs b) ->
  count (specs a') < 2 ^ 32 -> shared_asts b -> pack_ref g b r = Some (b, c).
Proof.
  intros R H X Rb L (_ & K).
  destruct r as [s row col ra ca | s bx | f l row col ra ca | f l bx | raw book sheet row col ra ca | raw book sheet bx | n p | n];
    cbn [ArModel.pack_ref] in *.
  1, 2: destruct (pack_sheet lower g a s) as [[a1 k]|] eqn:E; [|discriminate]; injection H as <- <-;
        rewrite (pack_sheet_again _ _ _ _ _ _ R E X Rb); reflexivity.
  5: { destruct (intern_ast a n) as [[a1 i]|] eqn:E; [|discriminate]. destruct (intern_ast_spec _ _ _ _ R E) as (R1 & X1 & _).
       destruct p as [p|]; [|injection H as <- <-; rewrite (intern_ast_again _ _ _ _ _ R E X Rb); reflexivity].
       destruct (intern_spec a1 p) as [a2 j] eqn:E2. injection H as <- <-.
       destruct (intern_spec_spec _ _ _ _ E2) as (X2 & _ & _ & G). specialize (G L).
       rewrite (intern_ast_again _ _ _ _ _ R E (aext_trans _ _ _ X2 X) Rb).
       destruct X as (_ & _ & _ & _ & Xs). pose proof (prefix_nth _ _ _ _ Xs G) as G'. pose proof (proj1 K _ _ G') as M. rewrite N2Nat.id in M.
       unfold ArModel.intern_spec. cbv zeta. rewrite M, G', tspec_eqb_refl. reflexivity. }
  all: repeat match type of H with
    | (match intern_ast ?a ?t with _ => _ end) = _ =>
        let E := fresh "E" in let a' := fresh "a" in let i := fresh "i" in let R' := fresh "R" in let X' := fresh "X" in
        destruct (intern_ast a t) as [[a' i]|] eqn:E; [|discriminate H];
        match goal with R : int_reach (astrs a) |- _ => destruct (intern_ast_spec _ _ _ _ R E) as (R' & X' & _) end
    end; injection H as <- <-.
  1, 2: rewrite (intern_ast_again _ _ _ _ _ R E (aext_trans _ _ _ X1 X) Rb), (intern_ast_again _ _ _ _ _ R0 E0 X Rb); reflexivity.
  1, 2: rewrite (intern_ast_again _ _ _ _ _ R E (aext_trans _ _ _ X1 (aext_trans _ _ _ X2 X)) Rb),
          (intern_ast_again _ _ _ _ _ R0 E0 (aext_trans _ _ _ X2 X) Rb), (intern_ast_again _ _ _ _ _ R1 E1 X Rb); reflexivity.
  rewrite (intern_ast_again _ _ _ _ _ R E X Rb). reflexivity.
Qed.

Lemma value_again v s s1 r s2 : plain v -> wf s -> store_value s v = Some (s1, r) -> wf s2 -> small s2 -> shared s2 -> ext s1 s2 ->
  store_value s2 v = Some (s2, r).
Proof.
  intros P W H W2 Sm K X. pose proof H as H'. destruct v; try contradiction; cbn [ArModel.store_value] in *;
    try (injection H as _ <-; reflexivity).
  - destruct (small_int (as_i32 z)); [injection H as _ <-; reflexivity|].
    exfalso. unfold insert_integer in H. cbv zeta in H. destruct (_ <? _); [discriminate|].
    unfold pack_index in H. destruct (_ <=? PAYLOAD_MASK) eqn:E; [|discriminate].
    assert (N.testbit (N.lor (trunc_u32 (N.of_nat (length (ints (scal s))))) INT_BIT) 31 = true).
    { rewrite N.lor_spec. change (N.testbit INT_BIT 31) with true. apply orb_true_r. }
    set (q := N.lor _ _) in *. assert (q < 2 ^ 28) by (unfold PAYLOAD_MASK in E; change (2 ^ 28) with 268435456; lia).
    destruct (N.eq_dec q 0) as [Z | Z]; [rewrite Z in H0; discriminate|].
    rewrite N.bits_above_log2 in H0; [discriminate|]. assert (N.log2 q < 28) by (apply N.log2_lt_pow2; lia). lia.
  - destruct (interned (strs s) t) as [[g i]|] eqn:E; [|discriminate]. destruct (pack_index T_STR i) as [q|] eqn:Ep; [|discriminate].
    injection H as <- <-. destruct (interned_spec _ _ _ _ (w_strs _ W) E) as (_ & _ & G).
    destruct X as ((_ & _ & X) & _). cbn [strs] in X. rewrite (interned_again _ _ _ (w_strs _ W2) (prefix_get _ _ _ _ X G)), Ep.
    destruct s2; reflexivity.
  - destruct (insert_error (ers s) kind msg) as [[e i]|] eqn:E; [|discriminate]. destruct (pack_index T_ERR i) as [q|] eqn:Ep; [|discriminate].
    injection H as <- <-. destruct (insert_error_spec _ _ _ _ _ (w_estrs _ W) (w_cache _ W) E) as (_ & _ & _ & _ & (id & N1 & M)).
    assert (C : count (errs e) < 2 ^ 32).
    { pose proof (small_counts _ (small_ext _ _ X Sm)) as (_ & _ & C). exact C. }
    specialize (N1 C). destruct X as (_ & _ & (X1 & X2) & _). cbn [ers] in X1, X2.
    destruct K as (_ & K). pose proof (proj1 K _ _ (prefix_nth _ _ _ _ X1 N1)) as Mc. cbv beta in Mc. rewrite N2Nat.id in Mc.
    assert (Z : insert_error (ers s2) kind msg = Some (ers s2, i)).
    { unfold insert_error. destruct msg as [t|].
      - destruct M as (j & -> & M). rewrite (interned_again _ _ _ (w_estrs _ W2) (prefix_get _ _ _ _ X2 M)), Mc. destruct (ers s2); reflexivity.
      - subst id. rewrite Mc. destruct (ers s2); reflexivity. }
    rewrite Z, Ep. destruct s2; reflexivity.
Qed.

Lemma convert_again g t : shareable t -> forall s s1 i s2, I s -> convert g s t = Some (s1, i) ->
  wf s2 -> small s2 -> shared s2 -> ext s1 s2 -> convert g s2 t = Some (s2, i).
Proof.
  induction t as [v | | o r | op e IHe | op l r IHl IHr | n args IH | f args | rows IH] using tree_all;
    intros P s s1 i s2 K H W2 Sm Sh X; try contradiction; cbn [ArModel.convert shareable] in *.
  - destruct (store_value s v) as [[s3 q]|] eqn:E; [|discriminate]. apply put_some in H.
    destruct (value_shared _ _ _ _ K E) as (K3 & _). destruct (put_node_I _ _ _ _ H K3) as (_ & X4).
    rewrite (value_again _ _ _ _ _ P (proj1 K) E W2 Sm Sh (ext_trans _ _ _ X4 X)).
    rewrite (put_node_again _ _ _ _ _ (proj1 K3) H Sm Sh X). reflexivity.
  - apply put_some in H. rewrite (put_node_again _ _ _ _ _ (proj1 K) H Sm Sh X). reflexivity.
  - destruct (pack_ref g (tree_arena s) r) as [[a c]|] eqn:E; [|discriminate].
    destruct (pack_ref_spec _ _ _ _ _ (w_astrs _ (proj1 K)) E) as (R & Xa & _). pose proof (on_asts_wf _ _ (proj1 K) R) as W0.
    destruct (named (on_asts s a) o) as [[s3 j]|] eqn:E1; [|discriminate]. apply put_some in H.
    destruct (named_spec _ _ _ _ W0 E1) as (W3 & X3 & _). destruct (put_node_spec _ _ _ _ H W3) as (_ & X4 & _).
    pose proof (ext_trans _ _ _ X4 X) as X5. pose proof (ext_trans _ _ _ X3 X5) as X6.
    assert (L : count (specs a) < 2 ^ 32) by (pose proof (small_counts _ (small_ext _ _ X6 Sm)) as (_ & L & _); exact L).
    pose proof (ext_asts _ _ X6) as X7. cbn [on_asts tree_arena] in X7.
    rewrite (pack_ref_again _ _ _ _ _ _ (w_astrs _ (proj1 K)) E X7 (w_astrs _ W2) L (proj1 Sh)).
    assert (Eta : on_asts s2 (tree_arena s2) = s2) by (destruct s2; reflexivity). rewrite Eta.
    rewrite (named_again _ _ _ _ _ W0 E1 W2 X5). rewrite (put_node_again _ _ _ _ _ W3 H Sm Sh X). reflexivity.
  - destruct (convert g s e) as [[s3 j]|] eqn:E; [|discriminate]. destruct (convert_shared _ _ _ _ _ K E) as (K3 & _).
    destruct (named s3 op) as [[s4 n]|] eqn:E4; [|discriminate]. destruct (named_I _ _ _ _ E4 K3) as (K4 & X4).
    apply put_some in H. destruct (put_node_I _ _ _ _ H K4) as (_ & X5).
    pose proof (ext_trans _ _ _ X5 X) as X6.
    rewrite (IHe P _ _ _ _ K E W2 Sm Sh (ext_trans _ _ _ X4 X6)).
    rewrite (named_again _ _ _ _ _ (proj1 K3) E4 W2 X6), (put_node_again _ _ _ _ _ (proj1 K4) H Sm Sh X). reflexivity.
  - destruct P as (Pl & Pr). destruct (convert g s l) as [[s3 j]|] eqn:E; [|discriminate]. destruct (convert_shared _ _ _ _ _ K E) as (K3 & _).
    destruct (convert g s3 r) as [[s3' j']|] eqn:E'; [|discriminate]. destruct (convert_shared _ _ _ _ _ K3 E') as (K3' & X3').
    destruct (named s3' op) as [[s4 n]|] eqn:E4; [|discriminate]. destruct (named_I _ _ _ _ E4 K3') as (K4 & X4).
    apply put_some in H. destruct (put_node_I _ _ _ _ H K4) as (_ & X5).
    pose proof (ext_trans _ _ _ X5 X) as X6. pose proof (ext_trans _ _ _ X4 X6) as X7.
    rewrite (IHl Pl _ _ _ _ K E W2 Sm Sh (ext_trans _ _ _ X3' X7)).
    rewrite (IHr Pr _ _ _ _ K3 E' W2 Sm Sh X7).
    rewrite (named_again _ _ _ _ _ (proj1 K3') E4 W2 X6), (put_node_again _ _ _ _ _ (proj1 K4) H Sm Sh X). reflexivity.
Qed.

Lemma reach_I s : st_reach lower serial_of fraction_of hash_node hash_spec s -> I s.
Proof.
  induction 1 as [|s v s' r _ W E | s g t s' i _ W E].
  - split; [exact wf_empty|]. intros _. split; [split; apply dd_nil | apply dd_nil].
  - exact (proj1 (value_shared _ _ _ _ W E)).
  - exact (proj1 (convert_shared _ _ _ _ _ W E)).
Qed.
Lemma later_I s s' : later_store lower serial_of fraction_of hash_node hash_spec s s' -> I s -> I s' /\ ext s s'.
Proof.
  induction 1 as [s | s s1 v s' r _ IH E | s s1 g t s' i _ IH E]; intros W.
  - split; [exact W | apply ext_refl].
  - destruct (IH W) as (W1 & X1). destruct (value_shared _ _ _ _ W1 E) as (W2 & X2).
    split; [exact W2 | exact (ext_trans _ _ _ X1 X2)].
  - destruct (IH W) as (W1 & X1). destruct (convert_shared _ _ _ _ _ W1 E) as (W2 & X2).
    split; [exact W2 | exact (ext_trans _ _ _ X1 X2)].
Qed.
Lemma same_node g t s s1 i s2 : st_reach lower serial_of fraction_of hash_node hash_spec s -> shareable t ->
  convert g s t = Some (s1, i) -> later_store lower serial_of fraction_of hash_node hash_spec s1 s2 ->
  used s2 <= 2 ^ 28 -> no_clash s2 -> convert g s2 t = Some (s2, i).
Proof.
  intros R P E Lt U C. pose proof (reach_I _ R) as K. destruct (convert_shared _ _ _ _ _ K E) as (K1 & _).
  destruct (later_I _ _ Lt K1) as (K2 & X). assert (Sm : small s2) by (split; assumption).
  exact (convert_again _ _ P _ _ _ _ K E (proj1 K2) Sm (proj2 K2 Sm) X).
Qed.
End Again.
