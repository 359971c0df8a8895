From Coq Require Import ZifyN ZifyNat ZifyBool.
From Verif Require Import Base Maps InternModel.
Local Open Scope N_scope.

Record IInv (g : interner) : Prop := {
  ii_len : N.of_nat (length (strings g)) <= INVALID_ID;
  ii_a : forall s id, mget text_eqb (lookup g) s = Some id -> nth_error (strings g) (N.to_nat id) = Some s;
  ii_b : forall k s, nth_error (strings g) k = Some s -> mget text_eqb (lookup g) s = Some (N.of_nat k) }.

Lemma intern_cases : forall g s, IInv g ->
  (exists id, mget text_eqb (lookup g) s = Some id /\ intern g s = Ok (g, id)) \/
  (mget text_eqb (lookup g) s = None /\
   (N.of_nat (length (strings g)) = INVALID_ID /\ intern g s = Panic \/
    N.of_nat (length (strings g)) < INVALID_ID /\
    intern g s = Ok (mkInt (strings g ++ [s]) (mput text_eqb (lookup g) s (N.of_nat (length (strings g)))),
                     N.of_nat (length (strings g))))).
Proof.
  intros g s [L A B]. unfold intern. destruct (mget text_eqb (lookup g) s) as [id|] eqn:E; [left; eauto|right].
  split; auto. unfold trunc_u32. rewrite N.mod_small by (unfold U32, INVALID_ID in *; change (2 ^ 32) with 4294967296; lia).
  unfold MAX_ID, INVALID_ID in *. destruct (4294967294 <? N.of_nat (length (strings g))) eqn:M; [left|right]; split; auto; lia.
Qed.

Lemma iinv_new : IInv int_new.
Proof. split; cbn; [vm_compute; discriminate|discriminate|]. intros [|k] s H; discriminate. Qed.

Lemma iinv_step : forall g s g' id, IInv g -> intern g s = Ok (g', id) -> IInv g'.
Proof.
  intros g s g' id I H. destruct (intern_cases g s I) as [(i & _ & E)|[N [[_ E]|[L E]]]]; rewrite E in H;
    [assert (g' = g) by congruence; subst; auto|discriminate|].
  assert (g' = mkInt (strings g ++ [s]) (mput text_eqb (lookup g) s (N.of_nat (length (strings g))))) by congruence.
  subst g'. clear H E. destruct I as [LL A B]. split; cbn [strings lookup].
  - rewrite app_length. cbn. unfold INVALID_ID in *. lia.
  - intros t i H. destruct (text_eq_dec s t) as [<-|Ne].
    + rewrite mget_put_same in H by apply text_eqb_spec. injection H as <-.
      rewrite Nnat.Nat2N.id, nth_error_app2 by lia. now rewrite Nat.sub_diag.
    + rewrite mget_put_other in H by auto using text_eqb_spec. apply A in H.
      rewrite nth_error_app1; auto. apply nth_error_Some. congruence.
  - intros k t H. destruct (lt_dec k (length (strings g))).
    + rewrite nth_error_app1 in H by auto. apply B in H. rewrite mget_put_other; auto using text_eqb_spec. congruence.
    + rewrite nth_error_app2 in H by lia. destruct (k - length (strings g))%nat as [|j] eqn:D.
      * cbn in H. injection H as <-. rewrite mget_put_same by apply text_eqb_spec. f_equal. lia.
      * cbn in H. destruct j; discriminate.
Qed.

Lemma int_inv : forall g, int_reach g -> IInv g.
Proof. induction 1; eauto using iinv_new, iinv_step. Qed.

Lemma get_valid : forall g k s, IInv g -> nth_error (strings g) k = Some s -> int_get g (N.of_nat k) = Some s.
Proof.
  intros g k s I H. unfold int_get. assert (k < length (strings g))%nat by (apply nth_error_Some; congruence).
  pose proof (ii_len g I). replace (N.of_nat k =? INVALID_ID) with false by lia. now rewrite Nnat.Nat2N.id.
Qed.

Lemma intern_resolve : forall g s g' id, int_reach g -> intern g s = Ok (g', id) -> int_resolve g' id = Ok s.
Proof.
  intros g s g' id R H. pose proof (int_inv g R) as I. pose proof (iinv_step _ _ _ _ I H) as I'.
  assert (M : mget text_eqb (lookup g') s = Some id).
  { destruct (intern_cases g s I) as [(i & M & E)|[N [[_ E]|[L E]]]]; rewrite E in H; [congruence|discriminate|].
    assert (g' = mkInt (strings g ++ [s]) (mput text_eqb (lookup g) s (N.of_nat (length (strings g))))) by congruence.
    assert (id = N.of_nat (length (strings g))) by congruence. subst. apply mget_put_same, text_eqb_spec. }
  unfold int_resolve. apply (ii_a g' I') in M. rewrite <- (N2Nat.id id). now rewrite (get_valid g' _ _ I' M).
Qed.

Lemma intern_stable : forall g s g' id i t, int_reach g -> intern g s = Ok (g', id) ->
  int_get g i = Some t -> int_get g' i = Some t.
Proof.
  intros g s g' id i t R H G. pose proof (int_inv g R) as I.
  destruct (intern_cases g s I) as [(j & M & E)|[N [[_ E]|[L E]]]]; rewrite E in H; [congruence|discriminate|].
  assert (g' = mkInt (strings g ++ [s]) (mput text_eqb (lookup g) s (N.of_nat (length (strings g))))) by congruence.
  subst g'. unfold int_get in *. destruct (i =? INVALID_ID); auto. cbn [strings].
  rewrite nth_error_app1; auto. apply nth_error_Some. congruence.
Qed.

(** A later interner still knows everything. *)
Inductive later : interner -> interner -> Prop :=
| l_refl : forall g, later g g
| l_step : forall g h s h' id, later g h -> intern h s = Ok (h', id) -> later g h'.

Lemma later_reach : forall g h, int_reach g -> later g h -> int_reach h.
Proof. intros g h R L. induction L; auto. eapply ir_step; [apply IHL; exact R|eassumption]. Qed.

Lemma later_get : forall g h i t, int_reach g -> later g h -> int_get g i = Some t -> int_get h i = Some t.
Proof.
  intros g h i t R L. induction L; auto. intros G. eapply intern_stable; [|eassumption|auto].
  eapply later_reach; eauto.
Qed.

Lemma handles_equal : forall g s g1 i h t h1 j, int_reach g -> intern g s = Ok (g1, i) -> later g1 h ->
  intern h t = Ok (h1, j) -> (i = j <-> s = t).
Proof.
  intros g s g1 i h t h1 j R H L K.
  assert (R1 : int_reach g1) by (econstructor; eauto).
  pose proof (later_reach _ _ R1 L) as Rh. assert (Rh1 : int_reach h1) by (econstructor; eauto).
  assert (Gi : int_get h1 i = Some s).
  { eapply intern_stable; [exact Rh|exact K|]. eapply later_get; [exact R1|exact L|].
    pose proof (intern_resolve _ _ _ _ R H) as X. unfold int_resolve in X. destruct (int_get g1 i); congruence. }
  assert (Gj : int_get h1 j = Some t).
  { pose proof (intern_resolve _ _ _ _ Rh K) as X. unfold int_resolve in X. destruct (int_get h1 j); congruence. }
  split; [intros ->; congruence|]. intros ->.
  unfold int_get in Gi, Gj. destruct (i =? INVALID_ID); [discriminate|]. destruct (j =? INVALID_ID); [discriminate|].
  pose proof (int_inv _ Rh1) as I. apply (ii_b _ I) in Gi, Gj. rewrite Gi in Gj. injection Gj as Gj. lia.
Qed.

Lemma intern_total : forall g s, int_reach g -> N.of_nat (length (strings g)) < INVALID_ID ->
  exists g' id, intern g s = Ok (g', id) /\ id <> INVALID_ID /\
    (int_contains g s = true -> g' = g) /\ int_contains g' s = true.
Proof.
  intros g s R L. pose proof (int_inv g R) as I.
  destruct (intern_cases g s I) as [(j & M & E)|[M [[X _]|[_ E]]]]; [|lia|].
  - exists g, j. split; auto. apply (ii_a g I) in M as M2.
    assert (N.to_nat j < length (strings g))%nat by (apply nth_error_Some; congruence).
    split; [lia|]. unfold int_contains. rewrite M. auto.
  - eexists. eexists. split; [exact E|]. split; [lia|]. unfold int_contains. rewrite M. split; [discriminate|].
    cbn [lookup]. now rewrite mget_put_same by apply text_eqb_spec.
Qed.

Lemma get_id_spec : forall g s id, int_reach g -> (int_get_id g s = Some id <-> int_get g id = Some s).
Proof.
  intros g s id R. pose proof (int_inv g R) as I. unfold int_get_id. split.
  - intros H. apply (ii_a g I) in H. rewrite <- (N2Nat.id id). now apply get_valid.
  - unfold int_get. destruct (id =? INVALID_ID); [discriminate|]. intros H. apply (ii_b g I) in H.
    rewrite H. f_equal. lia.
Qed.
