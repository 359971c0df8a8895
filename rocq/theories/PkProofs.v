(** Kahn's algorithm as used by rebuild_full and layers_for. *)
From Coq Require Import Permutation Sorted.
From Verif Require Import Base Maps ListSort SchedModel SchedProofs2 LeaseProofs2 EdgeProofs EdgeProofs2 PkModel PkSpec.

Section Kahn.
Variable g : view.
Variable S0 : list nat.
Hypothesis ND : NoDup S0.
Hypothesis AG : agree g.

(** Predecessors in the subset not yet processed. *)
Definition left_of (P : list nat) (n : nat) : nat :=
  length (filter (fun p => memb p S0 && negb (memb p P)) (preds g n)).

Lemma left_of_cons : forall P u n, In u S0 -> ~ In u P ->
  left_of P n = left_of (u :: P) n + count_occ Nat.eq_dec (succs g u) n.
Proof.
  intros P u n Hu HP. rewrite AG. unfold left_of. generalize (preds g n). intros l0. induction l0 as [|p l IH]; auto.
  cbn [filter count_occ]. destruct (Nat.eq_dec p u) as [->|H].
  - assert (E1 : memb u S0 = true) by now apply memb_spec.
    assert (E2 : memb u P = false) by now apply memb_false.
    assert (E3 : memb u (u :: P) = true) by (apply memb_spec; now left).
    rewrite E1, E2, E3. cbn [andb negb length]. rewrite IH. lia.
  - assert (E : memb p (u :: P) = memb p P).
    { cbn. destruct (Nat.eqb_spec p u); [contradiction|reflexivity]. }
    rewrite E. destruct (memb p S0 && negb (memb p P)); cbn [length]; rewrite IH; lia.
Qed.
Lemma left_of_zero : forall P n, left_of P n = 0 <-> (forall p, In p (preds g n) -> In p S0 -> In p P).
Proof.
  intros. unfold left_of. split.
  - intros H p Hp HS. apply length_zero_iff_nil in H. destruct (in_dec_nat p P) as [|HP]; auto. exfalso.
    assert (F : In p (filter (fun p => memb p S0 && negb (memb p P)) (preds g n))).
    { apply filter_In. split; auto. apply andb_true_iff. split; [now apply memb_spec|].
      apply negb_true_iff. now apply memb_false. }
    rewrite H in F. destruct F.
  - intros H. apply length_zero_iff_nil. destruct (filter _ _) as [|q l] eqn:E; auto. exfalso.
    assert (F : In q (filter (fun p => memb p S0 && negb (memb p P)) (preds g n))) by (rewrite E; now left).
    apply filter_In in F. destruct F as [F1 F2]. apply andb_true_iff in F2. destruct F2 as [F2 F3].
    apply memb_spec in F2. apply negb_true_iff in F3. apply memb_false in F3. apply F3. auto.
Qed.

(** [E] emitted, [P] processed, [ss] the successors still to be lowered. *)
Record kinv (E P ss : list nat) (m : degrees) (zero : list nat) : Prop := {
  k_in : forall n, In n S0 -> mget Nat.eqb m n = Some (left_of P n + count_occ Nat.eq_dec ss n);
  k_out : forall n, ~ In n S0 -> mget Nat.eqb m n = None;
  k_nd : NoDup (zero ++ E);
  k_zero : forall n, In n (zero ++ E) <-> In n S0 /\ left_of P n + count_occ Nat.eq_dec ss n = 0
}.

Lemma lower_ok : forall ss E P m zero, kinv E P ss m zero ->
  exists m' zero' new, lower ss m zero = KDone (m', zero') /\ kinv E P [] m' zero' /\ zero' = zero ++ new.
Proof.
  induction ss as [|s ss IH]; intros E P m zero K.
  - exists m, zero, []. rewrite app_nil_r. split; [reflexivity|split; [exact K|reflexivity]].
  - cbn [lower]. destruct (in_dec_nat s S0) as [Hs|Hs].
    + rewrite (k_in _ _ _ _ _ K s Hs). cbn [count_occ]. destruct (Nat.eq_dec s s) as [_|]; [|contradiction].
      rewrite Nat.add_succ_r. set (d := left_of P s + count_occ Nat.eq_dec ss s).
      assert (K' : kinv E P ss (mput Nat.eqb m s d) (if d =? 0 then zero ++ [s] else zero)).
      { assert (C : forall n, n <> s -> count_occ Nat.eq_dec (s :: ss) n = count_occ Nat.eq_dec ss n).
        { intros n H. cbn. destruct (Nat.eq_dec s n); congruence. }
        assert (NZ : ~ In s (zero ++ E)).
        { intros F. apply (k_zero _ _ _ _ _ K) in F. destruct F as [_ F]. cbn in F.
          destruct (Nat.eq_dec s s); [lia|contradiction]. }
        constructor.
        - intros n Hn. destruct (Nat.eq_dec n s) as [->|Hne].
          + rewrite (mget_put_same Nat.eqb nat_eqb_spec). reflexivity.
          + rewrite (mget_put_other Nat.eqb nat_eqb_spec) by congruence.
            rewrite (k_in _ _ _ _ _ K n Hn), C by auto. reflexivity.
        - intros n Hn. rewrite (mget_put_other Nat.eqb nat_eqb_spec) by (intros ->; contradiction).
          apply (k_out _ _ _ _ _ K n Hn).
        - destruct (d =? 0); [|apply K]. rewrite <- app_assoc. cbn.
          apply NoDup_Add with (a := s) (l := zero ++ E); [apply Add_app|]. split; [apply K|auto].
        - intros n. destruct (Nat.eqb_spec d 0) as [Hd|Hd].
          + rewrite <- app_assoc. cbn. rewrite in_app_iff. cbn. destruct (Nat.eq_dec n s) as [->|Hne].
            * split; [intros _; split; [exact Hs|exact Hd]|intros _; right; now left].
            * rewrite <- (C n Hne), <- (k_zero _ _ _ _ _ K n), in_app_iff. split; [intros [H|[H|H]]; auto; congruence|tauto].
          + destruct (Nat.eq_dec n s) as [->|Hne].
            * split; [intros H; now apply NZ in H|intros [_ H]; fold d in H; contradiction].
            * rewrite <- (C n Hne). apply (k_zero _ _ _ _ _ K n). }
      destruct (IH E P _ _ K') as (m' & z' & new & L & K2 & Ez).
      exists m', z'. rewrite L. destruct (d =? 0).
      * exists (s :: new). split; [reflexivity|split; [exact K2|]]. rewrite Ez, <- app_assoc. reflexivity.
      * exists new. split; [reflexivity|split; [exact K2|exact Ez]].
    + rewrite (k_out _ _ _ _ _ K s Hs). apply IH. constructor; try apply K.
      * intros n Hn. rewrite (k_in _ _ _ _ _ K n Hn). cbn. destruct (Nat.eq_dec s n); [subst; contradiction|reflexivity].
      * intros n. rewrite (k_zero _ _ _ _ _ K n). split; intros [H1 H2]; split; auto;
          cbn in *; destruct (Nat.eq_dec s n); try (subst; contradiction); auto.
Qed.

Lemma kinv_start : forall E P m zero u, kinv E P [] m zero -> In u S0 -> ~ In u P ->
  kinv E (u :: P) (succs g u) m zero.
Proof.
  intros E P m zero u K Hu HP. constructor; try apply K.
  - intros n Hn. rewrite (k_in _ _ _ _ _ K n Hn). cbn. rewrite (left_of_cons P u n Hu HP). f_equal. lia.
  - intros n. rewrite (k_zero _ _ _ _ _ K n). cbn. rewrite (left_of_cons P u n Hu HP), Nat.add_0_r. reflexivity.
Qed.
Lemma kinv_perm : forall E P m zero zero', kinv E P [] m zero -> Permutation zero zero' -> kinv E P [] m zero'.
Proof.
  intros E P m zero zero' K H. constructor; try apply K.
  - eapply Permutation_NoDup; [|apply (k_nd _ _ _ _ _ K)]. now apply Permutation_app_tail.
  - intros n. rewrite <- (k_zero _ _ _ _ _ K n). split; apply Permutation_in;
      [apply Permutation_sym|]; now apply Permutation_app_tail.
Qed.
Lemma kinv_emit : forall E P m layer rest, kinv E P [] m (layer ++ rest) -> kinv (layer ++ E) P [] m rest.
Proof.
  intros E P m layer rest K. constructor; try apply K.
  - eapply Permutation_NoDup; [|apply (k_nd _ _ _ _ _ K)]. rewrite <- app_assoc. rewrite app_assoc.
    rewrite app_assoc. apply Permutation_app_tail. apply Permutation_app_comm.
  - intros n. rewrite <- (k_zero _ _ _ _ _ K n), !in_app_iff. tauto.
Qed.
Lemma kinv_same_E : forall E E' P m zero, kinv E P [] m zero -> Permutation E E' -> kinv E' P [] m zero.
Proof.
  intros E E' P m zero K H. constructor; try apply K.
  - eapply Permutation_NoDup; [|apply (k_nd _ _ _ _ _ K)]. now apply Permutation_app_head.
  - intros n. rewrite <- (k_zero _ _ _ _ _ K n). split; apply Permutation_in;
      [apply Permutation_sym|]; now apply Permutation_app_head.
Qed.
Lemma left_of_same : forall P P', (forall x, In x P <-> In x P') -> forall n, left_of P n = left_of P' n.
Proof.
  intros P P' H n. unfold left_of. f_equal. apply filter_ext. intros p. f_equal. f_equal.
  destruct (memb p P) eqn:E1, (memb p P') eqn:E2; auto.
  - apply memb_spec in E1. apply memb_false in E2. exfalso. apply E2. now apply H.
  - apply memb_spec in E2. apply memb_false in E1. exfalso. apply E1. now apply H.
Qed.
Lemma kinv_same_P : forall E P P' m zero, kinv E P [] m zero -> (forall x, In x P <-> In x P') -> kinv E P' [] m zero.
Proof.
  intros E P P' m zero K H. constructor; try apply K; intros n; rewrite <- (left_of_same P P' H n); apply K.
Qed.

Lemma lower_all_ok : forall us E P m zero, kinv E P [] m zero -> NoDup us ->
  (forall u, In u us -> In u S0 /\ ~ In u P) ->
  exists m' zero', lower_all g us m zero = KDone (m', zero') /\ kinv E (rev us ++ P) [] m' zero'.
Proof.
  induction us as [|u us IH]; intros E P m zero K Hn H; [exists m, zero; auto|].
  cbn [lower_all]. destruct (H u (or_introl eq_refl)) as [HS HP].
  destruct (lower_ok _ _ _ _ _ (kinv_start _ _ _ _ u K HS HP)) as (m1 & z1 & new & L & K1 & _).
  rewrite L. cbn [kbind fst snd]. apply NoDup_cons_iff in Hn. destruct Hn as [Hu Hn].
  destruct (IH E (u :: P) m1 z1 K1 Hn) as (m2 & z2 & L2 & K2).
  { intros v Hv. destruct (H v (or_intror Hv)) as [H1 H2]. split; auto. intros [->|F]; auto. }
  exists m2, z2. split; auto. cbn [rev]. rewrite <- app_assoc. exact K2.
Qed.

Lemma mget_indeg : forall (f : nat -> nat) l n, mget Nat.eqb (map (fun n => (n, f n)) l) n = if memb n l then Some (f n) else None.
Proof.
  intros f l n. induction l as [|a l IH]; auto. cbn [map mget fst snd memb existsb]. try rewrite (Nat.eqb_sym a n).
  destruct (Nat.eqb_spec n a) as [->|]; cbn; auto.
Qed.
Lemma start_inv : forall zero, Permutation zero (map fst (filter (fun p => snd p =? 0) (indegrees g S0))) ->
  kinv [] [] [] (indegrees g S0) zero.
Proof.
  intros zero HP.
  assert (L : forall n, left_of [] n = length (filter (fun p => memb p S0) (preds g n))).
  { intros n. unfold left_of. f_equal. apply filter_ext. intros p. cbn. now rewrite andb_true_r. }
  assert (FM : map fst (filter (fun p => snd p =? 0) (indegrees g S0)) = filter (fun n => left_of [] n =? 0) S0).
  { assert (Z : forall l, map fst (filter (fun p => snd p =? 0)
        (map (fun n => (n, length (filter (fun p => memb p S0) (preds g n)))) l)) = filter (fun n => left_of [] n =? 0) l).
    { induction l as [|a l IH]; auto. cbn [map filter snd]. rewrite <- L.
      destruct (left_of [] a =? 0); cbn [map fst]; now rewrite IH. }
    apply Z. }
  rewrite FM in HP. constructor.
  - intros n Hn. unfold indegrees. rewrite mget_indeg. apply memb_spec in Hn. rewrite Hn, L. cbn. now rewrite Nat.add_0_r.
  - intros n Hn. unfold indegrees. rewrite mget_indeg. apply memb_false in Hn. now rewrite Hn.
  - rewrite app_nil_r. eapply Permutation_NoDup; [apply Permutation_sym, HP|]. now apply NoDup_filter.
  - intros n. rewrite app_nil_r. cbn. rewrite Nat.add_0_r.
    split; intros H.
    + apply (Permutation_in _ HP) in H. apply filter_In in H. destruct H. split; auto. now apply Nat.eqb_eq.
    + apply (Permutation_in _ (Permutation_sym HP)). apply filter_In. destruct H. split; auto. now apply Nat.eqb_eq.
Qed.

(** Nothing left to emit: every remaining node waits for another remaining one. *)
Lemma stuck : forall E m, kinv E E [] m [] -> acyclic_on g S0 -> forall n, In n S0 -> In n E.
Proof.
  intros E m K (rank & R).
  assert (G : forall k n, rank n < k -> In n S0 -> In n E).
  { induction k as [|k IH]; intros n Hk Hn; [lia|].
    apply (k_zero _ _ _ _ _ K n). split; auto. cbn. rewrite Nat.add_0_r. apply left_of_zero.
    intros p Hp HpS. apply IH; auto. specialize (R n p Hn HpS Hp). lia. }
  intros n Hn. apply (G (S (rank n))); auto.
Qed.
Lemma kinv_size : forall E P m zero, kinv E P [] m zero -> length zero + length E <= length S0.
Proof.
  intros E P m zero K. rewrite <- app_length. apply NoDup_incl_length; [apply K|].
  intros n Hn. now apply (k_zero _ _ _ _ _ K n) in Hn.
Qed.

(** rebuild_full's loop: predecessors first. *)
Definition ordered (out : list nat) : Prop :=
  forall i n p, nth_error out i = Some n -> In p (preds g n) -> In p S0 ->
    exists j, j < i /\ nth_error out j = Some p.
Lemma kahn_ok : forall fuel m zero out, kinv out out [] m zero -> ordered out -> length S0 <= fuel + length out ->
  exists out' m', kahn fuel g m zero out = KDone out' /\ kinv out' out' [] m' [] /\ ordered out'.
Proof.
  induction fuel as [|fuel IH]; intros m zero out K O F.
  - assert (zero = []) by (pose proof (kinv_size _ _ _ _ K); destruct zero; auto; cbn in *; lia). subst.
    exists out, m. auto.
  - destruct zero as [|n zero]; [exists out, m; auto|]. cbn [kahn].
    assert (Hn : In n S0 /\ left_of out n = 0).
    { assert (H : In n ((n :: zero) ++ out)) by now left.
      apply (k_zero _ _ _ _ _ K) in H. cbn in H. now rewrite Nat.add_0_r in H. }
    assert (HnE : ~ In n out).
    { pose proof (k_nd _ _ _ _ _ K) as H. cbn in H. apply NoDup_cons_iff in H. destruct H as [H _].
      rewrite in_app_iff in H. tauto. }
    pose proof (kinv_emit out out m [n] zero K) as K1. cbn in K1.
    destruct (lower_ok _ _ _ _ _ (kinv_start _ _ _ _ n K1 (proj1 Hn) HnE)) as (m1 & z1 & new & L & K2 & _).
    rewrite L. cbn [kbind fst snd]. apply IH.
    + apply (kinv_perm _ _ _ z1); [|apply Permutation_sym, sort_nat_perm].
      apply (kinv_same_P _ (n :: out)); [|intros x; rewrite in_app_iff; cbn; tauto].
      apply (kinv_same_E (n :: out)); auto. apply Permutation_cons_append.
    + intros i a p Hi Hp HpS. destruct (Nat.lt_ge_cases i (length out)) as [Hl|Hl].
      * rewrite nth_error_app1 in Hi by auto. destruct (O i a p Hi Hp HpS) as (j & Hj & Ej).
        exists j. split; auto. rewrite nth_error_app1; auto. lia.
      * rewrite nth_error_app2 in Hi by auto. destruct (i - length out) as [|k] eqn:Ek; cbn in Hi; [|destruct k; discriminate].
        injection Hi as <-. pose proof (proj1 (left_of_zero _ _) (proj2 Hn) p Hp HpS) as Hin.
        apply In_nth_error in Hin. destruct Hin as (j & Ej). exists j.
        assert (j < length out) by (apply nth_error_Some; congruence). split; [lia|].
        rewrite nth_error_app1; auto.
    + rewrite app_length. cbn. lia.
Qed.

(** layers_for's loop *)
Variable o : list nat.
Hypothesis REG : forall n, In n S0 -> place n o <> None.
Lemma sort_places_ok : forall l, (forall n, In n l -> In n S0) ->
  exists l', sort_places o l = KDone l' /\ Permutation l l'.
Proof.
  intros l H. destruct l as [|a [|b l]]; [exists []; auto|exists [a]; auto|]. unfold sort_places.
  match goal with |- context [forallb ?f ?l] => assert (E : forallb f l = true) end.
  { apply forallb_forall. intros n Hn. specialize (REG n (H n Hn)). destruct (place n o); congruence. }
  rewrite E. eexists. split; [reflexivity|]. apply Permutation_sym, sort_by_perm.
Qed.

Variable cap : option nat.
Hypothesis CAP : cap <> Some 0.
Lemma layer_loop_ok : forall fuel m zero out, kinv (concat out) (concat out) [] m zero -> layered g S0 out ->
  (forall c, cap = Some c -> Forall (fun l => length l <= c) out) ->
  length S0 <= fuel + length (concat out) ->
  exists out' m', layer_loop fuel g o cap m zero out = KDone out' /\
    kinv (concat out') (concat out') [] m' [] /\ layered g S0 out' /\
    (forall c, cap = Some c -> Forall (fun l => length l <= c) out').
Proof.
  induction fuel as [|fuel IH]; intros m zero out K L C F.
  - assert (zero = []) by (pose proof (kinv_size _ _ _ _ K); destruct zero; auto; cbn in *; lia). subst.
    exists out, m. auto.
  - destruct zero as [|z zs] eqn:Ez; [exists out, m; auto|]. cbn [layer_loop]. rewrite <- Ez in *.
    set (w := match cap with Some c => Nat.min (length zero) c | None => length zero end).
    assert (Hw : 1 <= w <= length zero /\ forall c, cap = Some c -> w <= c).
    { unfold w. rewrite Ez. destruct cap as [[|c]|]; [congruence| |]; cbn [length]; split; try lia;
        intros c' E; try discriminate; injection E; intros; subst; lia. }
    clearbody w.
    assert (ZS : forall n, In n zero -> In n S0 /\ left_of (concat out) n = 0).
    { intros n Hn. assert (H : In n (zero ++ concat out)) by (apply in_or_app; now left).
      apply (k_zero _ _ _ _ _ K) in H. cbn in H. now rewrite Nat.add_0_r in H. }
    assert (FS : forall n, In n (firstn w zero) -> In n zero).
    { intros n Hn. rewrite <- (firstn_skipn w zero). apply in_or_app. now left. }
    destruct (sort_places_ok (firstn w zero)) as (layer & E1 & P1).
    { intros n Hn. apply ZS. auto. }
    rewrite E1. cbn [kbind].
    assert (LZ : forall n, In n layer -> In n zero).
    { intros n Hn. apply FS. apply (Permutation_in _ (Permutation_sym P1)). exact Hn. }
    assert (ND' : NoDup zero /\ forall n, In n zero -> ~ In n (concat out)).
    { pose proof (k_nd _ _ _ _ _ K) as H. apply NoDup_app_iff in H. tauto. }
    assert (NL : NoDup layer).
    { eapply Permutation_NoDup; [exact P1|]. rewrite <- (firstn_skipn w zero) in ND'.
      destruct ND' as [H _]. now apply NoDup_app_iff in H. }
    assert (K1 : kinv (layer ++ concat out) (concat out) [] m (skipn w zero)).
    { apply kinv_emit. apply (kinv_perm _ _ _ zero); auto. rewrite <- (firstn_skipn w zero) at 1.
      now apply Permutation_app_tail. }
    destruct (lower_all_ok layer _ _ _ _ K1 NL) as (m1 & z1 & E2 & K2).
    { intros u Hu. split; [now apply ZS, LZ|]. apply (proj2 ND'). auto. }
    rewrite E2. cbn [kbind fst snd].
    destruct (sort_places_ok z1) as (z2 & E3 & P3).
    { intros n Hn. assert (H : In n (z1 ++ layer ++ concat out)) by (apply in_or_app; now left).
      now apply (k_zero _ _ _ _ _ K2) in H. }
    rewrite E3. cbn [kbind].
    assert (CC : concat (out ++ [layer]) = concat out ++ layer).
    { rewrite concat_app. cbn. now rewrite app_nil_r. }
    apply IH.
    + rewrite CC. apply (kinv_perm _ _ _ z1); auto.
      apply (kinv_same_P _ (rev layer ++ concat out)).
      * apply (kinv_same_E (layer ++ concat out)); auto. apply Permutation_app_comm.
      * intros x. rewrite !in_app_iff, <- in_rev. tauto.
    + intros i ly n p Hi Hn Hp HpS. destruct (Nat.lt_ge_cases i (length out)) as [Hl|Hl].
      * rewrite nth_error_app1 in Hi by auto. destruct (L i ly n p Hi Hn Hp HpS) as (j & e & Hj & Ej & He).
        exists j, e. repeat split; auto. rewrite nth_error_app1; auto. lia.
      * rewrite nth_error_app2 in Hi by auto. destruct (i - length out) as [|k] eqn:Ek; cbn in Hi; [|destruct k; discriminate].
        injection Hi as <-. destruct (ZS n (LZ n Hn)) as [_ H0].
        pose proof (proj1 (left_of_zero _ _) H0 p Hp HpS) as Hin.
        apply in_concat in Hin. destruct Hin as (e & He & Hpe).
        apply In_nth_error in He. destruct He as (j & Ej). exists j, e.
        assert (j < length out) by (apply nth_error_Some; congruence). repeat split; [lia| |auto].
        rewrite nth_error_app1; auto.
    + intros c Hc. apply Forall_app. split; [apply C; auto|]. constructor; [|constructor].
      rewrite <- (Permutation_length P1), firstn_length. pose proof (proj2 Hw c Hc). lia.
    + rewrite CC, app_length. rewrite <- (Permutation_length P1), firstn_length. lia.
Qed.
End Kahn.

Lemma layers_ok : forall g subset o cap fuel, NoDup subset -> agree g -> (forall n, In n subset -> place n o <> None) ->
  cap <> Some 0 -> length subset <= fuel -> acyclic_on g subset ->
  exists layers, layers_for fuel g o cap subset = KDone layers /\
    Permutation (concat layers) subset /\ layered g subset layers /\
    (forall c, cap = Some c -> Forall (fun l => length l <= c) layers).
Proof.
  intros g subset o cap fuel ND AG REG CAP F AC. destruct subset as [|a l] eqn:E.
  { exists []. cbn. repeat split; auto. intros i ly n p Hi. destruct i; discriminate. }
  unfold layers_for. rewrite <- E in *.
  destruct (sort_places_ok subset o REG (map fst (filter (fun p => snd p =? 0) (indegrees g subset)))) as (z & E1 & P1).
  { intros n Hn. apply in_map_iff in Hn. destruct Hn as ([n' d] & <- & Hn). apply filter_In in Hn. destruct Hn as [Hn _].
    unfold indegrees in Hn. apply in_map_iff in Hn. destruct Hn as (n2 & E2 & Hn). injection E2; intros; subst; auto. }
  rewrite E1. cbn [kbind].
  destruct (layer_loop_ok g subset AG o REG cap CAP fuel (indegrees g subset) z []) as (out & m' & E2 & K & L & C).
  - apply start_inv; auto. now apply Permutation_sym.
  - intros i ly n p Hi. destruct i; discriminate.
  - intros. constructor.
  - cbn. lia.
  - exists out. repeat split; auto. apply NoDup_Permutation; auto.
    + pose proof (k_nd _ _ _ _ _ _ _ K) as H. exact H.
    + intros n. split; intros H.
      * now apply (k_zero _ _ _ _ _ _ _ K n) in H.
      * apply (stuck g subset (concat out) m' K AC n H).
Qed.
Lemma place_nth : forall o n i, place n o = Some i -> nth_error o i = Some n.
Proof.
  induction o as [|a o IH]; cbn; intros n i H; [discriminate|].
  destruct (Nat.eqb_spec n a) as [->|]; [injection H as <-; auto|].
  destruct (place n o) eqn:E; [|discriminate]. injection H as <-. cbn. auto.
Qed.
Lemma place_none : forall o n, place n o = None <-> ~ In n o.
Proof.
  induction o as [|a o IH]; cbn; intros n; [tauto|].
  destruct (Nat.eqb_spec n a) as [->|]; [split; [discriminate|tauto]|].
  destruct (place n o) eqn:E.
  - split; [discriminate|]. intros H. exfalso. apply H. right. destruct (in_dec_nat n o) as [|F]; auto.
    apply IH in F. congruence.
  - split; auto. intros _ [F|F]; [congruence|]. now apply (proj1 (IH n)) in F.
Qed.
Lemma nth_place : forall o n i, NoDup o -> nth_error o i = Some n -> place n o = Some i.
Proof.
  intros o n i ND H. destruct (place n o) as [j|] eqn:E.
  - f_equal. apply place_nth in E. eapply NoDup_nth_error; [exact ND| |congruence].
    apply nth_error_Some. congruence.
  - apply place_none in E. exfalso. apply E. eapply nth_error_In; eauto.
Qed.

Lemma filter_len : forall A (f : A -> bool) l, length (filter f l) <= length l.
Proof. intros A f l. induction l as [|a l IH]; cbn; auto. destruct (f a); cbn; lia. Qed.

Lemma rebuild_ok : forall g o fuel, NoDup o -> agree g -> length o <= fuel ->
  exists o', rebuild_full fuel g o = KDone o' /\ Permutation o' (filter (there g) o) /\
    (acyclic_on g (filter (there g) o) -> respects (succs g) o').
Proof.
  intros g o fuel ND AG F. unfold rebuild_full. set (nodes := sort_nat (filter (there g) o)).
  assert (PN : Permutation nodes (filter (there g) o)) by apply sort_nat_perm.
  assert (NDn : NoDup nodes).
  { eapply Permutation_NoDup; [apply Permutation_sym, PN|]. now apply NoDup_filter. }
  destruct (kahn_ok g nodes AG fuel (indegrees g nodes)
     (sort_nat (map fst (filter (fun p => snd p =? 0) (indegrees g nodes)))) []) as (out & m' & E & K & O).
  - apply start_inv; auto. apply sort_nat_perm.
  - intros i n p Hi. destruct i; discriminate.
  - rewrite (Permutation_length PN). cbn. assert (length (filter (there g) o) <= length o) by apply filter_len. lia.
  - rewrite E. cbn [kbind].
    assert (NDo : NoDup out) by (pose proof (k_nd _ _ _ _ _ _ _ K) as H; exact H).
    assert (IN : forall n, In n out -> In n nodes).
    { intros n H. now apply (k_zero _ _ _ _ _ _ _ K n) in H. }
    eexists. split; [reflexivity|]. destruct (Nat.eqb_spec (length out) (length nodes)) as [EL|EL].
    + assert (PO : Permutation out nodes).
      { apply NoDup_Permutation_bis; auto. lia. }
      split; [now rewrite PO|]. intros _ u v Hv Hu Hvo.
      apply In_nth_error in Hvo. destruct Hvo as (i & Hi).
      destruct (O i v u Hi) as (j & Hj & Ej).
      * assert (Hc : 0 < count_occ Nat.eq_dec (succs g u) v) by now apply count_occ_In.
        rewrite AG in Hc. now apply count_occ_In in Hc.
      * now apply IN.
      * exists j, i. auto.
    + split; [exact PN|]. intros AC. exfalso. apply EL. apply Permutation_length.
      apply NoDup_Permutation; auto. intros n. split; [apply IN|]. intros H.
      apply (stuck g nodes out m' K); auto.
      destruct AC as (rank & R). exists rank. intros a b Ha Hb. apply R; apply (Permutation_in _ PN); auto.
Qed.
