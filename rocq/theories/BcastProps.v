(** C42: broadcasting.  crates/formualizer-eval/src/broadcast.rs *)
From Coq Require Import Permutation ZifyBool.
From Verif Require Import Base BcastModel.

(** Specification: a dimension list is consistent if the dimensions other than 1
    are all equal; the result is the largest. *)
Definition positive (l : list shape) : Prop := forall s, In s l -> 1 <= fst s /\ 1 <= snd s.
Definition agree (l : list nat) : Prop := forall a b, In a l -> In b l -> a = b \/ a = 1 \/ b = 1.
Definition largest (l : list nat) : nat := fold_right Nat.max 1 l.

Lemma dim_spec : forall a b, 1 <= a -> 1 <= b ->
  (a = b \/ a = 1 \/ b = 1) /\ broadcast_dim a b = Ok (Nat.max a b) \/
  ~ (a = b \/ a = 1 \/ b = 1) /\ broadcast_dim a b = Err tt.
Proof.
  intros a b Ha Hb. unfold broadcast_dim. destruct ((a =? b) || (a =? 1)) eqn:E1.
  - left. split; [lia|]. f_equal. lia.
  - destruct (b =? 1) eqn:E2; [left; split; [lia|reflexivity]|right; split; [lia|reflexivity]].
Qed.

Lemma largest_ge : forall l a, In a l -> a <= largest l.
Proof.
  induction l as [|x l IH]; intros a H; [destruct H|]. change (largest (x :: l)) with (Nat.max x (largest l)).
  destruct H as [->|H]; [lia|]. specialize (IH a H). lia.
Qed.
Lemma largest_in : forall l, largest l = 1 \/ In (largest l) l.
Proof.
  induction l as [|x l IH]; cbn; auto. fold (largest l).
  destruct (Nat.max_spec x (largest l)) as [[_ ->]|[_ ->]]; auto. destruct IH as [->|]; auto.
Qed.

Lemma agree_cons : forall a b l, 1 <= a -> 1 <= b -> (a = b \/ a = 1 \/ b = 1) ->
  (agree (a :: b :: l) <-> agree (Nat.max a b :: l)).
Proof.
  intros a b l Ha Hb Hab. split; intros A x y Hx Hy.
  - assert (M : Nat.max a b = a \/ Nat.max a b = b) by lia.
    assert (X : forall z, In z (Nat.max a b :: l) -> In z (a :: b :: l)) by (intros z [<-|Hz]; [destruct M as [-> | ->]; cbn; auto|cbn; auto]).
    apply A; auto.
  - assert (X : forall z, In z (a :: b :: l) -> z = 1 \/ In z (Nat.max a b :: l)).
    { intros z [<-|[<-|H]]; [| |right; now right].
      - destruct (Nat.eq_dec a 1); auto. right; left. lia.
      - destruct (Nat.eq_dec b 1); auto. right; left. lia. }
    destruct (X x Hx) as [|Hx']; auto. destruct (X y Hy) as [|Hy']; auto.
Qed.

Lemma loop_spec : forall l r c, positive l -> 1 <= r -> 1 <= c ->
  (agree (r :: map fst l) /\ agree (c :: map snd l) /\
   broadcast_loop r c l = Ok (Nat.max r (largest (map fst l)), Nat.max c (largest (map snd l)))) \/
  (~ (agree (r :: map fst l) /\ agree (c :: map snd l)) /\ broadcast_loop r c l = Err tt).
Proof.
  induction l as [|[a b] l IH]; intros r c P Hr Hc.
  - left. cbn. split; [|split; [|repeat f_equal; lia]]; intros x y [<-|[]] [<-|[]]; auto.
  - assert (Pab : 1 <= a /\ 1 <= b) by (apply (P (a, b)); now left).
    assert (P' : positive l) by (intros s Hs; apply P; now right).
    cbn [broadcast_loop map fst snd].
    destruct (dim_spec r a Hr (proj1 Pab)) as [[D1 E1]|[D1 E1]]; rewrite E1; cbn [rbind].
    + destruct (dim_spec c b Hc (proj2 Pab)) as [[D2 E2]|[D2 E2]]; rewrite E2; cbn [rbind].
      * destruct (IH (Nat.max r a) (Nat.max c b) P' ltac:(lia) ltac:(lia)) as [(A1 & A2 & E)|[A E]]; rewrite E.
        -- left. split; [apply agree_cons; auto; lia|]. split; [apply agree_cons; auto; lia|].
           change (largest (a :: map fst l)) with (Nat.max a (largest (map fst l))).
           change (largest (b :: map snd l)) with (Nat.max b (largest (map snd l))). f_equal. f_equal; lia.
        -- right. split; auto. intros [X Y]. apply A. split; [apply (agree_cons r a)|apply (agree_cons c b)]; auto; lia.
      * right. split; auto. intros [_ Y]. apply D2. apply Y; cbn; auto.
    + right. split; auto. intros [X _]. apply D1. apply X; cbn; auto.
Qed.

Lemma agree_1 : forall l, agree (1 :: l) <-> agree l.
Proof.
  intros l. split; intros A x y Hx Hy; [apply A; now right|].
  destruct Hx as [<-|Hx]; auto. destruct Hy as [<-|Hy]; auto.
Qed.

Lemma broadcast_spec : forall l, positive l ->
  (agree (map fst l) /\ agree (map snd l) /\ broadcast_shape l = Ok (largest (map fst l), largest (map snd l))) \/
  (~ (agree (map fst l) /\ agree (map snd l)) /\ broadcast_shape l = Err tt).
Proof.
  intros l P. unfold broadcast_shape. destruct l as [|s l].
  - left. split; [|split; [|reflexivity]]; intros x y [].
  - destruct (loop_spec (s :: l) 1 1 P (le_n _) (le_n _)) as [(A & B & E)|[A E]]; rewrite E; [left|right].
    + split; [now apply (proj1 (agree_1 _))|]. split; [now apply (proj1 (agree_1 _))|].
      assert (M : forall m, Nat.max 1 (largest m) = largest m).
      { intros m. assert (1 <= largest m) by (induction m as [|x m IHm]; cbn; [lia|fold (largest m); lia]). lia. }
      now rewrite !M.
    + split; auto. intros [X Y]. apply A. split; now apply agree_1.
Qed.

Lemma agree_perm : forall l l', Permutation l l' -> agree l -> agree l'.
Proof. intros l l' P A x y Hx Hy. apply Permutation_sym in P. apply A; eapply Permutation_in; eauto. Qed.
Lemma largest_perm : forall l l', Permutation l l' -> largest l = largest l'.
Proof. unfold largest. induction 1; cbn [fold_right]; lia. Qed.

(** Accepted exactly if no axis has two different lengths other than one; the
    result is the longest on each axis. *)
Theorem C42_shape :
  forall l, positive l -> forall r c,
    (broadcast_shape l = Ok (r, c) <->
     agree (map fst l) /\ agree (map snd l) /\ r = largest (map fst l) /\ c = largest (map snd l)).
Proof.
  intros l P r c. destruct (broadcast_spec l P) as [(A & B & E)|[A E]]; rewrite E; split.
  - intros X. inversion X. auto.
  - intros (_ & _ & -> & ->). reflexivity.
  - discriminate.
  - tauto.
Qed.
Print Assumptions C42_shape.

Theorem C42_refused_iff :
  forall l, positive l ->
    (broadcast_shape l = Err tt <->
     exists a b, a <> b /\ a <> 1 /\ b <> 1 /\
       ((In a (map fst l) /\ In b (map fst l)) \/ (In a (map snd l) /\ In b (map snd l)))).
Proof.
  intros l P. destruct (broadcast_spec l P) as [(A & B & E)|[A E]]; rewrite E; split.
  - discriminate.
  - intros (a & b & N1 & N2 & N3 & [[X Y]|[X Y]]); [destruct (A a b X Y) as [|[|]]|destruct (B a b X Y) as [|[|]]]; contradiction.
  - intros _. 
    assert (D : forall m, agree m \/ exists a b, a <> b /\ a <> 1 /\ b <> 1 /\ In a m /\ In b m).
    { induction m as [|x m IH]; [left; intros ? ? []|].
      destruct IH as [Am|(a & b & ? & ? & ? & ? & ?)]; [|right; exists a, b; cbn; auto 10].
      destruct (Nat.eq_dec x 1) as [->|Nx]; [left; apply (agree_1 m); auto|].
      destruct (existsb (fun y => negb (y =? x) && negb (y =? 1)) m) eqn:EX.
      - apply existsb_exists in EX. destruct EX as (y & Iy & H). right. exists x, y. cbn.
        repeat split; auto; lia.
      - left. intros p q Hp Hq.
        assert (F : forall y, In y m -> y = x \/ y = 1).
        { intros y Iy. destruct (Nat.eq_dec y x); auto. destruct (Nat.eq_dec y 1); auto.
          assert (existsb (fun y => negb (y =? x) && negb (y =? 1)) m = true) by (apply existsb_exists; exists y; split; auto; lia).
          congruence. }
        destruct Hp as [<-|Hp]; destruct Hq as [<-|Hq]; auto; try (destruct (F _ Hp)); try (destruct (F _ Hq)); subst; auto. }
    destruct (D (map fst l)) as [A1|(a & b & ? & ? & ? & ? & ?)]; [|exists a, b; auto 10].
    destruct (D (map snd l)) as [A2|(a & b & ? & ? & ? & ? & ?)]; [|exists a, b; auto 10]. tauto.
  - reflexivity.
Qed.
Print Assumptions C42_refused_iff.

Theorem C42_order_independent :
  forall l l', positive l -> Permutation l l' -> broadcast_shape l = broadcast_shape l'.
Proof.
  intros l l' P Pm.
  assert (P' : positive l') by (intros s Hs; apply P; apply Permutation_in with (l := l'); auto using Permutation_sym).
  pose proof (Permutation_map fst Pm) as P1. pose proof (Permutation_map snd Pm) as P2.
  destruct (broadcast_spec l P) as [(A & B & E)|[A E]], (broadcast_spec l' P') as [(A' & B' & E')|[A' E']]; rewrite E, E'; auto.
  - now rewrite (largest_perm _ _ P1), (largest_perm _ _ P2).
  - exfalso. apply A'. split; eapply agree_perm; eauto.
  - exfalso. apply Permutation_sym in P1, P2. apply A. split; eapply agree_perm; eauto.
Qed.
Print Assumptions C42_order_independent.

Example C42_ex : broadcast_shape [(1, 3); (4, 1); (4, 3)] = Ok (4, 3) /\ positive [(1, 3); (4, 1); (4, 3)].
Proof. split; [reflexivity|]. intros s [<-|[<-|[<-|[]]]]; cbn; lia. Qed.

(** Every result position reads an existing element of every operand. *)
Theorem C42_projection_in_bounds :
  forall l r c, positive l -> broadcast_shape l = Ok (r, c) ->
    forall i j, i < r -> j < c -> forall s, In s l ->
      fst (project_index (i, j) s) < fst s /\ snd (project_index (i, j) s) < snd s.
Proof.
  intros l r c P H i j Hi Hj s Hs. apply (C42_shape l P) in H. destruct H as (A & B & -> & ->).
  destruct (P s Hs) as [P1 P2]. unfold project_index. cbn [fst snd].
  assert (X : forall m a, agree m -> In a m -> a <> 1 -> largest m = a \/ largest m = 1).
  { intros m a Am Ia Na. destruct (largest_in m) as [|Il]; auto. destruct (Am _ _ Il Ia) as [|[|]]; auto. contradiction. }
  split.
  - destruct (fst s =? 1) eqn:E; [lia|]. destruct (X _ (fst s) A (in_map _ _ _ Hs)) as [Y|Y]; lia.
  - destruct (snd s =? 1) eqn:E; [lia|]. destruct (X _ (snd s) B (in_map _ _ _ Hs)) as [Y|Y]; lia.
Qed.
Print Assumptions C42_projection_in_bounds.

(** An operand as large as the result is read position by position. *)
Theorem C42_projection_identity :
  forall r c i j, i < r -> j < c -> project_index (i, j) (r, c) = (i, j).
Proof.
  intros r c i j Hi Hj. unfold project_index. cbn. f_equal.
  - destruct (r =? 1) eqn:E; lia.
  - destruct (c =? 1) eqn:E; lia.
Qed.
Print Assumptions C42_projection_identity.

(** With an empty axis the outcome depends on the order. *)
Theorem C42_order_with_empty_axis_refuted :
  exists l l', Permutation l l' /\ broadcast_shape l <> broadcast_shape l'.
Proof.
  exists [(0, 1); (2, 1)], [(2, 1); (0, 1)]. split; [apply perm_swap|]. vm_compute. discriminate.
Qed.
Print Assumptions C42_order_with_empty_axis_refuted.
