(** The formula that a span evaluates for a placement. *)
From Coq Require Import List Bool NArith ZArith String Lia ZifyN ZifyNat ZifyBool.
From Verif Require Import Base LexModel LexProofs RtModel TkModel TkSpec TkProofs1 TkProofs2 TkProofs3 TkProofs4 TkProofs5.
Import ListNotations.
Open Scope N_scope.

(** * The slot map *)
Lemma lit_eqb_eq v w : lit_eqb v w = true -> v = w.
Proof.
  destruct v, w; cbn; intros H; try discriminate H; try reflexivity;
    try (apply (proj1 (LexProofs.text_eqb_spec _ _)) in H; congruence).
  - apply Z.eqb_eq in H. congruence.
  - apply N.eqb_eq in H. congruence.
  - apply Bool.eqb_prop in H. congruence.
Qed.
Lemma lit_eqb_refl v : kept_once v -> lit_eqb v v = true.
Proof.
  destruct v; cbn; intros H; try destruct H; try reflexivity; try apply LexProofs.text_eqb_refl.
  - apply Z.eqb_refl.
  - destruct b; reflexivity.
Qed.
Lemma node_refl i v : node_eqb (lit_node i v) (lit_node i v) = true.
Proof. destruct v; cbn [lit_node node_eqb]; try apply N.eqb_refl; apply lit_eqb_refl; exact I. Qed.
Lemma node_same i v j w : node_eqb (lit_node i v) (lit_node j w) = true -> i = j \/ (v = w /\ kept_once v).
Proof.
  intros H. destruct v, w; cbn [lit_node node_eqb] in H; try discriminate H;
    try (left; apply N.eqb_eq in H; exact H); right; apply lit_eqb_eq in H; (split; [exact H | exact I]).
Qed.

Lemma entries_in l : forall k x s, In (x, s) (slot_entries k l) ->
  exists j v, nth_error l j = Some v /\ x = lit_node (k + N.of_nat j) v /\ s = slot_id (k + N.of_nat j).
Proof.
  induction l as [|v l IH]; intros k x s H; [destruct H |]. cbn [slot_entries] in H. apply in_app_or in H.
  destruct H as [H | [H | []]].
  - destruct (IH _ _ _ H) as (j & w & E & -> & ->). exists (S j), w. split; [exact E |].
    replace (k + N.of_nat (S j)) with (k + 1 + N.of_nat j) by lia. split; reflexivity.
  - injection H as <- <-. exists 0%nat, v. rewrite N.add_0_r. split; [reflexivity |]. split; reflexivity.
Qed.
Lemma entries_has l : forall k j v, nth_error l j = Some v ->
  In (lit_node (k + N.of_nat j) v, slot_id (k + N.of_nat j)) (slot_entries k l).
Proof.
  induction l as [|w l IH]; intros k j v E; [destruct j; discriminate E |]. cbn [slot_entries]. apply in_or_app.
  destruct j as [|j].
  - right. injection E as ->. rewrite N.add_0_r. left. reflexivity.
  - left. replace (k + N.of_nat (S j)) with (k + 1 + N.of_nat j) by lia. apply IH. exact E.
Qed.

Lemma bound_right l vals i v : List.length vals = List.length l -> len l <= 65536 -> repeats_agree l vals ->
  nth_error l i = Some v -> Some (bound_value (slot_entries 0 l) vals (N.of_nat i) v) = nth_error vals i.
Proof.
  intros HL HB HA E. unfold bound_value, slot_at.
  destruct (find (fun e => node_eqb (fst e) (lit_node (N.of_nat i) v)) (slot_entries 0 l)) as [[x s]|] eqn:F; cbn [option_map snd].
  - apply find_some in F. destruct F as [F1 F2]. cbn [fst] in F2.
    destruct (entries_in _ _ _ _ F1) as (j & w & Ej & -> & ->). rewrite N.add_0_l in *.
    assert (Hj : (j < List.length l)%nat) by (apply nth_error_Some; congruence).
    unfold slot_id, len in *. replace (N.to_nat (N.min (N.of_nat j) 65535)) with j by lia.
    assert (K : nth_error vals j = nth_error vals i).
    { apply node_same in F2. destruct F2 as [F2 | [-> F2]].
      - replace j with i by lia. reflexivity.
      - exact (HA _ _ _ F2 Ej E). }
    rewrite <- K. symmetry. apply nth_error_nth'. lia.
  - exfalso. pose proof (entries_has l 0 i v E) as H. pose proof (find_none _ _ F _ H) as K. cbn [fst] in K.
    rewrite N.add_0_l in K. rewrite node_refl in K. discriminate K.
Qed.

(** * References *)
Lemma shift_axis_right v w d f : shifted d f v w -> axis_in w f -> shift_axis v d f = Some w.
Proof.
  unfold shifted, axis_in, shift_axis, U32_MAX. destruct f; intros H K; [congruence |].
  destruct K as [K | K]; [discriminate K |]. cbv zeta.
  assert (B : ((Z.of_N v + d <? 1) || (Z.of_N (2 ^ 32 - 1) <? Z.of_N v + d))%Z = false) by lia.
  rewrite B. f_equal. lia.
Qed.
Lemma shift_bound_right x y d : bound_shifted d x y -> bound_in y -> shift_bound x d = Some y.
Proof.
  destruct x as [[v f]|], y as [[w f']|]; cbn [bound_shifted bound_in shift_bound]; intros H K; try destruct H.
  - subst f'. rewrite (shift_axis_right v w d f); [reflexivity | assumption | assumption].
  - reflexivity.
Qed.
Lemma shift_ref_right dr dc r r' : ref_copy dr dc r r' -> ref_in r' -> shift_ref dr dc r = Some r'.
Proof.
  intros H K. destruct H as [sh row col ra ca row' col' Hr Hc | sh b b' H1 H2 H3 H4 | n]; cbn [shift_ref ref_in] in *.
  - destruct K as [K1 K2]. rewrite (shift_axis_right _ _ _ _ Hr K1), (shift_axis_right _ _ _ _ Hc K2). reflexivity.
  - destruct K as (K1 & K2 & K3 & K4).
    rewrite (shift_bound_right _ _ _ H1 K1), (shift_bound_right _ _ _ H2 K2), (shift_bound_right _ _ _ H3 K3), (shift_bound_right _ _ _ H4 K4).
    destruct b'; reflexivity.
  - reflexivity.
Qed.
Lemma shifted_0 f v : shifted 0 f v v.
Proof. unfold shifted. destruct f; lia. Qed.
Lemma bound_shifted_0 b : bound_shifted 0 b b.
Proof. destruct b as [[v f]|]; cbn; [split; [reflexivity | apply shifted_0] | exact I]. Qed.
Lemma ref_copy_0 dr dc r r' : ref_copy dr dc r r' -> ref_copy 0 0 r' r'.
Proof.
  intros H. destruct H.
  - constructor; apply shifted_0.
  - constructor; apply bound_shifted_0.
  - constructor.
Qed.

(** * The walk *)
Lemma F2_len {A B} (R : A -> B -> Prop) l m : Forall2 R l m -> List.length l = List.length m.
Proof. intros H. induction H; cbn; congruence. Qed.
Section View.
Variable ident : text -> N -> option fid.
Variables dr dc : Z.
Variable m : list (node * N).
Variable vals l : list lit.
(** every literal is bound to the one at its own position *)
Hypothesis HB : forall i v, nth_error l i = Some v -> Some (bound_value m vals (N.of_nat i) v) = nth_error vals i.

Fixpoint views (a : list ast) (n : N) : list ast * N :=
  match a with
  | [] => ([], n)
  | x :: r => let '(y, n) := view m vals dr dc x n in let '(t, n) := views r n in (y :: t, n)
  end.
Lemma view_fn name args n : view m vals dr dc (AFn name args) n =
  (AFn name (fst (views args n)), snd (views args n)).
Proof.
  cbn [view].
  assert (K : forall l n, (fix go (l : list ast) (n : N) : list ast * N :=
      match l with
      | [] => ([], n)
      | x :: r => let '(y, n) := view m vals dr dc x n in let '(t, n) := go r n in (y :: t, n)
      end) l n = views l n).
  { induction l0 as [|x l0 IH]; intros k; [reflexivity |]. cbn [views]. destruct (view m vals dr dc x k). rewrite IH. reflexivity. }
  rewrite K. destruct (views args n). reflexivity.
Qed.

Lemma copy_lits : forall a b, copy ident any_scalar dr dc a b -> List.length (literals a) = List.length (literals b).
Proof.
  apply (ast_ind' (fun a => forall b, copy ident any_scalar dr dc a b -> List.length (literals a) = List.length (literals b))).
  - intros v b C. inversion C; subst. reflexivity.
  - intros b C. inversion C; subst. reflexivity.
  - intros o r b C. inversion C; subst. reflexivity.
  - intros op e IH b C. inversion C; subst. cbn [literals]. apply IH. assumption.
  - intros op x y IHx IHy b C. inversion C as [| | | | op1 x1 y1 x' y' H1 H2 |]; subst. cbn [literals]. rewrite !app_length, (IHx _ H1), (IHy _ H2). reflexivity.
  - intros n args IH b C. inversion C as [| | | | | n1 n' args1 args' f E1 E2 H]; subst. cbn [literals]. clear C E1 E2.
    revert args' H. induction IH as [|x q Hx Hq IH]; intros args' H; inversion H as [|x1 y q1 q' Hxy Hqq]; subst; [reflexivity |].
    cbn [flat_map]. rewrite !app_length, (Hx _ Hxy), (IH _ Hqq). reflexivity.
  - intros x args _ _ b C. inversion C.
  - intros rows _ b C. inversion C.
Qed.

Lemma view_right : forall a b, copy ident any_scalar dr dc a b -> addressed b ->
  forall p q p' q', l = p ++ literals a ++ q -> vals = p' ++ literals b ++ q' -> List.length p = List.length p' ->
    copy ident eq 0 0 (fst (view m vals dr dc a (N.of_nat (List.length p)))) b /\
    snd (view m vals dr dc a (N.of_nat (List.length p))) = N.of_nat (List.length p + List.length (literals a)).
Proof.
  apply (ast_ind' (fun a => forall b, copy ident any_scalar dr dc a b -> addressed b ->
    forall p q p' q', l = p ++ literals a ++ q -> vals = p' ++ literals b ++ q' -> List.length p = List.length p' ->
    copy ident eq 0 0 (fst (view m vals dr dc a (N.of_nat (List.length p)))) b /\
    snd (view m vals dr dc a (N.of_nat (List.length p))) = N.of_nat (List.length p + List.length (literals a)))).
  - intros v b C _ p q p' q' E E' Lp. inversion C as [v' w [Hv Hw] | | | | |]; subst v'; subst b.
    cbn [view literals List.length] in *. rewrite Hv. cbn [fst snd]. split; [| lia].
    constructor. assert (K : nth_error l (List.length p) = Some v).
    { rewrite E, nth_error_app2, Nat.sub_diag by lia. reflexivity. }
    apply HB in K. assert (K' : nth_error vals (List.length p) = Some w).
    { rewrite E', nth_error_app2, Lp, Nat.sub_diag by lia. reflexivity. }
    rewrite K' in K. injection K as K. exact K.
  - intros b C _ p q p' q' E E' Lp. inversion C; subst b. cbn [view fst snd literals List.length]. split; [constructor | lia].
  - intros o r b C A p q p' q' E E' Lp. inversion C as [| | o1 r1 o' r' H | | |]; subst o1; subst r1; subst b.
    inversion A; subst. cbn [view]. rewrite (shift_ref_right _ _ _ _ H) by assumption. cbn [fst snd literals List.length].
    split; [| lia]. constructor. exact (ref_copy_0 _ _ _ _ H).
  - intros op e IH b C A p q p' q' E E' Lp. inversion C as [| | | op1 e1 e' H | |]; subst op1; subst e1; subst b. inversion A; subst op0 e0.
    cbn [view literals] in *. destruct (IH _ H H1 _ _ _ _ E E' Lp) as [K1 K2].
    destruct (view m vals dr dc e _) as [x n]. cbn [fst snd] in *. split; [constructor; exact K1 | exact K2].
  - intros op x y IHx IHy b C A p q p' q' E E' Lp. inversion C as [| | | | op1 x1 y1 x' y' Hx Hy |]; subst op1; subst x1; subst y1; subst b.
    inversion A as [| | | |op2 l2 r2 Ax Ay | | |]; subst op2 l2 r2. cbn [view literals] in *. rewrite <- !app_assoc in E, E'.
    destruct (IHx _ Hx Ax _ _ _ _ E E' Lp) as [K1 K2].
    pose proof (copy_lits _ _ Hx) as Lx.
    rewrite (app_assoc p) in E. rewrite (app_assoc p') in E'.
    assert (Lp2 : List.length (p ++ literals x) = List.length (p' ++ literals x')) by (rewrite !app_length; lia).
    destruct (IHy _ Hy Ay _ _ _ _ E E' Lp2) as [K3 K4].
    destruct (view m vals dr dc x _) as [u n]. cbn [fst snd] in *. rewrite app_length in K3, K4. rewrite <- K2 in K3, K4.
    destruct (view m vals dr dc y n) as [w k]. cbn [fst snd] in *. split; [constructor; assumption |]. rewrite K4, app_length. lia.
  - intros n args IH b C A p q p' q' E E' Lp. inversion C as [| | | | | n1 n' args1 args' f E1 E2 H]; subst n1; subst args1; subst b.
    inversion A as [| | | | | n2 args2 Aa | |]; subst n2 args2. rewrite view_fn. cbn [fst snd literals] in *.
    assert (K : Forall2 (copy ident eq 0 0) (fst (views args (N.of_nat (List.length p)))) args' /\
                snd (views args (N.of_nat (List.length p))) = N.of_nat (List.length p + List.length (flat_map literals args))).
    { clear C A E1 E2. revert args' p p' H Aa E E' Lp.
      induction IH as [|x r Hx Hr IH]; intros args' p p' H Aa E E' Lp; inversion H as [|x1 y r1 r' Hxy Hrr]; subst args'; try (subst x1; subst r1).
      - cbn. split; [constructor | f_equal; lia].
      - cbn [flat_map] in E, E'. rewrite <- !app_assoc in E, E'. apply Forall_cons_iff in Aa. destruct Aa as [Ax Ar].
        destruct (Hx _ Hxy Ax _ _ _ _ E E' Lp) as [K1 K2]. pose proof (copy_lits _ _ Hxy) as Lx.
        rewrite (app_assoc p) in E. rewrite (app_assoc p') in E'.
        assert (Lp2 : List.length (p ++ literals x) = List.length (p' ++ literals y)) by (rewrite !app_length; lia).
        destruct (IH _ _ _ Hrr Ar E E' Lp2) as [K3 K4].
        cbn [views flat_map]. destruct (view m vals dr dc x _) as [u k]. cbn [fst snd] in *.
        rewrite app_length in K3, K4. rewrite <- K2 in K3, K4.
        destruct (views r k) as [t j]. cbn [fst snd] in *. split; [constructor; assumption |]. rewrite K4, app_length. lia. }
    destruct K as [K1 K2]. split; [| exact K2].
    apply (copy_fn _ _ _ _ n n' _ args' f); [| | exact K1].
    + replace (len (fst (views args (N.of_nat (List.length p))))) with (len args); [exact E1 |].
      unfold len. rewrite (F2_len _ _ _ K1), (F2_len _ _ _ H). reflexivity.
    + replace (len (fst (views args (N.of_nat (List.length p))))) with (len args); [exact E2 |].
      unfold len. rewrite (F2_len _ _ _ K1), (F2_len _ _ _ H). reflexivity.
  - intros x args _ _ b C. inversion C.
  - intros rows _ b C. inversion C.
Qed.
End View.

(** A placement whose formula has the key of the origin's is evaluated as its own formula. *)
Theorem placement_right ident a1 b1 a2 b2 v1 v2 x y :
  provider_ok ident ->
  let t1 := canonicalize ident a1 b1 v1 x in
  let t2 := canonicalize ident a2 b2 v2 y in
  supported (t_labels t1) = true -> supported (t_labels t2) = true -> par_key t1 = par_key t2 ->
  addressed y -> len (literals x) <= 65536 -> repeats_agree (literals x) (literals y) ->
  copy ident eq 0 0 (evaluated x a1 b1 a2 b2 (map s_val (t_slots t2))) y.
Proof.
  intros Hid t1 t2 H1 H2 K A B R.
  destruct (supported_quiet _ _ _ _ _ H1) as (Q1 & _). destruct (supported_quiet _ _ _ _ _ H2) as (Q2 & _).
  pose proof (proj1 (par_keys ident Hid a1 b1 a2 b2 v1 v2 x y H1 H2) K) as C.
  change (t_slots t2) with (o_slots (canon ident a2 b2 y CValue true)). rewrite (quiet_slots _ _ _ _ _ Q2).
  unfold evaluated, slot_map. rewrite (quiet_walk _ _ _ _ _ _ Q1).
  pose proof (copy_lits ident _ _ _ _ C) as L.
  assert (HB : forall i v, nth_error (literals x) i = Some v ->
     Some (bound_value (slot_entries 0 (literals x)) (literals y) (N.of_nat i) v) = nth_error (literals y) i).
  { intros i v E. apply bound_right; [lia | exact B | exact R | exact E]. }
  destruct (view_right ident (Z.of_N a2 - Z.of_N a1) (Z.of_N b2 - Z.of_N b1) (slot_entries 0 (literals x)) (literals y) (literals x) HB
    x y C A [] [] [] []) as [V _]; [cbn; rewrite app_nil_r; reflexivity | cbn; rewrite app_nil_r; reflexivity | reflexivity |].
  exact V.
Qed.
