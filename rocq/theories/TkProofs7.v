(** What a supported formula looks like, and what its references name at a
    placement. *)
From Coq Require Import List Bool NArith ZArith String Lia ZifyN ZifyNat ZifyBool.
From Verif Require Import Base LexModel RtModel TkModel TkSpec SvModel TkSpec2 TkProofs1 TkProofs4.
Import ListNotations.
Open Scope N_scope.

Section Shape.
Variable ident : text -> N -> option fid.
Variables ar ac : N.

Lemma quiet_if (b : bool) r l : quiet ((if b then [Reject r] else []) ++ l) -> b = false /\ quiet l.
Proof. destruct b; cbn [app]; intros H; [exfalso; exact (quiet_reject _ _ H) | split; [reflexivity | exact H]]. Qed.

Lemma quiet_fn f : quiet (classify_fn f) -> plain_fn f.
Proof.
  unfold classify_fn, plain_fn. cbv zeta. intros H.
  apply quiet_if in H. destruct H as [H1 H]. apply quiet_if in H. destruct H as [H2 H].
  apply quiet_if in H. destruct H as [H3 H]. apply quiet_if in H. destruct H as [H4 H].
  apply quiet_if in H. destruct H as [H5 H]. repeat (split; [assumption |]).
  destruct (f_con f) as [k|]; [| exfalso; exact (quiet_reject _ _ H)]. exists k. split; [reflexivity |].
  apply quiet_app in H. destruct H as [H6 H]. apply quiet_app in H. destruct H as [H7 H].
  apply quiet_if in H. destruct H as [H8 H]. apply quiet_if in H. destruct H as [H9 H].
  split; [destruct (k_dep k); [reflexivity | |]; exfalso; exact (quiet_reject _ _ H6) |].
  split; [destruct (k_env k); [reflexivity | ..]; exfalso; exact (quiet_reject _ _ H7) |].
  split; [assumption |]. split; [assumption |].
  destruct (k_ctx k); [reflexivity | ..]; exfalso; exact (quiet_reject _ _ H).
Qed.
Lemma quiet_bounds o a b : quiet (bound_events o a b) -> (a = None <-> b = None).
Proof.
  unfold bound_events. destruct a, b; intros H; try (exfalso; exact (quiet_reject _ _ H)); split; congruence.
Qed.
Lemma quiet_ref o r : quiet (snd (canon_ref ar ac o r)) -> plain_ref o r.
Proof.
  destruct r; cbn [canon_ref plain_ref]; try (intros H; exfalso; exact (quiet_reject _ _ H)); try (intros _; exact I).
  - destruct (spill_text o); [| reflexivity]. cbn [snd]. intros H. exfalso. apply quiet_flag in H. exact (quiet_reject _ _ H).
  - destruct (spill_text o).
    + cbn [snd]. intros H. exfalso. apply quiet_flag in H. exact (quiet_reject _ _ H).
    + destruct (axis_pair (b_sr b) (b_er b) ar) as ((? & ?) & ?). destruct (axis_pair (b_sc b) (b_ec b) ac) as ((? & ?) & ?).
      cbn [snd]. intros H. apply quiet_flag in H. apply quiet_app in H. destruct H as [H1 H]. apply quiet_app in H. destruct H as [H2 _].
      split; [reflexivity |]. split; [exact (quiet_bounds _ _ _ H1) | exact (quiet_bounds _ _ _ H2)].
Qed.
Lemma quiet_shape : forall a c emit, quiet (o_events (canon ident ar ac a c emit)) -> shape ident a.
Proof.
  apply (ast_ind' (fun a => forall c emit, quiet (o_events (canon ident ar ac a c emit)) -> shape ident a)).
  - intros v c emit H. constructor. destruct v; try reflexivity. exfalso. cbn [canon o_events lit_events] in H. exact (quiet_reject _ _ H).
  - intros c emit H. constructor.
  - intros o r c emit H. constructor. apply quiet_ref. cbn [canon] in H. destruct (canon_ref ar ac o r). exact H.
  - intros op e IH c emit H. cbn [canon o_events] in H. apply quiet_app in H. destruct H as [H1 H2]. unfold classify_un in H1.
    constructor; [| | exact (IH _ _ H2)].
    + intros ->. exact (quiet_reject _ _ H1).
    + intros ->. exact (quiet_reject _ _ H1).
  - intros op l r IHl IHr c emit H. cbn [canon] in H. cbv zeta in H. cbn [o_events] in H. apply quiet_app in H. destruct H as [H1 H2].
    constructor; [exact (IHl _ _ H1) | exact (IHr _ _ H2)].
  - intros n args IH c emit H. rewrite canon_fn in H. cbv zeta in H. cbn [o_events] in H. apply quiet_app in H. destruct H as [H1 H2].
    apply quiet_flag in H2. apply quiet_fn in H1. unfold resolve in H1.
    destruct (ident n (len args)) as [f|] eqn:E.
    2: { exfalso. destruct H1 as (_ & _ & _ & _ & _ & k & K & _). discriminate K. }
    apply (sh_fn ident n args f E H1). revert H2. generalize (CFnArg (resolve ident n (len args))) as g. intros g. generalize 0 as i.
    clear E. induction IH as [|x l Hx Hl IH]; intros i H2; constructor; cbn [cargs flat_map] in H2; apply quiet_app in H2.
    + exact (Hx _ _ (proj1 H2)).
    + exact (IH _ (proj2 H2)).
  - intros x args IHx IH c emit H. exfalso. rewrite canon_call in H. cbv zeta in H. cbn [o_events] in H. exact (quiet_reject _ _ H).
  - intros rows IH c emit H. exfalso. cbn [canon] in H. cbv zeta in H. cbn [o_events] in H. exact (quiet_reject _ _ H).
Qed.
End Shape.

(** * References *)
Lemma fix_axis_of v v' (a p : N) f : shifted (Z.of_N p - Z.of_N a) f v v' -> fix_axis (fst (axis_of v a f)) p = At (Z.of_N v').
Proof. unfold shifted, axis_of. destruct f; cbn [fst fix_axis]; intros H; [now subst | f_equal; lia]. Qed.
Lemma fix_pair b c b' c' (a p : N) : bound_shifted (Z.of_N p - Z.of_N a) b b' -> bound_shifted (Z.of_N p - Z.of_N a) c c' ->
  fix_axis (fst (fst (axis_pair b c a))) p = low_edge b' c' /\ fix_axis (snd (fst (axis_pair b c a))) p = high_edge b' c'.
Proof.
  unfold bound_shifted, low_edge, high_edge, edge. destruct b as [(v & f)|], b' as [(v' & f')|]; try contradiction;
    destruct c as [(w & g)|], c' as [(w' & g')|]; try contradiction; intros H1 H2; cbn [axis_pair].
  - destruct H1 as [-> H1], H2 as [-> H2]. apply fix_axis_of in H1, H2.
    destruct (axis_of v a f), (axis_of w a g). split; assumption.
  - destruct H1 as [-> H1]. apply fix_axis_of in H1. destruct (axis_of v a f). split; [assumption | reflexivity].
  - destruct H2 as [-> H2]. apply fix_axis_of in H2. destruct (axis_of w a g). split; [reflexivity | assumption].
  - split; reflexivity.
Qed.
Lemma fix_canon o r r' (a b p q : N) : plain_ref o r -> ref_copy (Z.of_N p - Z.of_N a) (Z.of_N q - Z.of_N b) r r' ->
  Some (fix_ref (fst (canon_ref a b o r)) (p, q)) = named_place r'.
Proof.
  intros P C. destruct C as [sh row col ra ca row' col' H1 H2 | sh bd bd' H1 H2 H3 H4 | n].
  - cbn [canon_ref plain_ref named_place] in *. rewrite P. apply fix_axis_of in H1, H2.
    destruct (axis_of row a ra), (axis_of col b ca). cbn [fst fix_ref snd] in *. congruence.
  - cbn [canon_ref plain_ref named_place] in *. destruct P as [P _]. rewrite P.
    destruct (fix_pair _ _ _ _ _ _ H1 H3) as [F1 F2]. destruct (fix_pair _ _ _ _ _ _ H2 H4) as [F3 F4].
    destruct (axis_pair (b_sr bd) (b_er bd) a) as ((? & ?) & ?). destruct (axis_pair (b_sc bd) (b_ec bd) b) as ((? & ?) & ?).
    cbn [fst snd fix_ref] in *. congruence.
  - reflexivity.
Qed.
