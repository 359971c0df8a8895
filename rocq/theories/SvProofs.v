(** Evaluating a span in groups gives every placement its own value. *)
From Coq Require Import List Bool NArith ZArith String Lia ZifyN ZifyNat ZifyBool Permutation.
From Verif Require Import Base LexModel RtModel TkModel TkSpec TkProofs1 TkProofs3 TkProofs6 SvModel.
Import ListNotations.
Open Scope N_scope.

Lemma lits_eqb_eq : forall a b, lits_eqb a b = true -> a = b.
Proof.
  induction a as [|x a IH]; intros [|y b] H; cbn in H; try discriminate H; [reflexivity |].
  apply andb_prop in H. destruct H as [H1 H2]. apply lit_eqb_eq in H1. rewrite (IH _ H2). congruence.
Qed.
Lemma on_eqb_eq a b : on_eqb a b = true -> a = b.
Proof. destruct a, b; cbn; intros H; try discriminate H; [apply N.eqb_eq in H; congruence | reflexivity]. Qed.
Lemma pkey_eqb_eq a b : pkey_eqb a b = true -> a = b.
Proof.
  unfold pkey_eqb. intros H. apply andb_prop in H. destruct H as [H H4]. apply andb_prop in H. destruct H as [H H3].
  apply andb_prop in H. destruct H as [H1 H2]. destruct a, b. cbn in *.
  apply lits_eqb_eq in H1. apply lits_eqb_eq in H2. apply on_eqb_eq in H3. apply on_eqb_eq in H4. congruence.
Qed.

Lemma map_app_inj {A B} (f g : A -> B) l m : map f (l ++ m) = map g (l ++ m) -> map f l = map g l /\ map f m = map g m.
Proof.
  rewrite !map_app. intros H. apply app_len in H; [exact H |]. rewrite !map_length. reflexivity.
Qed.

Section Key.
Variable world : sheetb -> fixed -> fixed -> lit.
Variables p q : place.
Let get (x : place) (r : cref) : lit := read world (fix_ref r x).
Definition same_axes (d : bool * bool) : Prop :=
  (fst d = true -> fst p = fst q) /\ (snd d = true -> snd p = snd q).
Lemma same_or a b : same_axes (or2 a b) -> same_axes a /\ same_axes b.
Proof.
  unfold same_axes, or2. cbn [fst snd]. intros [H1 H2].
  repeat split; intros H; (apply H1 || apply H2); rewrite H; rewrite ?orb_true_r; reflexivity.
Qed.
Lemma fix_axis_same x (a b : N) : (is_rel x = true -> a = b) -> fix_axis x a = fix_axis x b.
Proof. destruct x; cbn; intros H; try reflexivity. rewrite H by reflexivity. reflexivity. Qed.
Lemma fix_ref_same r : same_axes (ref_axes r) -> fix_ref r p = fix_ref r q.
Proof.
  intros [H1 H2]. destruct r; cbn [ref_axes fst snd fix_ref] in *; try reflexivity.
  - rewrite (fix_axis_same row (fst p) (fst q) H1), (fix_axis_same col (snd p) (snd q) H2). reflexivity.
  - assert (A : forall x y, ((is_rel x || is_rel y) = true -> fst p = fst q) -> fix_axis x (fst p) = fix_axis x (fst q) /\ fix_axis y (fst p) = fix_axis y (fst q)).
    { intros x y H. split; apply fix_axis_same; intros K; apply H; rewrite K, ?orb_true_r; reflexivity. }
    assert (B : forall x y, ((is_rel x || is_rel y) = true -> snd p = snd q) -> fix_axis x (snd p) = fix_axis x (snd q) /\ fix_axis y (snd p) = fix_axis y (snd q)).
    { intros x y H. split; apply fix_axis_same; intros K; apply H; rewrite K, ?orb_true_r; reflexivity. }
    destruct (A _ _ H1) as [-> ->], (B _ _ H2) as [-> ->]. reflexivity.
Qed.

Definition agree (e : cexpr) : Prop :=
  map (get p) (value_slots e) = map (get q) (value_slots e) -> same_axes (residual e) -> seen world p e = seen world q e.

Lemma agree_list l : Forall agree l ->
  map (get p) (flat_map value_slots l) = map (get q) (flat_map value_slots l) ->
  same_axes (fold_right (fun x => or2 (residual x)) (false, false) l) -> map (seen world p) l = map (seen world q) l.
Proof.
  intros H. induction H as [|x l Hx Hl IH]; intros E A; [reflexivity |].
  cbn [flat_map fold_right map] in *. apply map_app_inj in E. destruct E as [E1 E2]. apply same_or in A. destruct A as [A1 A2].
  rewrite (Hx E1 A1), (IH E2 A2). reflexivity.
Qed.

Lemma seen_same : forall e, agree e.
Proof.
  apply cexpr_ind'; unfold agree; cbn [value_slots residual seen].
  - reflexivity.
  - reflexivity.
  - intros c r E A. destruct (value_context c && finite_relative r).
    + cbn [map] in E. injection E as E. fold (get p r) (get q r). rewrite E. reflexivity.
    + rewrite (fix_ref_same r A). reflexivity.
  - intros op x IH E A. rewrite (IH E A). reflexivity.
  - intros op l r IHl IHr E A. apply map_app_inj in E. destruct E as [E1 E2]. apply same_or in A. destruct A as [A1 A2].
    rewrite (IHl E1 A1), (IHr E2 A2). reflexivity.
  - intros f args IH E A. rewrite (agree_list args IH E A). reflexivity.
  - intros x args IHx IH E A. apply map_app_inj in E. destruct E as [E1 E2]. apply same_or in A. destruct A as [A1 A2].
    rewrite (IHx E1 A1), (agree_list args IH E2 A2). reflexivity.
  - intros rows IH E A. f_equal. induction IH as [|row rest Hrow Hrest IH]; [reflexivity |].
    cbn [flat_map fold_right map] in *. apply map_app_inj in E. destruct E as [E1 E2]. apply same_or in A. destruct A as [A1 A2].
    rewrite (agree_list row Hrow E1 A1), (IH E2 A2). reflexivity.
Qed.
End Key.

Section Task.
Variable world : sheetb -> fixed -> fixed -> lit.
Variable e : cexpr.
Variable bindings : place -> list lit.
Variable value : Type.
Variable interp : dexpr -> list lit -> value.
Variable fine : dexpr -> list lit -> bool.

Notation key := (parameter_key world e bindings).
Notation own := (value_at world e bindings value interp).

Theorem key_decides p q : key p = key q -> seen world p e = seen world q e /\ bindings p = bindings q.
Proof.
  intros E. unfold parameter_key in E. injection E as E1 E2 E3 E4. split; [| exact E1].
  apply (seen_same world p q e E2). split.
  - intros H. rewrite H in E3. congruence.
  - intros H. rewrite H in E4. congruence.
Qed.
Corollary key_value p q : key p = key q -> own p = own q.
Proof. intros E. apply key_decides in E. destruct E as [E1 E2]. unfold value_at. rewrite E1, E2. reflexivity. Qed.

(** * Groups *)
Definition good (g : group) : Prop := key (g_rep g) = g_key g /\ Forall (fun p => key p = g_key g) (g_places g).
Definition spread_out (gs : list group) : list place := flat_map g_places gs.

Lemma add_group_good p : forall gs, Forall good gs -> Forall good (add_group p (key p) gs).
Proof.
  induction gs as [|g gs IH]; intros H; cbn [add_group].
  - constructor; [| constructor]. split; [reflexivity |]. constructor; [reflexivity | constructor].
  - apply Forall_cons_iff in H. destruct H as [[Hg1 Hg2] H]. destruct (pkey_eqb (key p) (g_key g)) eqn:E.
    + apply pkey_eqb_eq in E. constructor; [| exact H]. split; [exact Hg1 |]. cbn [g_places g_key].
      apply Forall_app. split; [exact Hg2 |]. constructor; [exact E | constructor].
    + constructor; [split; assumption | exact (IH H)].
Qed.
Lemma add_group_places p k : forall gs, Permutation (spread_out (add_group p k gs)) (p :: spread_out gs).
Proof.
  induction gs as [|g gs IH]; cbn [add_group].
  - reflexivity.
  - destruct (pkey_eqb k (g_key g)); unfold spread_out in *; cbn [flat_map g_places].
    + rewrite <- app_assoc. symmetry. apply Permutation_middle.
    + rewrite IH. symmetry. apply Permutation_middle.
Qed.
Lemma groups_right n : forall l acc gs, groups world e bindings n l acc = Some gs -> Forall good acc ->
  Forall good gs /\ Permutation (spread_out gs) (l ++ spread_out acc).
Proof.
  induction l as [|p l IH]; intros acc gs H G; cbn [groups] in H.
  - injection H as <-. split; [exact G | reflexivity].
  - cbv zeta in H. destruct (negb _ && _); [discriminate H |]. destruct (n * 3 <? _); [discriminate H |].
    destruct (IH _ _ H (add_group_good p _ G)) as [H1 H2]. split; [exact H1 |].
    rewrite H2, add_group_places. symmetry. apply Permutation_middle.
Qed.

Lemma flat_perm {A B} (f : A -> list B) l m : Permutation l m -> Permutation (flat_map f l) (flat_map f m).
Proof.
  intros H. induction H; cbn [flat_map].
  - reflexivity.
  - apply Permutation_app_head. assumption.
  - rewrite !app_assoc. apply Permutation_app_tail, Permutation_app_comm.
  - etransitivity; eassumption.
Qed.
Lemma memo_writes gs : Forall good gs ->
  r_writes _ (memoized world e bindings value interp fine gs) = map (fun p => (p, own p)) (spread_out gs).
Proof.
  intros H. unfold memoized, spread_out. cbn [r_writes].
  induction H as [|g gs [Hg1 Hg2] H IH]; [reflexivity |]. cbn [flat_map]. rewrite map_app, IH. f_equal.
  apply map_ext_in. intros p Hp. rewrite Forall_forall in Hg2. f_equal. apply key_value. rewrite Hg1. symmetry. exact (Hg2 p Hp).
Qed.

(** * Constant spans *)
Lemma constant_seen p q : residual e = (false, false) -> value_slots e = [] -> seen world p e = seen world q e.
Proof.
  intros R V. apply seen_same; [rewrite V; reflexivity |]. rewrite R. split; intros H; discriminate H.
Qed.

Variables (reads_spans : bool) (dictionary : option N) (covered : place -> bool) (origin : place) (constant : bool)
  (order : list group -> list group) (cancellable : bool).
Hypothesis Horder : forall l, Permutation (order l) l.
Variable placements : list place.
Hypothesis Hconst : constant = true -> constant_result e bindings origin placements = true.

Theorem task_values :
  Permutation (r_writes _ (evaluate_task world e bindings reads_spans dictionary value interp fine covered origin constant order cancellable placements))
              (map (fun p => (p, interp (seen world p e) (bindings p))) (filter (fun p => negb (covered p)) placements)).
Proof.
  unfold evaluate_task. cbv zeta. set (w := filter (fun p => negb (covered p)) placements).
  destruct constant eqn:C.
  - specialize (Hconst eq_refl). unfold constant_result in Hconst.
    apply andb_prop in Hconst. destruct Hconst as [K F]. apply andb_prop in K. destruct K as [R V].
    assert (R' : residual e = (false, false)) by (destruct (residual e) as [[|] [|]]; try discriminate R; reflexivity).
    assert (V' : value_slots e = []) by (destruct (value_slots e); [reflexivity | discriminate V]).
    rewrite forallb_forall in F. unfold constant_report.
    assert (W : map (fun p => (p, interp (seen world origin e) (bindings origin))) w =
                map (fun p => (p, interp (seen world p e) (bindings p))) w).
    { apply map_ext_in. intros p Hp. unfold w in Hp. apply filter_In in Hp. destruct Hp as [Hp _].
      rewrite (lits_eqb_eq _ _ (F p Hp)), (constant_seen p origin R' V'). reflexivity. }
    destruct w as [|first r]; [reflexivity |]. cbn [r_writes]. rewrite W. reflexivity.
  - destruct (negb cancellable && should_try _ _ _ _ _ w); [| reflexivity].
    destruct (groups _ _ _ (len w) w []) as [gs|] eqn:G; [| reflexivity].
    destruct (groups_right _ _ _ _ G (Forall_nil _)) as [H1 H2]. cbn [spread_out flat_map] in H2. rewrite app_nil_r in H2.
    assert (H3 : Forall good (order gs)).
    { apply Forall_forall. intros g Hg. rewrite Forall_forall in H1. apply H1. exact (Permutation_in _ (Horder gs) Hg). }
    rewrite (memo_writes _ H3). apply Permutation_map. unfold spread_out in *.
    rewrite (flat_perm g_places _ _ (Horder gs)). exact H2.
Qed.

(** One by one, every placement that evaluates has its format recorded. *)
Theorem task_formats_single : constant = false -> cancellable = true ->
  r_formats _ (evaluate_task world e bindings reads_spans dictionary value interp fine covered origin constant order cancellable placements)
  = filter (fun p => fine (seen world p e) (bindings p)) (filter (fun p => negb (covered p)) placements).
Proof.
  intros -> ->. unfold evaluate_task. cbv zeta. cbn [negb andb one_by_one r_formats].
  induction (filter _ placements) as [|p l IH]; [reflexivity |]. cbn [flat_map filter]. unfold formatted at 1.
  destruct (fine _ _); cbn [app]; rewrite IH; reflexivity.
Qed.
End Task.
