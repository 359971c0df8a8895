(** The delta reported for two arrays. *)
From Coq Require Import SpecFloat.
From Coq Require Import ZifyN ZifyNat ZifyBool.
From Verif Require Import Base Maps ConvModel ConvSpec ConvProofs.
Local Open Scope Z_scope.

(** The pairs of cells at the same place. *)
Definition cell_pairs (a b : list (list cvalue)) : list (cvalue * cvalue) :=
  flat_map (fun p => combine (fst p) (snd p)) (combine a b).

Lemma cells_fold : forall tol ra rb out,
  (exists p, In p (combine ra rb) /\ converged (values_converged tol (fst p) (snd p)) = false) /\ cells tol ra rb out = inr out_no
  \/ (forall p, In p (combine ra rb) -> converged (values_converged tol (fst p) (snd p)) = true)
     /\ cells tol ra rb out = inl (fold_left (fun o p => out_merge o (values_converged tol (fst p) (snd p))) (combine ra rb) out).
Proof.
  induction ra as [|ea ra IH]; intros [|eb rb] out; cbn [cells combine fold_left fst snd]; try (right; split; [intros p []|reflexivity]).
  destruct (converged (values_converged tol ea eb)) eqn:C; cbn zeta.
  - destruct (IH rb (out_merge out (values_converged tol ea eb))) as [((p & H & X) & E)|[A E]].
    + left. split; [exists p; split; [now right|auto]|exact E].
    + right. split; [|exact E]. intros p [<-|H]; auto.
  - left. split; [exists (ea, eb); split; [now left|auto]|reflexivity].
Qed.
Lemma rows_fold : forall tol a b out, converged out = true -> converged (rows tol a b out) = true ->
  rows tol a b out = fold_left (fun o p => out_merge o (values_converged tol (fst p) (snd p))) (cell_pairs a b) out
  /\ forall p, In p (cell_pairs a b) -> converged (values_converged tol (fst p) (snd p)) = true.
Proof.
  induction a as [|ra a IH]; intros [|rb b] out K H; cbn [rows cell_pairs combine flat_map fold_left] in *; try (split; [reflexivity|intros p []]).
  fold (cell_pairs a b) in *. cbn [fst snd]. destruct (cells_fold tol ra rb out) as [[_ E]|[A E]]; rewrite E in *.
  - discriminate.
  - assert (K' : converged (fold_left (fun o p => out_merge o (values_converged tol (fst p) (snd p))) (combine ra rb) out) = true).
    { clear -K. revert out K. induction (combine ra rb) as [|p l IH]; intros; cbn; auto. }
    destruct (IH b _ K' H) as [R B]. rewrite fold_left_app. split; [exact R|].
    intros p I. apply in_app_or in I. destruct I; auto.
Qed.

(** ** The order of floats *)
Definition number (x : spec_float) : Prop := x <> S754_nan.
Lemma fle_refl : forall x, number x -> SFleb x x = true.
Proof.
  intros [s|s| |s m e] N; try (now destruct s); [now destruct N|].
  unfold SFleb. cbn. rewrite Z.compare_refl. change (Pos.compare_cont Eq m m) with (Pos.compare m m). rewrite Pos.compare_refl. now destruct s.
Qed.
Lemma fle_trans : forall x y z, SFleb x y = true -> SFleb y z = true -> SFleb x z = true.
Proof.
  intros x y z. destruct x as [s1|s1| |s1 m1 e1], y as [s2|s2| |s2 m2 e2], z as [s3|s3| |s3 m3 e3];
    try (destruct s1); try (destruct s2); try (destruct s3); unfold SFleb; cbn; try discriminate; auto;
    change (Pos.compare_cont Eq m1 m2) with (Pos.compare m1 m2);
    change (Pos.compare_cont Eq m2 m3) with (Pos.compare m2 m3);
    change (Pos.compare_cont Eq m1 m3) with (Pos.compare m1 m3);
    destruct (Z.compare_spec e1 e2), (Z.compare_spec e2 e3), (Z.compare_spec e1 e3); try lia; try discriminate; auto;
    destruct (Pos.compare_spec m1 m2), (Pos.compare_spec m2 m3), (Pos.compare_spec m1 m3); cbn; try lia; try discriminate; auto.
Qed.
Lemma fcompare_anti : forall x y, SFcompare y x = option_map CompOpp (SFcompare x y).
Proof.
  intros [s1|s1| |s1 m1 e1] [s2|s2| |s2 m2 e2]; try (destruct s1); try (destruct s2); cbn; auto;
    change (Pos.compare_cont Eq m1 m2) with (Pos.compare m1 m2); change (Pos.compare_cont Eq m2 m1) with (Pos.compare m2 m1);
    rewrite (Z.compare_antisym e1 e2), (Pos.compare_antisym m1 m2); destruct (Z.compare e1 e2), (Pos.compare m1 m2); reflexivity.
Qed.
Lemma fcompare_some : forall x y, number x -> number y -> SFcompare x y <> None.
Proof.
  intros [s1|s1| |s1 m1 e1] [s2|s2| |s2 m2 e2] A B; try (now destruct A); try (now destruct B);
    try (destruct s1); try (destruct s2); cbn; try discriminate; destruct (Z.compare e1 e2); discriminate.
Qed.
Lemma fmax_spec : forall x y, number x -> number y ->
  SFleb x (fmax x y) = true /\ SFleb y (fmax x y) = true /\ (fmax x y = x \/ fmax x y = y).
Proof.
  intros x y A B. unfold fmax. destruct (SFcompare x y) as [[]|] eqn:E.
  - split; [now apply fle_refl|]. split; [unfold SFleb; rewrite fcompare_anti, E; reflexivity|auto].
  - split; [unfold SFleb; now rewrite E|]. split; [now apply fle_refl|auto].
  - split; [now apply fle_refl|]. split; [unfold SFleb; rewrite fcompare_anti, E; reflexivity|auto].
  - destruct (fcompare_some x y A B E).
Qed.

(** ** The merged outcome *)
Definition outs (tol : spec_float) (l : list (cvalue * cvalue)) : list outcome := map (fun p => values_converged tol (fst p) (snd p)) l.
Lemma merge_all : forall l out, (forall o d, In o (out :: l) -> abs_delta o = Some d -> number d) ->
  let r := fold_left out_merge l out in
  (forall o d, In o (out :: l) -> abs_delta o = Some d -> exists m, abs_delta r = Some m /\ SFleb d m = true)
  /\ (forall m, abs_delta r = Some m -> exists o, In o (out :: l) /\ abs_delta o = Some m)
  /\ (nan_converged r = true <-> exists o, In o (out :: l) /\ nan_converged o = true).
Proof.
  induction l as [|e l IH]; intros out F; cbn [fold_left].
  - split; [|split].
    + intros o d [<-|[]] E. exists d. split; auto. apply fle_refl. apply (F out d); auto. now left.
    + intros m E. exists out. split; auto. now left.
    + split; [intros E; exists out; split; auto; now left|]. intros (o & [<-|[]] & E). exact E.
  - assert (M : forall d, abs_delta (out_merge out e) = Some d -> (abs_delta out = Some d \/ abs_delta e = Some d)).
    { unfold out_merge. cbn. destruct (abs_delta out) as [x|] eqn:X, (abs_delta e) as [y|] eqn:Y; intros d E; inversion E; subst; auto.
      destruct (fmax_spec x y) as (_ & _ & [Z|Z]); [apply (F out); auto; now left|apply (F e); auto; cbn; auto|rewrite Z|rewrite Z]; auto. }
    assert (U : forall d, (abs_delta out = Some d \/ abs_delta e = Some d) -> exists m, abs_delta (out_merge out e) = Some m /\ SFleb d m = true).
    { unfold out_merge. cbn. intros d D.
      assert (Nd : number d) by (destruct D as [D|D]; [apply (F out d)|apply (F e d)]; cbn; auto).
      destruct (abs_delta out) as [x|] eqn:X, (abs_delta e) as [y|] eqn:Y; destruct D as [D|D]; inversion D; subst.
      - exists (fmax d y). split; auto. apply fmax_spec; auto. apply (F e); cbn; auto.
      - exists (fmax x d). split; auto. apply fmax_spec; auto. apply (F out); cbn; auto.
      - exists d. split; auto. now apply fle_refl.
      - exists d. split; auto. now apply fle_refl. }
    destruct (IH (out_merge out e)) as (P & Q & R).
    { intros o d [<-|H] E; [|apply (F o d); auto; now do 2 right]. apply M in E. destruct E as [E|E]; [apply (F out)|apply (F e)]; cbn; auto. }
    cbn zeta. split; [|split].
    + assert (Z : forall d, (abs_delta out = Some d \/ abs_delta e = Some d) ->
                exists m, abs_delta (fold_left out_merge l (out_merge out e)) = Some m /\ SFleb d m = true).
      { intros d D. destruct (U d D) as (m & E & L). destruct (P (out_merge out e) m) as (m2 & E2 & L2); [now left|auto|].
        exists m2. split; auto. eapply fle_trans; eauto. }
      intros o d [<-|[<-|H]] E; [apply Z; auto|apply Z; auto|]. apply (P o); auto. now right.
    + intros m E. destruct (Q m E) as (o & [<-|H] & X).
      * apply M in X. destruct X as [X|X]; [exists out|exists e]; split; cbn; auto.
      * exists o. split; cbn; auto.
    + rewrite R. split.
      * intros (o & [<-|H] & X).
        -- unfold out_merge in X. cbn in X. apply orb_true_iff in X. destruct X as [X|X]; [exists out|exists e]; split; cbn; auto.
        -- exists o. cbn. auto.
      * intros (o & [<-|[<-|H]] & X); [exists (out_merge out e)|exists (out_merge out e)|exists o]; split; cbn; auto;
          rewrite X; auto using orb_true_r.
Qed.
Lemma fold_outs : forall tol l out,
  fold_left (fun o p => out_merge o (values_converged tol (fst p) (snd p))) l out = fold_left out_merge (outs tol l) out.
Proof. induction l; intros; cbn; auto. Qed.
Lemma lt_number : forall d t, SFltb d t = true -> number d.
Proof. intros d t H ->. discriminate. Qed.
Lemma delta_number : forall tol a b d, converged (values_converged tol a b) = true -> abs_delta (values_converged tol a b) = Some d -> number d.
Proof.
  intros tol a. induction a as [x|i|x|t|t|k| | |rs IH] using cvalue_ind'; intros b d C E.
  1-3: destruct b; try discriminate; cbn [values_converged numeric_serial] in *; unfold numbers_converged in *;
       repeat match goal with
       | H : context [match ?x with FNum _ => _ | FNan _ => _ end] |- _ => destruct x
       | H : context [if N.eqb ?x ?y then _ else _] |- _ => destruct (N.eqb x y)
       end; cbn in *; try discriminate; inversion E; subst; eapply lt_number; eauto.
  1-5: destruct b; cbn [values_converged numeric_serial] in *; try discriminate;
       repeat match goal with H : context [if ?c then _ else _] |- _ => destruct c end; discriminate.
  destruct b as [x|i|x|t|t|k| | |rs']; try discriminate. rewrite converged_array in *. destruct (same_shape rs rs'); [|discriminate].
  destruct (rows_fold tol rs rs' out_yes eq_refl C) as [R A]. rewrite R, fold_outs in E.
  destruct (merge_all (outs tol (cell_pairs rs rs')) out_yes) as (_ & Q & _).
  - intros o x [<-|H] X; [discriminate|]. apply in_map_iff in H. destruct H as ([p q] & <- & H).
    pose proof (A _ H) as Y. unfold cell_pairs in H. apply in_flat_map in H. destruct H as ([r r'] & H1 & H2). cbn in H2.
    rewrite Forall_forall in IH. specialize (IH r (in_combine_l _ _ _ _ H1)). rewrite Forall_forall in IH.
    apply (IH p (in_combine_l _ _ _ _ H2) q x); auto.
  - destruct (Q d E) as (o & [<-|H] & X); [discriminate|]. apply in_map_iff in H. destruct H as ([p q] & <- & H).
    pose proof (A _ H) as Y. unfold cell_pairs in H. apply in_flat_map in H. destruct H as ([r r'] & H1 & H2). cbn in H2.
    rewrite Forall_forall in IH. specialize (IH r (in_combine_l _ _ _ _ H1)). rewrite Forall_forall in IH.
    apply (IH p (in_combine_l _ _ _ _ H2) q d); auto.
Qed.
Lemma array_delta : forall tol a b, converged (values_converged tol (CArray a) (CArray b)) = true ->
  let whole := values_converged tol (CArray a) (CArray b) in
  let cell p := values_converged tol (fst p) (snd p) in
  (forall p d, In p (cell_pairs a b) -> abs_delta (cell p) = Some d -> exists m, abs_delta whole = Some m /\ SFleb d m = true)
  /\ (forall m, abs_delta whole = Some m -> exists p, In p (cell_pairs a b) /\ abs_delta (cell p) = Some m)
  /\ (nan_converged whole = true <-> exists p, In p (cell_pairs a b) /\ nan_converged (cell p) = true).
Proof.
  intros tol a b C whole cell. subst whole cell. rewrite converged_array in *. destruct (same_shape a b); [|discriminate].
  destruct (rows_fold tol a b out_yes eq_refl C) as [R A]. rewrite R, fold_outs.
  destruct (merge_all (outs tol (cell_pairs a b)) out_yes) as (P & Q & N).
  - intros o x [<-|H] X; [discriminate|]. apply in_map_iff in H. destruct H as (p & <- & H). eapply delta_number; eauto.
  - split; [|split].
    + intros p d H E. eapply P; eauto. right. unfold outs. apply in_map_iff. eauto.
    + intros m E. destruct (Q m E) as (o & [<-|H] & X); [discriminate|]. apply in_map_iff in H. destruct H as (p & <- & H). eauto.
    + rewrite N. split.
      * intros (o & [<-|H] & X); [discriminate|]. apply in_map_iff in H. destruct H as (p & <- & H). eauto.
      * intros (p & H & X). eexists. split; [right; unfold outs; apply in_map_iff; eauto|exact X].
Qed.
