(* Sheets: the last write is read back. *)
From Coq Require Import List Bool NArith ZArith Lia.
From Coq Require Import ZifyN ZifyNat ZifyBool.
From Verif Require Import Base Maps OvModel OvSpec OvProofs OvProofs2 OvProofs3 OvProofs4 OvProofs5 AsModel AsSpec AsProofs AsProofs2 AsProofs3 AsProofs4 AsProofs5 AsProofs6.
Import ListNotations.
Open Scope N_scope.

Definition fits (x : cell) (m : mark) : Prop :=
  match m with
  | MBlank => x_user x = None /\ x_comp x = None /\ x_base x = LEmpty
  | MLit l => x_comp x = None /\ shown x = l
  | MComp o => x_user x = None /\ forall l, o = Some l -> shown x = l
  | MOpen => True
  end.
Definition fit (g : grid) (b : board) : Prop := forall r c, fits (g r c) (b r c).
Lemma fits_says : forall x m l, fits x m -> says m = Some l -> shown x = l.
Proof.
  intros x m l F S0. destruct m as [|l'|o|]; cbn in *.
  - destruct F as (A & B & C). injection S0 as <-. unfold shown. now rewrite A, B.
  - injection S0 as <-. tauto.
  - destruct F as [_ F]. auto.
  - discriminate.
Qed.
Lemma fits_stored : forall x m, fits x m -> fits (user_stored x) m.
Proof.
  intros [u k b uf cf] m F. destruct m as [|l'|o|]; cbn in *; [| | |exact I].
  - destruct F as (-> & -> & ->). auto.
  - destruct F as (-> & F). unfold shown in *. cbn in *. split; auto.
  - destruct F as (-> & F). split; auto.
Qed.
Lemma fits_comp_stored : forall x m, fits x m -> fits (computed_stored x) m.
Proof.
  intros [u k b uf cf] m F. destruct m as [|l'|o|]; cbn in *; [| | |exact I].
  - destruct F as (-> & -> & ->). auto.
  - destruct F as (-> & F). unfold shown in *. cbn in *. split; auto.
  - destruct F as (-> & F). split; auto.
Qed.
Lemma fits_drop : forall x m, fits x m -> fits (uncomputed x) (drop_result m).
Proof.
  intros [u k b uf cf] m F. destruct m as [|l'|o|]; cbn in *; [| | |exact I].
  - destruct F as (-> & -> & ->). auto.
  - destruct F as (-> & F). split; auto.
  - destruct F as (-> & F). split; auto. discriminate.
Qed.
Lemma fit_stored : forall c a z g b f, (forall x m, fits x m -> fits (f x) m) -> fit g b -> fit (on_rows c a z f g) b.
Proof. intros c a z g b f K F i j. unfold on_rows. destruct (_ && _); auto. Qed.
Lemma fit_same : forall g g' b, same g' g -> fit g b -> fit g' b.
Proof. intros g g' b S0 F r c. rewrite S0. apply F. Qed.
Lemma fit_step : forall p g g' b, gstep p g g' -> fit g b -> fit g' (bstep b p).
Proof.
  intros p g g' b G F.
  destruct p as [r c v f|r c|r c v|r c f|c i t d|c i|a n|a n|a n|a n|r|c]; cbn [gstep bstep] in *.
  - destruct G as (a & z & G). eapply fit_same; [exact G|]. apply fit_stored; [apply fits_stored|]. intros i j. unfold at_cell, put.
    destruct ((i =? r) && (j =? c)); [split; reflexivity|apply F].
  - eapply fit_same; [exact G|]. intros i j. unfold at_cell, put. destruct ((i =? r) && (j =? c)); [|apply F]. specialize (F i j).
    destruct (g i j) as [u k bb uf cf]. destruct (b i j) as [|l|o|]; cbn in *.
    + tauto.
    + split; auto. discriminate.
    + destruct F as [-> F]. split; auto.
    + split; auto. discriminate.
  - eapply fit_same; [exact G|]. intros i j. unfold at_cell, put. destruct ((i =? r) && (j =? c)); [|apply F]. specialize (F i j).
    destruct (g i j) as [u k bb uf cf]. destruct (b i j) as [|l|o|]; cbn in *; auto.
    + destruct F as (-> & _). split; auto. intros l E. injection E as <-. reflexivity.
    + destruct F as (-> & _). split; auto. intros l E. injection E as <-. reflexivity.
  - eapply fit_same; [exact G|]. intros i j. unfold at_cell. destruct ((i =? r) && (j =? c)); [|apply F]. specialize (F i j).
    destruct (g i j) as [u k bb uf cf]. destruct (b i j) as [|l|o|]; cbn in *; auto.
  - destruct G as (a & z & G). eapply fit_same; [exact G|]. apply fit_stored; auto. apply fits_stored.
  - destruct G as (a & z & G). eapply fit_same; [exact G|]. apply fit_stored; auto. apply fits_comp_stored.
  - eapply fit_same; [exact G|]. intros i j. unfold rows_in. destruct (i <? a); auto. destruct (i <? a + n); auto. cbn. auto.
  - eapply fit_same; [exact G|]. intros i j. unfold rows_out. destruct (i <? a); auto.
  - eapply fit_same; [exact G|]. intros i j. unfold cols_in. destruct (j <? a); auto. destruct (j <? a + n); auto. cbn. auto.
  - eapply fit_same; [exact G|]. intros i j. unfold cols_out. destruct (j <? a); auto.
  - eapply fit_same; [exact G|]. intros i j. destruct (r <=? i); auto. now apply fits_drop.
  - eapply fit_same; [exact G|]. intros i j. destruct (c <=? j); auto. now apply fits_drop.
Qed.
Lemma fit_runs : forall h g g', gruns h g g' -> forall b, fit g b -> fit g' (fold_left bstep h b).
Proof.
  intros h g g' R. induction R as [g g' S0|p h g ga gb G R IH]; intros b F; cbn [fold_left].
  - eapply fit_same; [|exact F]. intros r c. symmetry. apply S0.
  - apply IH. eapply fit_step; eauto.
Qed.
Theorem last_write : forall mem crows h, calm_all crows h (0, 0) ->
  exists s, srun mem (new_sheet crows) h = Some s /\
    forall r c l, says (fold_left bstep h (fun _ _ => MBlank) r c) = Some l -> get_cell s r c = Some l.
Proof.
  intros mem crows h H. destruct (sheet_history mem crows h H) as (s & g & E & G & _ & V & _). exists s. split; auto. intros r c l S0.
  rewrite V. f_equal. eapply fits_says; [|exact S0]. apply (fit_runs h _ g G). intros i j. cbn. auto.
Qed.

(* ---- compaction ---- *)
Lemma shown_user_stored : forall x, x_user x = None \/ x_comp x = None -> shown (user_stored x) = shown x.
Proof. intros [[u|] [k|] b uf cf] [H | H]; try discriminate; reflexivity. Qed.
Lemma shown_computed_stored : forall x, shown (computed_stored x) = shown x.
Proof. intros [[u|] [k|] b uf cf]; reflexivity. Qed.
Lemma calm_snoc : forall crows h d p, calm_all crows h d -> calm crows p (fold_left (fun d p => dims_step p d) h d) -> calm_all crows (h ++ [p]) d.
Proof.
  intros crows h. induction h as [|q h IH]; intros d p H K; cbn [app calm_all fold_left] in *; auto. destruct H as [H1 H2]. split; auto.
Qed.
Lemma calm_bound : forall crows h d, calm_all crows h d -> fst d <= U32_MAX -> fst (fold_left (fun d p => dims_step p d) h d) <= U32_MAX.
Proof.
  intros crows h. induction h as [|q h IH]; intros d H K; cbn [fold_left]; auto. destruct d as [rs cs]. destruct H as [[_ H1] H2]. now apply IH.
Qed.
Theorem compact_user_shown : forall mem crows h c i t d, calm_all crows h (0, 0) ->
  exists s s' g, srun mem (new_sheet crows) h = Some s /\ sstep mem s (WCompactUser c i t d) = Some s' /\ gruns h (fun _ _ => blank) g /\
    forall r j, x_user (g r j) = None \/ x_comp (g r j) = None -> get_cell s' r j = get_cell s r j.
Proof.
  intros mem crows h c i t d H. destruct (run_spec true mem h (new_sheet crows) [] (inv_new true crows) H) as (s & lens & E & I & G & D).
  assert (RB : s_rows s <= U32_MAX) by (destruct I as (_ & (X & _) & _); exact X).
  destruct (step_spec true mem s lens (WCompactUser c i t d) I) as (s' & lens' & E' & I' & G' & _); [split; auto|].
  exists s, s', (layer s lens). split; auto. split; auto. split; [eapply gruns_ext; [|exact G]; apply layer_new|].
  intros r j K. rewrite (get_cell_layer true _ _ _ _ I'), (get_cell_layer true _ _ _ _ I). f_equal. cbn [gstep] in G'.
  destruct G' as (a & z & G'). rewrite G'. unfold on_rows. destruct (_ && _); auto. now apply shown_user_stored.
Qed.
Theorem compact_computed_shown : forall mem crows h c i, calm_all crows h (0, 0) ->
  exists s s', srun mem (new_sheet crows) h = Some s /\ sstep mem s (WCompactComputed c i) = Some s' /\
    forall r j, get_cell s' r j = get_cell s r j /\ format_id s' r j = format_id s r j.
Proof.
  intros mem crows h c i H. destruct (run_spec true mem h (new_sheet crows) [] (inv_new true crows) H) as (s & lens & E & I & G & D).
  assert (RB : s_rows s <= U32_MAX) by (destruct I as (_ & (X & _) & _); exact X).
  destruct (step_spec true mem s lens (WCompactComputed c i) I) as (s' & lens' & E' & I' & G' & _); [split; auto|].
  exists s, s'. split; auto. split; auto.
  intros r j. rewrite (get_cell_layer true _ _ _ _ I'), (get_cell_layer true _ _ _ _ I).
  rewrite (format_layer true _ _ r j I' (inv_no_runs _ _ I')), (format_layer true _ _ r j I (inv_no_runs _ _ I)). cbn [gstep] in G'.
  destruct G' as (a & z & G'). rewrite !G'. unfold on_rows. destruct (_ && _); auto.
Qed.

Theorem result_shown : forall mem crows h r c v, calm_all crows (h ++ [WClear r c; WComputed r c v]) (0, 0) ->
  exists s, srun mem (new_sheet crows) (h ++ [WClear r c; WComputed r c v]) = Some s /\ get_cell s r c = Some (lit_of v).
Proof.
  intros mem crows h r c v H. destruct (last_write mem crows _ H) as (s & E & K). exists s. split; auto. apply K.
  rewrite fold_left_app. cbn [fold_left bstep]. unfold put. rewrite !N.eqb_refl. cbn [andb].
  now destruct (fold_left bstep h (fun _ _ => MBlank) r c).
Qed.
Lemma fmt_slice_get : forall ids r off len i, fmt_from ids = Some r -> i < len ->
  match fmt_slice r off len with Some r' => fmt_get r' i | None => GENERAL end
  = match nthN ids (off + i) with Some f => f | None => GENERAL end.
Proof.
  intros ids r off len i E H. unfold fmt_slice. set (l := map (fmt_get r) (rangeN off (off + len))).
  assert (NL : nthN l i = Some (fmt_get r (off + i))).
  { unfold l. rewrite nthN_map, nthN_range. replace (i <? off + len - off) with true by lia. reflexivity. }
  rewrite <- (fmt_from_get ids r (off + i) E). destruct (fmt_from l) as [r'|] eqn:E2.
  - rewrite (fmt_from_get l r' i E2), NL. reflexivity.
  - symmetry. apply (proj1 (fmt_from_none l) E2). now apply nth_error_In with (N.to_nat i).
Qed.
