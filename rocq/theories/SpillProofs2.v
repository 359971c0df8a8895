(** More proofs about spills: whole results and histories. *)
From Verif Require Import Base Maps ListSort SpillModel SpillSpec SpillProofs.

Definition after_clear (st : state) (a : cell) : state := match cells_of st a with [] => st | _ => clear st a end.
Lemma after_clear_content : forall st a c, get (content (after_clear st a)) c = get (content (clear st a)) c.
Proof.
  intros. unfold after_clear. destruct (cells_of st a) eqn:E; auto. rewrite clear_content, E. reflexivity.
Qed.
Lemma after_clear_cells : forall st a, cells_of (after_clear st a) a = [].
Proof.
  intros. unfold after_clear. destruct (cells_of st a) eqn:E; auto.
  unfold cells_of. now rewrite clear_listed, cell_eqb_refl.
Qed.
Lemma after_clear_formula : forall st a, formula_at (after_clear st a) a = formula_at st a.
Proof.
  intros. unfold formula_at. rewrite after_clear_content, clear_content, cell_eqb_refl.
  rewrite andb_comm. reflexivity.
Qed.
Lemma after_clear_listed : forall st a b, b <> a -> get (listed (after_clear st a)) b = get (listed st) b.
Proof.
  intros st a b H. unfold after_clear. destruct (cells_of st a); auto. now rewrite clear_listed, (cell_eqb_ne _ _ H).
Qed.
Lemma after_clear_inverse : forall st a, inverse st -> inverse (after_clear st a).
Proof. intros. unfold after_clear. destruct (cells_of st a); auto. now apply clear_inverse. Qed.
Lemma after_clear_plan : forall st a t, inverse st -> plan st a t [] = None -> plan (after_clear st a) a t [] = None.
Proof. intros st a t I H. unfold after_clear. destruct (cells_of st a); auto. now apply plan_after_clear. Qed.

(** The state after a result that fits. *)
Lemma array_fits : forall st a rows, inverse st -> plan st a (targets_of a (length rows) (width rows)) [] = None ->
  array_result st a rows =
  update_value (fst (commit (after_clear st a) a (targets_of a (length rows) (width rows)) rows None)) a
    (match rows with (v :: _) :: _ => v | _ => Empty end).
Proof.
  intros st a rows I P. unfold array_result. rewrite P. fold (after_clear st a). now rewrite after_clear_plan.
Qed.
Lemma array_blocked : forall st a rows, plan st a (targets_of a (length rows) (width rows)) [] <> None ->
  array_result st a rows = update_value (clear st a) a spill_error.
Proof. intros st a rows P. unfold array_result. destruct (plan st a _ []); [reflexivity|congruence]. Qed.

Lemma update_content : forall st c v d, get (content (update_value st c v)) d =
  if cell_eqb d c then Some (Entry (formula_at st c) (Some v)) else get (content st) d.
Proof.
  intros. unfold update_value, with_content. cbn [content]. destruct (cell_dec d c) as [->|H]; [rewrite cell_eqb_refl; apply get_put_same|].
  rewrite (cell_eqb_ne _ _ H). now apply get_put_other.
Qed.
Lemma update_formula : forall st c v d, formula_at (update_value st c v) d = formula_at st d.
Proof.
  intros. unfold formula_at at 1. rewrite update_content. destruct (cell_dec d c) as [->|H]; [now rewrite cell_eqb_refl|].
  now rewrite (cell_eqb_ne _ _ H).
Qed.
Lemma update_read : forall st c v d, read (update_value st c v) d = if cell_eqb d c then v else read st d.
Proof.
  intros. unfold read at 1. rewrite update_content. destruct (cell_eqb d c); reflexivity.
Qed.
Lemma set_content : forall st c v d, get (content (set_value st c v)) d =
  if cell_eqb d c then Some (Entry None (Some v)) else get (content st) d.
Proof.
  intros. unfold set_value, with_content. cbn [content]. destruct (cell_dec d c) as [->|H]; [rewrite cell_eqb_refl; apply get_put_same|].
  rewrite (cell_eqb_ne _ _ H). now apply get_put_other.
Qed.
Lemma setf_content : forall st c f d, get (content (set_formula st c f)) d =
  if cell_eqb d c then Some (Entry (Some f) None) else get (content st) d.
Proof.
  intros. unfold set_formula, with_content. cbn [content]. destruct (cell_dec d c) as [->|H]; [rewrite cell_eqb_refl; apply get_put_same|].
  rewrite (cell_eqb_ne _ _ H). now apply get_put_other.
Qed.

Lemma array_shows : forall st a rows, inverse st -> rectangular rows ->
  plan st a (targets_of a (length rows) (width rows)) [] = None ->
  let st' := array_result st a rows in
  (forall i j vs v, nth_error rows i = Some vs -> nth_error vs j = Some v ->
     read st' (Cell (sheet a) (row a + i) (col a + j)) = v) /\
  (forall c, In c (cells_of st a) -> c <> a -> ~ In c (targets_of a (length rows) (width rows)) -> read st' c = Empty) /\
  (forall c, c <> a -> ~ In c (targets_of a (length rows) (width rows)) -> ~ In c (cells_of st a) -> get (content st') c = get (content st) c) /\
  formula_at st' a = formula_at st a.
Proof.
  intros st a rows I R P st'. unfold st'. rewrite (array_fits st a rows I P).
  destruct (commit (after_clear st a) a (targets_of a (length rows) (width rows)) rows None) as [st2 ok] eqn:E.
  assert (ok = true) by (unfold commit in E; now injection E). subst ok.
  destruct (commit_ok (after_clear st a) a rows st2 R E) as (C1 & C2 & C3 & C4). cbn [fst].
  repeat split.
  - intros i j vs v Hi Hj. rewrite update_read. destruct (cell_eqb _ a) eqn:Ec; [|now apply (C1 i j vs v)].
    apply cell_eqb_spec in Ec. destruct a as [s0 r0 c0]. cbn in Ec. injection Ec as E1 E2.
    assert (i = 0) by lia. assert (j = 0) by lia. subst.
    destruct rows as [|vs0 rows]; [discriminate|]. cbn in Hi. injection Hi as ->.
    destruct vs as [|v0 vs]; [discriminate|]. cbn in Hj. now injection Hj as ->.
  - intros c Hc Ha Ht. rewrite update_read, (cell_eqb_ne _ _ Ha). unfold read.
    rewrite C3; [|exact Ht|rewrite after_clear_cells; tauto].
    rewrite after_clear_content, clear_content. assert (M : memc c (cells_of st a) = true) by now apply memc_spec.
    rewrite M, (cell_eqb_ne _ _ Ha). cbn [andb negb]. destruct (get (content st) c); reflexivity.
  - intros c Ha Ht Hc. rewrite update_content, (cell_eqb_ne _ _ Ha). rewrite C3; [|exact Ht|rewrite after_clear_cells; tauto].
    rewrite after_clear_content, clear_content. apply memc_false in Hc. now rewrite Hc.
  - rewrite update_formula, C4. apply after_clear_formula.
Qed.
Lemma clear_read : forall st a c, inverse st -> c <> a -> get (owner st) c = Some a -> read (clear st a) c = Empty.
Proof.
  intros st a c I Ha O. apply I in O. apply cells_of_in in O. apply memc_spec in O.
  unfold read. rewrite clear_content, O, (cell_eqb_ne _ _ Ha). cbn [andb negb]. destruct (get (content st) c); reflexivity.
Qed.
(** A blocked result shows the error and nothing of the old spill. *)
Lemma array_hides : forall st a rows, inverse st ->
  plan st a (targets_of a (length rows) (width rows)) [] <> None ->
  let st' := array_result st a rows in
  read st' a = spill_error /\ formula_at st' a = formula_at st a /\
  (forall c, c <> a -> get (owner st) c = Some a -> read st' c = Empty) /\
  (forall c, c <> a -> get (owner st) c <> Some a -> get (content st') c = get (content st) c) /\
  (forall c, get (owner st') c <> Some a).
Proof.
  intros st a rows I P st'. unfold st'. rewrite (array_blocked st a rows P).
  split; [now rewrite update_read, cell_eqb_refl|]. split; [|split; [|split]].
  - rewrite update_formula. unfold formula_at. rewrite clear_content, cell_eqb_refl, andb_comm. reflexivity.
  - intros c Ha O. rewrite update_read, (cell_eqb_ne _ _ Ha). now apply clear_read.
  - intros c Ha O. rewrite update_content, (cell_eqb_ne _ _ Ha), clear_content.
    assert (M : memc c (cells_of st a) = false).
    { apply memc_false. intros F. apply cells_of_in in F. apply I in F. contradiction. }
    now rewrite M.
  - intros c. change (get (owner (clear st a)) c <> Some a). intros E. apply (proj1 (clear_inverse st a I)) in E.
    destruct E as (l & E & _). rewrite clear_listed, cell_eqb_refl in E. discriminate.
Qed.

(** A result only touches its own cells and empty ones. *)
Lemma array_untouched : forall st a rows c, inverse st -> rectangular rows -> c <> a -> get (owner st) c <> Some a ->
  (formula_at st c <> None \/ read st c <> Empty) -> get (content (array_result st a rows)) c = get (content st) c.
Proof.
  intros st a rows c I R Ha O U. destruct (plan st a (targets_of a (length rows) (width rows)) []) eqn:P.
  - apply array_hides; auto. congruence.
  - destruct (array_shows st a rows I R P) as (_ & _ & C & _). apply C; auto.
    + intros Ht. rewrite plan_none in P. destruct (P c Ht) as [F|[_ [F|[F|(e & E & [[_ []]|[F1 F2]])]]]]; try congruence.
      * unfold formula_at, read in U. rewrite F in U. destruct U; congruence.
      * unfold formula_at, read in U. rewrite E in U. destruct e as [ef ev]. cbn in *. destruct F2 as [F2|F2]; subst; destruct U; congruence.
    + intros F. apply cells_of_in in F. apply I in F. contradiction.
Qed.

(** Owners stay formulas while edits go through the editor. *)
Definition good (st : state) := inverse st /\ live_owners st.
Lemma good_owner_self : forall st c a, good st -> get (owner st) c = Some a -> get (owner st) a = Some a /\ formula_at st a <> None.
Proof.
  intros st c a [I L] O. apply I in O. destruct O as (l & E & H).
  destruct (L a l E) as [Ha (f & Hf)]; [intros ->; destruct H|]. split; [apply I; eauto|congruence].
Qed.
Lemma after_clear_live : forall st a, good st -> live_owners (after_clear st a).
Proof.
  intros st a G. destruct (G) as [I L]. unfold after_clear. destruct (cells_of st a) as [|x0 l0] eqn:E0; [auto|].
  intros b l Hb Hl. rewrite clear_listed in Hb.
  destruct (cell_dec b a) as [->|Hne]; [rewrite cell_eqb_refl in Hb; discriminate|]. rewrite (cell_eqb_ne _ _ Hne) in Hb.
  destruct (L b l Hb Hl) as [Hin (f & Hf)]. split; auto. exists f. rewrite <- Hf. unfold formula_at. rewrite clear_content.
  assert (M : memc b (cells_of st a) = false).
  { apply memc_false. intros F. apply cells_of_in in F. apply I in F.
    assert (get (owner st) b = Some b) by (apply I; eauto). congruence. }
  now rewrite M.
Qed.
Lemma clear_live : forall st a, good st -> live_owners (clear st a).
Proof.
  intros st a G b l Hb Hl. destruct (cells_of st a) eqn:E0.
  - rewrite clear_listed in Hb. destruct (cell_dec b a) as [->|Hne]; [rewrite cell_eqb_refl in Hb; discriminate|].
    rewrite (cell_eqb_ne _ _ Hne) in Hb. destruct (proj2 G b l Hb Hl) as [Hin (f & Hf)]. split; auto. exists f.
    unfold formula_at. rewrite clear_content, E0. exact Hf.
  - pose proof (after_clear_live st a G) as H. unfold after_clear in H. rewrite E0 in H. now apply H.
Qed.
Lemma update_good : forall st c v, good st -> good (update_value st c v).
Proof.
  intros st c v [I L]. split; [now apply update_inverse|]. intros b l Hb Hl. destruct (L b l Hb Hl) as [H (f & Hf)].
  split; auto. exists f. now rewrite update_formula.
Qed.
Lemma take_commit_live : forall st a rows, good st -> formula_at st a <> None -> rectangular rows ->
  plan st a (targets_of a (length rows) (width rows)) [] = None ->
  live_owners (fst (commit st a (targets_of a (length rows) (width rows)) rows None)).
Proof.
  intros st a rows G F R P. set (t := targets_of a (length rows) (width rows)) in *.
  destruct (commit st a t rows None) as [st2 ok] eqn:E.
  assert (ok = true) by (unfold commit in E; now injection E). subst ok.
  destruct (commit_ok st a rows st2 R E) as (_ & _ & C3 & C4). fold t in C3. cbn [fst].
  assert (LS : listed st2 = put (listed st) a t).
  { unfold commit in E. injection E as <-. unfold take. cbn [listed]. now rewrite (proj1 (proj2 (writes_maps a (ops_of st a t rows) st))). }
  intros b l Hb Hl. rewrite LS in Hb. destruct (cell_dec b a) as [->|Hne].
  - rewrite get_put_same in Hb. injection Hb as <-. split.
    + destruct t as [|c0 t0] eqn:Et; [congruence|]. unfold t in Et. pose proof (targets_head _ _ _ _ _ Et). subst c0. now left.
    + rewrite C4. destruct (formula_at st a); [eauto|congruence].
  - rewrite get_put_other in Hb by auto. destruct (proj2 G b l Hb Hl) as [Hin (f & Hf)]. split; auto. exists f.
    rewrite <- Hf. unfold formula_at. assert (Ob : get (owner st) b = Some b) by (apply (proj1 G); eauto). rewrite C3; auto.
    + intros Ht. rewrite plan_none in P. destruct (P b Ht) as [Q|[Q _]]; congruence.
    + intros Hc. apply cells_of_in in Hc. apply (proj1 G) in Hc. congruence.
Qed.
Lemma edited_good : forall st e, good st -> allowed st e -> good (edited st e).
Proof.
  intros st e G A. split; [apply edited_inverse; apply G|]. destruct e; cbn [edited allowed] in *.
  - destruct A as [F R]. destruct (plan st anchor (targets_of anchor (length rows) (width rows)) []) eqn:P.
    + rewrite array_blocked by congruence. apply update_good. split; [apply clear_inverse, G|now apply clear_live].
    + rewrite (array_fits st anchor rows (proj1 G) P).
      assert (G1 : good (after_clear st anchor)) by (split; [apply after_clear_inverse, G|now apply after_clear_live]).
      assert (P1 := after_clear_plan st anchor _ (proj1 G) P).
      apply update_good. split; [apply commit_inverse; [apply G1|exact P1]|].
      apply take_commit_live; auto. now rewrite after_clear_formula.
  - unfold scalar_result. apply update_good. split; [apply after_clear_inverse, G|now apply after_clear_live].
  - unfold editor_set_value. change (live_owners (set_value (after_clear st c) c v)).
    intros b l Hb Hl. change (get (listed (after_clear st c)) b = Some l) in Hb.
    destruct (cell_dec b c) as [->|Hne].
    + exfalso. apply Hl. assert (cells_of (after_clear st c) c = l) by (unfold cells_of; now rewrite Hb).
      now rewrite after_clear_cells in H.
    + destruct (after_clear_live st c G b l Hb Hl) as [H (f & Hf)]. split; auto. exists f. rewrite <- Hf.
      unfold formula_at. now rewrite set_content, (cell_eqb_ne _ _ Hne).
  - unfold editor_set_formula. change (live_owners (set_formula (after_clear st c) c f)).
    intros b l Hb Hl. change (get (listed (after_clear st c)) b = Some l) in Hb.
    destruct (cell_dec b c) as [->|Hne].
    + exfalso. apply Hl. assert (cells_of (after_clear st c) c = l) by (unfold cells_of; now rewrite Hb).
      now rewrite after_clear_cells in H.
    + destruct (after_clear_live st c G b l Hb Hl) as [H (g & Hg)]. split; auto. exists g. rewrite <- Hg.
      unfold formula_at. now rewrite setf_content, (cell_eqb_ne _ _ Hne).
Qed.
Lemma reached_good : forall st, reached edited st -> good st.
Proof.
  intros st H. induction H as [|st e H IH A]; [|now apply edited_good]. split; [apply start_inverse|].
  intros a l E. discriminate.
Qed.
Lemma reached_inverse : forall st, reached direct st -> inverse st.
Proof. intros st H. induction H as [|st e H IH A]; [apply start_inverse|now apply direct_inverse]. Qed.
(** Replacing an anchor through the editor removes its spill. *)
Lemma editor_removes : forall st a v, inverse st ->
  (forall c, c <> a -> get (owner st) c = Some a -> read (editor_set_value st a v) c = Empty) /\
  (forall c, get (owner (editor_set_value st a v)) c <> Some a) /\ read (editor_set_value st a v) a = v.
Proof.
  intros st a v I. change (editor_set_value st a v) with (set_value (after_clear st a) a v). split; [|split].
  - intros c Ha O. unfold read. rewrite set_content, (cell_eqb_ne _ _ Ha), after_clear_content. exact (clear_read st a c I Ha O).
  - intros c E. change (get (owner (after_clear st a)) c = Some a) in E.
    apply (proj1 (after_clear_inverse st a I)) in E. apply cells_of_in in E. rewrite after_clear_cells in E. destruct E.
  - unfold read. now rewrite set_content, cell_eqb_refl.
Qed.
Lemma editor_formula_removes : forall st a f, inverse st ->
  (forall c, c <> a -> get (owner st) c = Some a -> read (editor_set_formula st a f) c = Empty) /\
  (forall c, get (owner (editor_set_formula st a f)) c <> Some a) /\ formula_at (editor_set_formula st a f) a = Some f.
Proof.
  intros st a f I. change (editor_set_formula st a f) with (set_formula (after_clear st a) a f). split; [|split].
  - intros c Ha O. unfold read. rewrite setf_content, (cell_eqb_ne _ _ Ha), after_clear_content. exact (clear_read st a c I Ha O).
  - intros c E. change (get (owner (after_clear st a)) c = Some a) in E.
    apply (proj1 (after_clear_inverse st a I)) in E. apply cells_of_in in E. rewrite after_clear_cells in E. destruct E.
  - unfold formula_at. now rewrite setf_content, cell_eqb_refl.
Qed.
