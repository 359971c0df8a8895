(** Theorems about spills. *)
From Verif Require Import Base Maps ListSort SpillModel SpillSpec SpillProofs SpillProofs2.

Definition A1 := Cell 0 0 0.
Definition A2 := Cell 0 1 0.
Definition A3 := Cell 0 2 0.
Definition B1 := Cell 0 0 1.
Fixpoint play (step : state -> event -> state) (st : state) (es : list event) : state :=
  match es with [] => st | e :: es' => play step (step st e) es' end.
(** A1 spills two rows. *)
Definition spilled : state := play edited start [ESetFormula A1 7; EArray A1 [[Val 1]; [Val 2]]].
(** Then a formula is typed into the spilled cell A2. *)
Definition typed : state := edited spilled (ESetFormula A2 8).
Lemma spilled_reached : reached edited spilled.
Proof.
  apply (reached_step edited (edited start (ESetFormula A1 7)) (EArray A1 [[Val 1]; [Val 2]])).
  - apply (reached_step edited start (ESetFormula A1 7)); [constructor|exact I].
  - split; [discriminate|]. repeat constructor.
Qed.
Lemma typed_reached : reached edited typed.
Proof. apply (reached_step edited spilled (ESetFormula A2 8)); [apply spilled_reached|exact I]. Qed.

(** C37: a commit shows the whole array, empties the dropped cells and touches nothing else. *)
Theorem C37_commit : forall st a rows st', rectangular rows ->
  commit st a (targets_of a (length rows) (width rows)) rows None = (st', true) ->
  (forall i j vs v, nth_error rows i = Some vs -> nth_error vs j = Some v ->
     read st' (Cell (sheet a) (row a + i) (col a + j)) = v) /\
  (forall c, In c (cells_of st a) -> ~ In c (targets_of a (length rows) (width rows)) -> read st' c = Empty) /\
  (forall c, ~ In c (targets_of a (length rows) (width rows)) -> ~ In c (cells_of st a) ->
     get (content st') c = get (content st) c) /\
  formula_at st' a = formula_at st a.
Proof. exact commit_ok. Qed.
Print Assumptions C37_commit.
(** Interrupted at any write, every cell reads as before and nobody's ownership changed. *)
Theorem C37_fault_values : forall st a t rows n st' ok, n < length (ops_of st a t rows) ->
  commit st a t rows (Some n) = (st', ok) ->
  ok = false /\ (forall c, read st' c = read st c) /\
  owner st' = owner st /\ listed st' = listed st /\ by_sheet st' = by_sheet st.
Proof. exact commit_fault. Qed.
Print Assumptions C37_fault_values.
(** The formulas come back too, if none of the rewritten cells but the anchor had one. *)
Theorem C37_fault_formulas_partial : forall st a t rows n st', n < length (ops_of st a t rows) ->
  (forall d, In d (map fst (firstn n (ops_of st a t rows))) -> d <> a -> formula_at st d = None) ->
  commit st a t rows (Some n) = (st', false) -> forall c, formula_at st' c = formula_at st c.
Proof.
  intros st a t rows n st' H F E c. unfold commit in E. apply Nat.ltb_lt in H. rewrite H in E. injection E as <-.
  now apply rollback_formula.
Qed.
Print Assumptions C37_fault_formulas_partial.
(** They do not otherwise: a formula typed into a spilled cell is lost by the rollback. *)
Theorem C37_fault_formulas_refuted : exists st a rows n st',
  reached edited st /\ rectangular rows /\ plan st a (targets_of a (length rows) (width rows)) [] = None /\
  commit st a (targets_of a (length rows) (width rows)) rows (Some n) = (st', false) /\
  exists c, formula_at st' c <> formula_at st c.
Proof.
  exists typed, A1, [[Val 1]; [Val 2]; [Val 3]], 2, (fst (commit typed A1 (targets_of A1 3 1) [[Val 1]; [Val 2]; [Val 3]] (Some 2))).
  split; [apply typed_reached|]. split; [repeat constructor|]. split; [reflexivity|]. split; [reflexivity|].
  exists A2. vm_compute. discriminate.
Qed.
Print Assumptions C37_fault_formulas_refuted.
(** A result that fits is shown completely, whatever was shown before. *)
Theorem C37_result_shown : forall st a rows, reached direct st -> rectangular rows ->
  plan st a (targets_of a (length rows) (width rows)) [] = None ->
  let st' := array_result st a rows in
  (forall i j vs v, nth_error rows i = Some vs -> nth_error vs j = Some v ->
     read st' (Cell (sheet a) (row a + i) (col a + j)) = v) /\
  (forall c, In c (cells_of st a) -> c <> a -> ~ In c (targets_of a (length rows) (width rows)) -> read st' c = Empty) /\
  (forall c, c <> a -> ~ In c (targets_of a (length rows) (width rows)) -> ~ In c (cells_of st a) ->
     get (content st') c = get (content st) c) /\
  formula_at st' a = formula_at st a.
Proof. intros st a rows H. apply array_shows. now apply reached_inverse. Qed.
Print Assumptions C37_result_shown.
(** A result that does not fit shows the error alone, and its old cells are free. *)
Theorem C37_result_blocked : forall st a rows, reached direct st ->
  plan st a (targets_of a (length rows) (width rows)) [] <> None ->
  let st' := array_result st a rows in
  read st' a = spill_error /\ formula_at st' a = formula_at st a /\
  (forall c, c <> a -> get (owner st) c = Some a -> read st' c = Empty) /\
  (forall c, c <> a -> get (owner st) c <> Some a -> get (content st') c = get (content st) c) /\
  (forall c, get (owner st') c <> Some a).
Proof. intros st a rows H. apply array_hides. now apply reached_inverse. Qed.
Print Assumptions C37_result_blocked.
(** Planning admits exactly the free rectangles. *)
Theorem C37_plan_exact : forall st a allow t, plan st a t allow = None <->
  forall c, In c t -> get (owner st) c = Some a \/
    (get (owner st) c = None /\ (c = a \/ get (content st) c = None \/
       exists e, get (content st) c = Some e /\
         ((formula e <> None /\ In c allow) \/ (formula e = None /\ (value e = None \/ value e = Some Empty))))).
Proof. exact plan_none. Qed.
Print Assumptions C37_plan_exact.
(** The spill shrinks from three rows to one, and is interrupted after one write. *)
Example C37_example :
  let st := play edited start [ESetFormula A1 7; ESetValue B1 (Val 9); EArray A1 [[Val 1]; [Val 2]; [Val 3]]] in
  let t := targets_of A1 1 1 in
  rectangular [[Val 5]] /\ plan st A1 t [] = None /\ length (ops_of st A1 t [[Val 5]]) = 3 /\
  (forall d, In d (map fst (firstn 1 (ops_of st A1 t [[Val 5]]))) -> d <> A1 -> formula_at st d = None) /\
  map (read st) [A1; A2; A3; B1] = [Val 1; Val 2; Val 3; Val 9] /\
  map (read (array_result st A1 [[Val 5]])) [A1; A2; A3; B1] = [Val 5; Empty; Empty; Val 9] /\
  map (read (fst (commit st A1 t [[Val 5]] (Some 1)))) [A1; A2; A3; B1] = [Val 1; Val 2; Val 3; Val 9] /\
  plan st A1 (targets_of A1 1 2) [] = Some ByValue /\
  map (read (array_result st A1 [[Val 5; Val 6]])) [A1; A2; A3; B1] = [spill_error; Empty; Empty; Val 9].
Proof.
  vm_compute. repeat (split; [solve [reflexivity | repeat constructor]|]).
  split; [|repeat split]. intros d [<-|[]] _. reflexivity.
Qed.

(** C38: over any history, each spilled cell is listed by its one owner and nobody else. *)
Theorem C38_one_owner : forall st, reached direct st -> inverse st.
Proof. exact reached_inverse. Qed.
Print Assumptions C38_one_owner.
Theorem C38_one_owner_editor : forall st, reached edited st -> inverse st /\ live_owners st.
Proof. exact reached_good. Qed.
Print Assumptions C38_one_owner_editor.
(** Replacing the formula directly leaves cells that belong to no formula. *)
Theorem C38_direct_edit_refuted : exists st, reached direct st /\ ~ live_owners st.
Proof.
  exists (direct spilled (ESetValue A1 (Val 5))). split.
  - apply (reached_step direct spilled (ESetValue A1 (Val 5))); [|exact I].
    apply (reached_step direct (direct start (ESetFormula A1 7)) (EArray A1 [[Val 1]; [Val 2]])).
    + apply (reached_step direct start (ESetFormula A1 7)); [constructor|exact I].
    + split; [discriminate|]. repeat constructor.
  - intros L. destruct (L A1 [A1; A2] eq_refl) as [_ (f & H)]; [discriminate|]. discriminate.
Qed.
Print Assumptions C38_direct_edit_refuted.
(** Committing a region without planning it, as VertexEditor::commit_spill_region, undo and
    journal replay do, lets two formulas list the same cell. *)
Theorem C38_unplanned_refuted : exists st a b rows, reached edited st /\ rectangular rows /\ formula_at st a <> None /\
  a <> b /\
  let st' := fst (commit st a (targets_of a (length rows) (width rows)) rows None) in
  exists c, In c (cells_of st' a) /\ In c (cells_of st' b).
Proof.
  exists (edited spilled (ESetFormula A2 9)), A2, A1, [[Val 1]].
  split; [apply (reached_step edited spilled (ESetFormula A2 9)); [apply spilled_reached|exact I]|].
  split; [repeat constructor|]. split; [discriminate|]. split; [discriminate|].
  exists A2. vm_compute. auto.
Qed.
Print Assumptions C38_unplanned_refuted.
Example C38_example : reached edited spilled /\ get (owner spilled) A2 = Some A1 /\ cells_of spilled A1 = [A1; A2] /\
  plan (edited spilled (ESetFormula B1 3)) B1 (targets_of B1 1 1) [] = None /\
  plan (edited spilled (ESetFormula A2 3)) A2 (targets_of A2 2 1) [] = Some BySpill.
Proof. split; [apply spilled_reached|]. repeat split. Qed.

(** C77: recalculating an array formula leaves everything else that was entered alone - false:
    an entry typed into one of the cells it fills is destroyed without a word. *)
Theorem C77_typed_formula_refuted : exists st a rows c,
  reached edited st /\ allowed st (EArray a rows) /\ c <> a /\ formula_at st c <> None /\
  formula_at (array_result st a rows) c = None.
Proof.
  exists typed, A1, [[Val 1]; [Val 2]], A2. split; [apply typed_reached|].
  split; [split; [discriminate|repeat constructor]|]. split; [discriminate|]. split; [discriminate|]. reflexivity.
Qed.
Print Assumptions C77_typed_formula_refuted.
Theorem C77_typed_value_refuted : exists st a c v rows,
  reached edited st /\ allowed (edited st (ESetValue c v)) (EArray a rows) /\ c <> a /\
  read (edited st (ESetValue c v)) c = v /\ v <> Empty /\
  read (array_result (edited st (ESetValue c v)) a rows) c = Empty.
Proof.
  exists spilled, A1, A2, (Val 6), [[Val 1]]. split; [apply spilled_reached|].
  split; [split; [discriminate|repeat constructor]|]. repeat split; discriminate.
Qed.
Print Assumptions C77_typed_value_refuted.
(** Entries outside the formula's own cells are safe. *)
Theorem C77_unowned_partial : forall st a rows c, reached direct st -> rectangular rows -> c <> a ->
  get (owner st) c <> Some a -> (formula_at st c <> None \/ read st c <> Empty) ->
  get (content (array_result st a rows)) c = get (content st) c.
Proof. intros st a rows c H. apply array_untouched. now apply reached_inverse. Qed.
Print Assumptions C77_unowned_partial.
Example C77_example :
  let st := edited spilled (ESetValue A3 (Val 4)) in
  get (owner st) A3 <> Some A1 /\ read st A3 <> Empty /\
  map (read (array_result st A1 [[Val 1]; [Val 2]; [Val 3]])) [A1; A2; A3] = [spill_error; Empty; Val 4].
Proof. vm_compute. repeat split; discriminate. Qed.

(** C78: replacing a spilling formula removes what it had spilled - through the editor. *)
Theorem C78_editor_value : forall st a v, reached edited st ->
  (forall c, c <> a -> get (owner st) c = Some a -> read (editor_set_value st a v) c = Empty) /\
  (forall c, get (owner (editor_set_value st a v)) c <> Some a) /\ read (editor_set_value st a v) a = v.
Proof. intros st a v H. apply editor_removes. now apply reached_good. Qed.
Print Assumptions C78_editor_value.
Theorem C78_editor_formula : forall st a f, reached edited st ->
  (forall c, c <> a -> get (owner st) c = Some a -> read (editor_set_formula st a f) c = Empty) /\
  (forall c, get (owner (editor_set_formula st a f)) c <> Some a) /\ formula_at (editor_set_formula st a f) a = Some f.
Proof. intros st a f H. apply editor_formula_removes. now apply reached_good. Qed.
Print Assumptions C78_editor_formula.
(** Through the engine's own setters the old cells stay, and block other formulas. *)
Theorem C78_direct_refuted : exists st a v c, reached edited st /\ c <> a /\ get (owner st) c = Some a /\
  let st' := direct_set_value st a v in
  formula_at st' a = None /\ read st' c <> Empty /\ get (owner st') c = Some a.
Proof.
  exists spilled, A1, (Val 5), A2. split; [apply spilled_reached|]. vm_compute. repeat split; discriminate.
Qed.
Print Assumptions C78_direct_refuted.
(** The ghosts block a later spill that the editor's edit would have let through. *)
Definition below : state := play edited start [ESetFormula A2 7; EArray A2 [[Val 1]; [Val 2]]; ESetFormula A1 3].
Theorem C78_direct_blocks_refuted : exists st a v b rows, reached edited st /\ a <> b /\ formula_at st b <> None /\
  read (array_result (editor_set_value st a v) b rows) b <> spill_error /\
  read (array_result (direct_set_value st a v) b rows) b = spill_error.
Proof.
  exists below, A2, Empty, A1, [[Val 4]; [Val 5]]. split.
  - apply (reached_step edited (play edited start [ESetFormula A2 7; EArray A2 [[Val 1]; [Val 2]]]) (ESetFormula A1 3)); [|exact I].
    apply (reached_step edited (edited start (ESetFormula A2 7)) (EArray A2 [[Val 1]; [Val 2]])).
    + apply (reached_step edited start (ESetFormula A2 7)); [constructor|exact I].
    + split; [discriminate|]. repeat constructor.
  - vm_compute. repeat split; discriminate.
Qed.
Print Assumptions C78_direct_blocks_refuted.
Example C78_example : get (owner spilled) A2 = Some A1 /\
  map (read (editor_set_value spilled A1 (Val 5))) [A1; A2] = [Val 5; Empty].
Proof. split; reflexivity. Qed.
