(** Undo and redo with the change log on: C22-C25, C63-C67. *)
From Verif Require Import Base UndoModel UndoSpec UndoProofs3 UndoProofs4 UndoProofs5 UndoGroups.

Notation deferred := {| eager := false; iter := false |}.
Notation eagerly := {| eager := true; iter := false |}.
Definition blank : cell -> value := fun _ => vempty.
Definition five : cell -> value := fun c => if N.eqb c 1 then 5%N else vempty.

Lemma run_ex : forall (o : option st) (P : st -> Prop), match o with Some s => P s | None => False end -> exists s, o = Some s /\ P s.
Proof. intros [s|] P H; [eauto|contradiction]. Qed.

(** ** C22: a history of grouped actions (or of single edits), undos, redos and
    recalculations shows exactly what a textbook editor shows. *)
Theorem C22_textbook : forall k b its, fair_run k its (opened b) (loaded b) ->
  exists s, run k (program its) (loaded b) = Some s /\ forall c, show s c = now (turns its (opened b)) c.
Proof. exact textbook. Qed.
Print Assumptions C22_textbook.

Definition demo : list item :=
  [Act [EdValue 1%N 5%N; EdFormula 2%N (9%N, [1%N]); EdValue 1%N 6%N]; Act [EdValue 2%N 8%N]; IUndo; IUndo; IRedo; IRedo; IUndo].
Example C22_textbook_ex : fair_run deferred demo (opened five) (loaded five) /\
  now (turns demo (opened five)) 2%N = ShowF (9%N, [1%N]) /\ now (turns demo (opened five)) 1%N = ShowV 6%N.
Proof.
  split; [|split; reflexivity].
  repeat (split; [cbn; intuition (try discriminate)|intros ? _]). exact I.
Qed.

(** ** C23: undo is available after every completed edit. *)
Theorem C23_refuted : exists k b o1 o2 o3,
  run k [Begin; o1; End; o2] (loaded b) <> None /\ run k [Begin; o1; End; o2; Undo] (loaded b) = None /\
  run k [o1; Undo; Redo; o3; Undo] (loaded b) = None.
Proof. exists deferred, blank, (SetValue 1%N 5%N), (SetValue 2%N 7%N), (SetValue 3%N 9%N). repeat split; vm_compute; congruence. Qed.
Print Assumptions C23_refuted.
Theorem C23_undo_available_partial : forall k b its, fair_run k its (opened b) (loaded b) -> run k (program (its ++ [IUndo])) (loaded b) <> None.
Proof.
  intros k b its F. destruct (textbook k b (its ++ [IUndo])) as (s & E & _); [|congruence].
  revert F. generalize (opened b), (loaded b). induction its as [|it its IH]; intros h s0; cbn; auto. intros [A B]. split; auto.
Qed.
Print Assumptions C23_undo_available_partial.

(** ** C24: after an undo and a newer edit there is nothing to redo. *)
Theorem C24_refuted : exists k b c v w, v <> w /\
  (exists s, run k [SetValue c v; Undo; SetValue c w] (loaded b) = Some s /\ show s c = ShowV w) /\
  (exists s, run k [SetValue c v; Undo; SetValue c w; Redo] (loaded b) = Some s /\ show s c = ShowV v).
Proof. exists deferred, blank, 1%N, 5%N, 7%N. split; [discriminate|]. split; apply run_ex; vm_compute; reflexivity. Qed.
Print Assumptions C24_refuted.

(** ** C25: a bounded log reverts whole actions or nothing. *)
Theorem C25_refuted : exists k b m es, (forall c, b c = vempty) /\ writes es (fun c => ShowV (b c)) 2%N = ShowV 6%N /\
  exists s, run k (SetCap (Some m) :: program [Act es; IUndo]) (loaded b) = Some s /\ show s 1%N = ShowV 5%N /\ show s 2%N = ShowV vempty.
Proof. exists deferred, blank, 3, [EdValue 1%N 5%N; EdValue 2%N 6%N; EdValue 3%N 7%N]. split; [reflexivity|]. split; [reflexivity|]. apply run_ex. vm_compute. split; reflexivity. Qed.
Print Assumptions C25_refuted.
Theorem C25_capped_partial : forall k b its m, 1 <= m -> fair_run k its (opened b) (loaded b) -> fits k m (program its) (loaded b) ->
  exists s, run k (SetCap (Some m) :: program its) (loaded b) = Some s /\ forall c, show s c = now (turns its (opened b)) c.
Proof. exact textbook_capped. Qed.
Print Assumptions C25_capped_partial.
Example C25_capped_ex : fits deferred 20 (program demo) (loaded five).
Proof. vm_compute. repeat (split; [repeat constructor|]). exact I. Qed.

(** ** C63: undoing a formula typed over a value brings the value back. *)
Theorem C63_refuted : exists k b c f, eager k = true /\ ~ In c (refs f) /\ b c <> vempty /\
  exists s, run k [SetFormula c f; Undo] (loaded b) = Some s /\ show s c = ShowV vempty.
Proof. exists eagerly, five, 1%N, (9%N, [2%N]). split; [reflexivity|]. split; [cbn; intuition discriminate|]. split; [discriminate|]. apply run_ex. vm_compute. reflexivity. Qed.
Print Assumptions C63_refuted.
Theorem C63_formula_over_value_partial : forall k b c f, eager k = false -> iter k = true \/ ~ In c (refs f) ->
  exists s, run k [SetFormula c f; Undo] (loaded b) = Some s /\ forall d, show s d = ShowV (b d).
Proof.
  intros k b c f E F. destruct (textbook k b [Single (EdFormula c f); IUndo]) as (s & R & S); [|eauto].
  cbn. repeat split; auto; intros; try contradiction; congruence.
Qed.
Print Assumptions C63_formula_over_value_partial.

(** ** C64: recalculation shows the computed value in every formula cell. *)
Theorem C64_refuted_after_undo : exists k b os order vals c f, eager k = false /\ (forall o, In o os -> is_cap o = false) /\
  exists s, run k os (loaded b) = Some s /\
  form (gr (evaluate order vals s)) c = Some f /\ read (evaluate order vals s) c <> vals c.
Proof.
  exists deferred, blank, [SetValue 1%N 5%N; Undo; SetFormula 1%N (9%N, [2%N])], [1%N], (fun _ => 7%N), 1%N, (9%N, [2%N]).
  split; [reflexivity|]. split; [cbn; intuition (subst; reflexivity)|]. apply run_ex. vm_compute. split; [reflexivity|discriminate].
Qed.
Print Assumptions C64_refuted_after_undo.
Theorem C64_refuted_capped : exists k b os order vals c f, (forall o, In o os -> is_history o = false) /\
  exists s, run k os (loaded b) = Some s /\
  form (gr (evaluate order vals s)) c = Some f /\ read (evaluate order vals s) c <> vals c.
Proof.
  exists deferred, blank, [SetCap (Some 1); SetValue 1%N 5%N; SetFormula 1%N (9%N, [2%N])], [], (fun _ => 7%N), 1%N, (9%N, [2%N]).
  split; [cbn; intuition (subst; reflexivity)|]. apply run_ex. vm_compute. split; [reflexivity|discriminate].
Qed.
Print Assumptions C64_refuted_capped.
Theorem C64_eager_partial : forall k b os s order vals, eager k = true -> (forall o, In o os -> is_cap o = false) ->
  run k os (loaded b) = Some s -> up_to_date (evaluate order vals s) vals.
Proof. exact eager_up_to_date. Qed.
Print Assumptions C64_eager_partial.
Theorem C64_no_history_partial : forall k b os s order vals, (forall o, In o os -> is_history o = false /\ is_cap o = false) ->
  run k os (loaded b) = Some s -> up_to_date (evaluate order vals s) vals.
Proof. exact fresh_up_to_date. Qed.
Print Assumptions C64_no_history_partial.
Example C64_eager_ex : exists s, run eagerly [SetValue 1%N 5%N; Undo; SetFormula 1%N (9%N, [2%N]); SetValue 1%N 6%N; Undo] (loaded five) = Some s /\
  form (gr (evaluate [] (fun _ => 7%N) s)) 1%N = Some (9%N, [2%N]) /\ read (evaluate [] (fun _ => 7%N) s) 1%N = 7%N.
Proof. apply run_ex. vm_compute. split; reflexivity. Qed.
Example C64_no_history_ex : exists s, run deferred [SetValue 1%N 5%N; SetFormula 1%N (9%N, [2%N]); SetFormula 3%N (8%N, [1%N])] (loaded five) = Some s /\
  form (gr (evaluate [3%N] (fun _ => 7%N) s)) 3%N = Some (8%N, [1%N]) /\ read (evaluate [3%N] (fun _ => 7%N) s) 3%N = 7%N.
Proof. apply run_ex. vm_compute. split; reflexivity. Qed.

(** ** C65: undo after a recalculation reverts the last edit. *)
Theorem C65_refuted : exists k b c f order vals, ~ In c (refs f) /\ b c = vempty /\
  exists s, run k [SetFormula c f; Evaluate order vals; Undo] (loaded b) = Some s /\ show s c = ShowF f.
Proof. exists deferred, blank, 1%N, (9%N, [2%N]), [1%N], (fun _ => 7%N). split; [cbn; intuition discriminate|]. split; [reflexivity|]. apply run_ex. vm_compute. reflexivity. Qed.
Print Assumptions C65_refuted.
Theorem C65_undo_after_recalculation_partial : forall k b its es order vals s0,
  fair_run k (its ++ [Act es]) (opened b) (loaded b) -> run k (program (its ++ [Act es])) (loaded b) = Some s0 ->
  (forall c, staged s0 c = None) ->
  exists s, run k (program (its ++ [Act es; IEval order vals; IUndo])) (loaded b) = Some s /\
    forall c, show s c = now (turns its (opened b)) c.
Proof.
  intros k b its es order vals s0 F E St. destruct (textbook k b (its ++ [Act es; IEval order vals; IUndo])) as (s & R & S).
  - revert F E. generalize (opened b), (loaded b). induction its as [|it its IH]; intros h s1; cbn [app fair_run].
    + intros [A _] E. split; [exact A|]. intros s' E'. unfold program in E. cbn [map concat] in E. rewrite app_nil_r in E.
      assert (s' = s0) by congruence. subst s'. cbn. split; [exact St|]. auto.
    + intros [A B] E. split; auto. intros s' E'. apply IH; auto. unfold program in E |- *. cbn [map concat] in E. rewrite run_app, E' in E. exact E.
  - exists s. split; auto. intros c. rewrite S. unfold turns. rewrite fold_left_app. reflexivity.
Qed.
Print Assumptions C65_undo_after_recalculation_partial.
Example C65_ex : exists s0, fair_run deferred [Act [EdValue 1%N 5%N]; Act [EdFormula 1%N (9%N, [2%N])]] (opened blank) (loaded blank) /\
  run deferred (program [Act [EdValue 1%N 5%N]; Act [EdFormula 1%N (9%N, [2%N])]]) (loaded blank) = Some s0 /\ forall c, staged s0 c = None.
Proof.
  assert (F : fair_run deferred [Act [EdValue 1%N 5%N]; Act [EdFormula 1%N (9%N, [2%N])]] (opened blank) (loaded blank)).
  - repeat (split; [cbn; intuition (try discriminate)|intros ? _]). exact I.
  - enough (exists s0, run deferred (program [Act [EdValue 1%N 5%N]; Act [EdFormula 1%N (9%N, [2%N])]]) (loaded blank) = Some s0 /\ forall c, staged s0 c = None)
      as (s0 & A & B) by eauto.
    apply run_ex. vm_compute. intros [|[]]; reflexivity.
Qed.

(** ** C66: one undo takes back one single edit. *)
Theorem C66_refuted : exists k b c f v, ~ In c (refs f) /\ v <> vempty /\ (forall d, b d = vempty) /\
  (exists s, run k [SetFormula c f; SetValue c v; Undo] (loaded b) = Some s /\ read s c = v) /\
  (exists s, run k [SetFormula c f; SetValue c v; Undo; Undo] (loaded b) = Some s /\ show s c = ShowF f).
Proof.
  exists deferred, blank, 1%N, (9%N, [2%N]), 5%N. split; [cbn; intuition discriminate|]. split; [discriminate|]. split; [reflexivity|].
  split; apply run_ex; vm_compute; reflexivity.
Qed.
Print Assumptions C66_refuted.
Theorem C66_grouped_partial : forall k b its e, fair_run k (its ++ [Act [e]]) (opened b) (loaded b) ->
  exists s, run k (program (its ++ [Act [e]; IUndo])) (loaded b) = Some s /\ forall c, show s c = now (turns its (opened b)) c.
Proof.
  intros k b its e F. destruct (textbook k b (its ++ [Act [e]; IUndo])) as (s & R & S).
  - revert F. generalize (opened b), (loaded b). induction its as [|it its IH]; intros h s1; cbn [app fair_run].
    + intros [A _]. split; [exact A|]. intros s' _. cbn. auto.
    + intros [A B]. split; auto.
  - exists s. split; auto. intros c. rewrite S. unfold turns. rewrite fold_left_app. reflexivity.
Qed.
Print Assumptions C66_grouped_partial.
Example C66_ex : fair_run deferred ([Act [EdFormula 1%N (9%N, [2%N])]] ++ [Act [EdValue 1%N 5%N]]) (opened blank) (loaded blank).
Proof. repeat (split; [cbn; intuition (try discriminate)|intros ? _]). exact I. Qed.

(** ** C67: editing a cell marks the formulas that refer to it. *)
Theorem C67_refuted : exists k b c d f v, ~ In d (refs f) /\ In c (refs f) /\
  exists s, run k [SetFormula d f; SetValue c v; Undo; SetValue c v] (loaded b) = Some s /\
  form (gr s) d = Some f /\ dependent s d c = false.
Proof.
  exists eagerly, blank, 1%N, 2%N, (9%N, [1%N]), 5%N. split; [cbn; intuition discriminate|]. split; [now left|].
  apply run_ex. vm_compute. split; reflexivity.
Qed.
Print Assumptions C67_refuted.
Theorem C67_linked_partial : forall k b os s, (forall o, In o os -> is_undo o = false) -> run k os (loaded b) = Some s -> linked s.
Proof. exact no_undo_linked. Qed.
Print Assumptions C67_linked_partial.
Example C67_ex : exists s, run deferred [SetFormula 2%N (9%N, [1%N]); SetValue 1%N 5%N; Evaluate [2%N] (fun _ => 3%N); SetFormula 1%N (4%N, [7%N])] (loaded blank) = Some s /\
  form (gr s) 2%N = Some (9%N, [1%N]) /\ dependent s 2%N 1%N = true.
Proof. apply run_ex. vm_compute. split; reflexivity. Qed.

(** ** C22: actions opened inside an action belong to it: the whole bracket is one group,
    and the log is idle again after its end. *)
Theorem C22_nested_actions : forall l ops, nested ops -> cap l = None -> depth l = 0 -> gstack l = [] ->
  fold_left do_logop (LBegin :: ops ++ [LEnd]) l =
  {| events := events l ++ map (fun o => (event_of o, Some (nextg l))) (LBegin :: ops ++ [LEnd]);
     depth := 0; gstack := []; nextg := N.succ (nextg l); cap := None |}.
Proof. exact outer_group. Qed.
Print Assumptions C22_nested_actions.
Example C22_nested_ex : nested [LRecord (EStaged 1%N None None); LBegin; LBegin; LEnd; LRecord (EStaged 2%N None None); LEnd; LRecord (EStaged 3%N None None)].
Proof.
  apply nested_record, (nested_group [LBegin; LEnd; LRecord (EStaged 2%N None None)] [LRecord (EStaged 3%N None None)]).
  - apply (nested_group [] [LRecord (EStaged 2%N None None)]); repeat constructor.
  - repeat constructor.
Qed.
