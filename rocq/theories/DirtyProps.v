(** Theorems about scheduling after edits (properties C34, C35, C73, C74). *)
From Verif Require Import Base Maps ListSort SchedModel EdgeModel EdgeSpec IntervalModel StripeModel StripeSpec
  DirtyModel DirtySpec DirtyProofs DirtyProofs2.

(** C34.  Marking edited cells ends, and newly schedules exactly the live formulas and
    names that are among them or read one of them, directly or through others. *)
Theorem C34_edit_schedules_exactly : forall g es rs srcs, built g es rs ->
  exists n aff, forall fuel, n <= fuel -> forall st, ddepth st = 0 ->
  exists st', mark_dirty_many fuel g srcs st = Some (aff, st') /\ NoDup aff
    /\ (forall v, In v aff <-> reach (reads_of es rs (g_pos g)) srcs v)
    /\ (forall v, In v (scheduled g st') <->
          In v (scheduled g st) \/
          (g_live g v = true /\ g_formula g v = true /\ reach (reads_of es rs (g_pos g)) srcs v)).
Proof. exact mark_schedules. Qed.
Print Assumptions C34_edit_schedules_exactly.

(** On the path for spilled cells no dependent is missed. *)
Theorem C34_spill_complete : forall g es rs srcs, built g es rs ->
  exists n aff, forall fuel, n <= fuel -> forall st, ddepth st = 0 ->
  exists st', mark_values fuel g srcs st = Some (aff, st') /\ NoDup aff
    /\ (forall v, reach (reads_of es rs (g_pos g)) srcs v -> In v aff)
    /\ (forall v, In v (dirty st') <-> In v (dirty st) \/ In v aff).
Proof. exact values_complete. Qed.
Print Assumptions C34_spill_complete.

(** A1 .. A9 are vertices 1 .. 9, vertex 20 is a name for A1, vertex 21 = the name + 1,
    vertex 22 = SUM(A5:A7) through the range index, vertex 23 = vertex 22 + vertex 24 and
    vertex 24 = vertex 23 (a cycle). *)
Definition ex_edges : list op :=
  map (fun v => OVertex (N.of_nat v, 0%N) v) [1; 2; 3; 4; 5; 6; 7; 8; 9; 20; 21; 22; 23; 24]
  ++ [OAdd 20 1; OAdd 21 20; OAdd 23 22; OAdd 23 24; OAdd 24 23; OAdd 22 1; ORemove 22 1].
Definition ex_ranges : list rop := [RAdd 22 [Rng 0 (Some 4) (Some 6) (Some 0) (Some 0)]]%N.
Definition ex_pos (v : nat) : option (N * (N * N)) :=
  if 20 =? v then None else if (0 <? v) && (v <? 100) then Some (0, (N.of_nat v - 1, 0))%N else None.
Definition ex_names (v : nat) : list nat := if v =? 1 then [20] else [].
Definition ex_graph : graph :=
  Graph (run ex_edges store_new) (rrun true ex_ranges rindex_new) true ex_pos
        ex_names (fun v => 20 <=? v) (fun v => negb (v =? 0)) [].
Example ex_shapes : forall d r, In r (rspec ex_ranges d) -> two_sided r /\ forward r.
Proof.
  intros d r H. cbn in H. destruct (N.eqb d 22); [|destruct H]. destruct H as [<-|[]].
  split; [left; split; discriminate|]. split; intros x y E1 E2; cbn in E1, E2;
    injection E1 as <-; injection E2 as <-; discriminate.
Qed.
Example ex_places : forall v s r c, ex_pos v = Some (s, (r, c)) -> fits r /\ fits c.
Proof.
  intros v s r c H. unfold ex_pos in H. destruct (20 =? v); [discriminate|].
  destruct ((0 <? v) && (v <? 100)) eqn:E; [|discriminate]. injection H as <- <- <-.
  apply Bool.andb_true_iff in E; destruct E as [_ E]; apply Nat.ltb_lt in E. unfold fits. split; lia.
Qed.
Example ex_name_edge : spec_run ex_edges 20 1.
Proof. cbn. intuition lia. Qed.
Lemma ex_names_one : forall v n, In n (ex_names v) -> v = 1 /\ n = 20.
Proof.
  intros v n H. unfold ex_names in H. destruct (v =? 1) eqn:Q; [|destruct H].
  apply Nat.eqb_eq in Q. destruct H as [H|[]]; auto.
Qed.
Example ex_built : built ex_graph ex_edges ex_ranges.
Proof.
  constructor.
  - reflexivity.
  - split; cbn; tauto.
  - reflexivity.
  - exact ex_shapes.
  - exact ex_places.
  - intros v n H. destruct (ex_names_one v n H) as [-> ->]. exact ex_name_edge.
Qed.
Definition st0 : dstate := DState [] 0 [].
Example C34_example :
  option_map (fun p => sort_nat (fst p)) (mark_dirty_many 50 ex_graph [1; 6] st0) = Some [1; 6; 20; 21; 22; 23; 24]
  /\ option_map (fun p => sort_nat (fst p)) (mark_dirty_many 50 ex_graph [2] st0) = Some [2]
  /\ option_map (fun p => scheduled ex_graph (snd p)) (mark_dirty_many 50 ex_graph [1] st0) = Some [20; 21].
Proof. vm_compute. auto. Qed.

(** C34, second half, on the path for spilled cells (false of the code): when A3 and A9 of
    a spill change, a formula reading A5:A7 through the range index is scheduled too. *)
Theorem C34_spill_extra_refuted : exists g es rs srcs v, built g es rs
  /\ ~ reach (reads_of es rs (g_pos g)) srcs v
  /\ forall fuel, 50 <= fuel -> exists aff st', mark_values fuel g srcs st0 = Some (aff, st') /\ In v (scheduled g st').
Proof.
  exists ex_graph, ex_edges, ex_ranges, [3; 9], 22. split; [exact ex_built|]. split.
  - destruct (mark_schedules ex_graph ex_edges ex_ranges [3; 9] ex_built) as (n & aff & H).
    destruct (H (n + 50) (Nat.le_add_r _ _) st0 eq_refl) as (st' & E & _ & A & _).
    rewrite <- A. assert (E2 : mark_dirty_many (n + 50) ex_graph [3; 9] st0 = Some ([3; 9], DState [3; 9] 0 [])).
    { unfold mark_dirty_many, mark_now. replace (n + 50) with (S (n + 49)) by lia. vm_compute. reflexivity. }
    rewrite E2 in E. injection E as <- _. cbn. intros [K|[K|[]]]; discriminate.
  - intros fuel L. replace fuel with (50 + (fuel - 50)) by lia.
    eexists; eexists. split; [vm_compute; reflexivity|]. vm_compute. auto.
Qed.
Print Assumptions C34_spill_extra_refuted.

(** C35.  A batch of edits in nested deferred scopes schedules the same as the same edits
    made one by one, also when the edits change what the edited formulas read.  [Rs] are
    the reads the graph stands for at each step, [R] those at the end. *)
Theorem C35_deferred_equals_immediate : forall xs Rs R st,
  Forall2 (fun x R => tracks (fst x) R) xs Rs ->
  own_reads_only (R :: Rs) (sources_of xs) ->
  (forall x s, In x xs -> In s (sources_of xs) -> g_live (fst x) s = true) ->
  ddepth st = 0 -> dpending st = [] -> open_after xs 0 = 0 ->
  exists n st1 st2, forall fuel, n <= fuel ->
    drun fuel xs st = Some st1 /\ drun fuel (marks_of xs) st = Some st2 /\
    forall v, In v (dirty st1) <-> In v (dirty st2).
Proof. exact deferred_equal. Qed.
Print Assumptions C35_deferred_equals_immediate.

(** The flush marks exactly what depends on an edited cell at the end. *)
Theorem C35_flush_exact : forall xs Rs R st,
  Forall2 (fun x R => tracks (fst x) R) xs Rs ->
  own_reads_only (R :: Rs) (sources_of xs) ->
  (forall x s, In x xs -> In s (sources_of xs) -> g_live (fst x) s = true) ->
  ddepth st = 0 -> dpending st = [] -> open_after xs 0 = 0 ->
  exists n st', (forall fuel, n <= fuel -> drun fuel xs st = Some st') /\ ddepth st' = 0 /\ dpending st' = [] /\
    forall v, In v (dirty st') <-> In v (dirty st) \/ reach R (sources_of xs) v.
Proof. exact drun_exact. Qed.
Print Assumptions C35_flush_exact.

(** Vertex 21 is edited to read A2 instead of the name, after A1 is edited and before A2
    is, in two nested scopes. *)
Definition ex_edges2 : list op := ex_edges ++ [ORemove 21 20; OAdd 21 2].
Definition ex_graph2 : graph :=
  Graph (run ex_edges2 store_new) (rrun true ex_ranges rindex_new) true ex_pos
        ex_names (fun v => 20 <=? v) (fun v => negb (v =? 0)) [].
Example ex_built2 : built ex_graph2 ex_edges2 ex_ranges.
Proof.
  constructor.
  - reflexivity.
  - split; cbn; tauto.
  - reflexivity.
  - exact ex_shapes.
  - exact ex_places.
  - intros v n H. destruct (ex_names_one v n H) as [-> ->].
    unfold ex_edges2, spec_run; rewrite fold_left_app; cbn [fold_left spec_step].
    right; split; [exact ex_name_edge|intros [Q _]; discriminate Q].
Qed.
Definition ex_batch : list (graph * dop) :=
  [(ex_graph, DBegin); (ex_graph, DMark [1]); (ex_graph, DBegin); (ex_graph2, DMark [21]); (ex_graph2, DEnd);
   (ex_graph2, DMark [2]); (ex_graph2, DEnd)].
Definition ex_R1 : reads := reads_of ex_edges ex_ranges ex_pos.
Definition ex_R2 : reads := reads_of ex_edges2 ex_ranges ex_pos.
Example C35_example_hyp :
  Forall2 (fun x R => tracks (fst x) R) ex_batch [ex_R1; ex_R1; ex_R1; ex_R2; ex_R2; ex_R2; ex_R2]
  /\ own_reads_only (ex_R2 :: [ex_R1; ex_R1; ex_R1; ex_R2; ex_R2; ex_R2; ex_R2]) (sources_of ex_batch)
  /\ (forall x s, In x ex_batch -> In s (sources_of ex_batch) -> g_live (fst x) s = true)
  /\ open_after ex_batch 0 = 0.
Proof.
  pose proof (built_tracks _ _ _ ex_built) as T1. pose proof (built_tracks _ _ _ ex_built2) as T2.
  split; [do 3 (constructor; [exact T1|]); do 4 (constructor; [exact T2|]); constructor|]. split; [|split; [|reflexivity]].
  - assert (K : forall f v, ~ In f [1; 21; 2] -> (ex_R1 f v <-> ex_R2 f v)).
    { intros f v H. unfold ex_R1, ex_R2, reads_of, ex_edges2, spec_run. rewrite fold_left_app. cbn [fold_left spec_step].
      cbn [In] in H. split; (intros [X|X]; [left|right; exact X]).
      - right; split; [exact X|]. intros [-> _]; tauto.
      - destruct X as [[-> _]|[X _]]; [tauto|exact X]. }
    intros R R' f v HR HR' Hf. cbn [sources_of flat_map snd ex_batch app] in Hf.
    assert (E : forall Q, In Q (ex_R2 :: [ex_R1; ex_R1; ex_R1; ex_R2; ex_R2; ex_R2; ex_R2]) -> Q = ex_R1 \/ Q = ex_R2).
    { intros Q HQ. cbn [In] in HQ. intuition auto. }
    specialize (K f v Hf). destruct (E R HR) as [->| ->], (E R' HR') as [->| ->]; tauto.
  - intros x s Hx Hs. cbn [sources_of flat_map snd ex_batch app In] in Hs.
    assert (Hn : s <> 0) by (intros ->; intuition discriminate).
    assert (G : g_live (fst x) = fun v => negb (v =? 0)).
    { cbn [ex_batch In] in Hx. intuition (subst; reflexivity). }
    rewrite G. destruct (Nat.eqb_spec s 0); [contradiction|reflexivity].
Qed.
Example C35_example :
  option_map (fun st => sort_nat (dedup (dirty st))) (drun 50 ex_batch st0) = Some [1; 2; 20; 21]
  /\ option_map (fun st => sort_nat (dedup (dirty st))) (drun 50 (marks_of ex_batch) st0) = Some [1; 2; 20; 21].
Proof. vm_compute. auto. Qed.

(** C35 on the path for spilled cells (false of the code): a deferred scope schedules less. *)
Theorem C35_spill_refuted : exists g es rs srcs v now later, built g es rs
  /\ mark_values 50 g srcs st0 = Some now /\ In v (scheduled g (snd now))
  /\ (exists st1, mark_values 50 g srcs (begin_deferred st0) = Some (srcs, st1) /\ end_deferred 50 g st1 = Some later)
  /\ ~ In v (scheduled g (snd later)).
Proof.
  exists ex_graph, ex_edges, ex_ranges, [3; 9], 22.
  eexists; eexists. split; [exact ex_built|]. split; [vm_compute; reflexivity|]. split; [vm_compute; auto|].
  split; [eexists; split; [vm_compute; reflexivity|vm_compute; reflexivity]|].
  vm_compute. tauto.
Qed.
Print Assumptions C35_spill_refuted.

(** C73 (false of the code).  Redefining a name schedules the formulas that use it, but not
    the formulas that read those. *)
Definition name_edges : list op :=
  map (fun v => OVertex (N.of_nat v, 0%N) v) [1; 2; 3] ++ [OAdd 2 1; OAdd 3 2].
Definition name_graph : graph :=
  Graph (run name_edges store_new) rindex_new true (fun _ => None) (fun _ => []) (fun _ => true) (fun _ => true) [].
Example name_built : built name_graph name_edges [].
Proof.
  constructor; try reflexivity.
  - split; cbn; tauto.
  - intros d r [].
  - intros v s r c H; discriminate.
  - intros v n [].
Qed.
Theorem C73_name_update_refuted : exists g es rs name users v, built g es rs
  /\ (forall u, In u users <-> In u (dependents g name))
  /\ g_live g v = true /\ g_formula g v = true
  /\ reach (reads_of es rs (g_pos g)) [name] v
  /\ forall st, ~ In v (dirty st) -> g_volatile g = [] -> ~ In v (scheduled g (update_name_marks users name st)).
Proof.
  exists name_graph, name_edges, [], 1, [2], 3. split; [exact name_built|].
  split; [cbn; tauto|]. split; [reflexivity|]. split; [reflexivity|]. split.
  - apply (reach_read _ _ 2); [|left; cbn; tauto].
    apply (reach_read _ _ 1); [apply reach_src; left; reflexivity|left; cbn; tauto].
  - intros st H _ K. apply scheduled_in in K. destruct K as (_ & _ & [K|[]]).
    unfold update_name_marks, mark_only in K; cbn [dirty] in K. apply in_app_or in K.
    destruct K as [K|K]; [contradiction|]. cbn in K. intuition discriminate.
Qed.
Print Assumptions C73_name_update_refuted.

(** Where the users of the name have no readers of their own, nothing is missed. *)
Theorem C73_no_readers_partial : forall g es rs name users st, built g es rs ->
  (forall u, In u users <-> In u (dependents g name)) ->
  (forall u, In u users -> dependents g u = []) ->
  forall v, In v (scheduled g (update_name_marks users name st)) <->
    In v (scheduled g st) \/ (g_live g v = true /\ g_formula g v = true /\ reach (reads_of es rs (g_pos g)) [name] v).
Proof.
  intros g es rs name users st B U E v.
  destruct (built_tracks g es rs B) as [T _].
  assert (A : reach (reads_of es rs (g_pos g)) [name] v <-> v = name \/ In v users).
  { split.
    - intros H; induction H as [v [<-|[]]|u f H IH K]; [left; reflexivity|]. apply T in K.
      destruct IH as [->|IH]; [right; apply U, K|]. rewrite (E u IH) in K; destruct K.
    - intros [->|H]; [apply reach_src; left; reflexivity|].
      apply (reach_read _ _ name); [apply reach_src; left; reflexivity|]. apply T, U, H. }
  rewrite A, !scheduled_in. unfold update_name_marks, mark_only; cbn [dirty]. rewrite !in_app_iff. cbn [In].
  intuition.
Qed.
Print Assumptions C73_no_readers_partial.

(** C74 (false of the code).  Inserting rows rewrites =ROWS(A2:A4) in B1 (vertex 2) and
    schedules it, but not =B1+1 in C1 (vertex 3); the inserted rows are below both, and
    vertex 4 stands for a moved cell of the range. *)
Definition ins_edges : list op :=
  map (fun v => OVertex (N.of_nat v, 0%N) v) [2; 3; 4] ++ [OAdd 2 4; OAdd 3 2].
Definition ins_graph : graph :=
  Graph (run ins_edges store_new) rindex_new true (fun _ => None) (fun _ => []) (fun v => v <? 4) (fun _ => true) [].
Theorem C74_insert_refuted : exists g es rs adjusted moved v, built g es rs
  /\ ~ In v adjusted /\ ~ In v moved /\ g_live g v = true /\ g_formula g v = true
  /\ reach (reads_of es rs (g_pos g)) adjusted v
  /\ forall fuel st st', ~ In v (scheduled g st) -> ddepth st = 0 ->
       insert_marks fuel g [] moved adjusted st = Some st' -> ~ In v (scheduled g st').
Proof.
  exists ins_graph, ins_edges, [], [2], [4], 3. split.
  { constructor; try reflexivity.
    - split; cbn; tauto.
    - intros d r [].
    - intros v s r c H; discriminate.
    - intros v n []. }
  split; [cbn; intuition discriminate|]. split; [cbn; intuition discriminate|]. split; [reflexivity|]. split; [reflexivity|].
  split.
  - apply (reach_read _ _ 2); [apply reach_src; left; reflexivity|left; cbn; tauto].
  - intros fuel st st' H D E K. unfold insert_marks, mark_dirty_many, mark_now in E. rewrite D in E.
    destruct fuel; cbn in E; injection E as <-; apply scheduled_in in K; apply H; apply scheduled_in;
      cbn in K; rewrite !in_app_iff in K; cbn in K; cbn; intuition discriminate.
Qed.
Print Assumptions C74_insert_refuted.

(** What it does schedule: the rewritten and the moved formulas, the direct readers of the
    moved cells, and everything that depends on a reader of a compressed range. *)
Theorem C74_insert_marks_partial : forall g es rs rr moved adjusted, built g es rs ->
  exists n, forall fuel, n <= fuel -> forall st, ddepth st = 0 ->
  exists st', insert_marks fuel g rr moved adjusted st = Some st' /\
    forall v, In v (dirty st') <->
      In v (dirty st) \/ reach (reads_of es rs (g_pos g)) rr v \/ In v adjusted
      \/ (In v moved /\ g_formula g v = true) \/ exists m, In m moved /\ spec_run es v m.
Proof.
  intros g es rs rr moved adjusted B.
  destruct (mark_now_exact g _ (built_tracks g es rs B) rr) as (n & aff & _ & A & H).
  destruct (bu_legal _ _ _ B) as [L1 L2]. destruct (EdgeProofs2.store_exact es L1 L2) as (_ & X & _).
  exists n. intros fuel L st D. unfold insert_marks, mark_dirty_many. rewrite D; cbn [Nat.ltb Nat.leb].
  rewrite (H fuel L st). eexists; split; [reflexivity|]. intros v. cbn [dirty mark_only].
  rewrite !in_app_iff, A, filter_In, in_flat_map. rewrite (bu_store _ _ _ B).
  assert (Y : (exists x, In x moved /\ In v (in_edges_merged (run es store_new) x)) <-> (exists m, In m moved /\ spec_run es v m)).
  { split; intros (m & Hm & K); exists m; split; auto; apply X, K. }
  rewrite Y. tauto.
Qed.
Print Assumptions C74_insert_marks_partial.
