(** Properties C107 to C115: regions, the region index, the reads of formula spans and the
    dirty closure. *)
From Coq Require Import Permutation.
From Verif Require Import Base Maps IntervalModel FpModel FpSpec FpProofs FpProofs2 FpProofs3 FpProofs4 FpProofs5 FpProofs6 FpProofs7 FpProofs8.

Open Scope N_scope.

(** * C107: regions are sets of cells *)
Theorem C107_has : forall a c, has a c = true <-> within a c.
Proof. exact has_within. Qed.
Print Assumptions C107_has.
Theorem C107_intersects : forall a b, rg_ok a -> rg_ok b ->
  (meets a b = true <-> exists c, ucell c /\ within a c /\ within b c).
Proof. exact meets_within. Qed.
Print Assumptions C107_intersects.
Theorem C107_intersection : forall a b, rg_ok a -> rg_ok b ->
  match inter a b with
  | Some r => rg_ok r /\ (forall c, within r c <-> within a c /\ within b c) /\ exists c, ucell c /\ within r c
  | None => forall c, ~ (within a c /\ within b c)
  end.
Proof. exact inter_within. Qed.
Print Assumptions C107_intersection.
Theorem C107_contains : forall a b, rg_ok a -> rg_ok b ->
  (covers a b = true <-> forall c, ucell c -> within b c -> within a c).
Proof. exact covers_within. Qed.
Print Assumptions C107_contains.
Theorem C107_normalized : forall a c, within (norm a) c <-> within a c.
Proof. exact norm_within. Qed.
Print Assumptions C107_normalized.
Theorem C107_shift_keeps : forall dr dc a b c d, rg_ok a -> shift dr dc a = Some b -> ucell c -> ucell d ->
  csh d = csh c -> (Z.of_N (crow d) = Z.of_N (crow c) + dr)%Z -> (Z.of_N (ccol d) = Z.of_N (ccol c) + dc)%Z ->
  within a c -> within b d.
Proof. exact shift_within. Qed.
Print Assumptions C107_shift_keeps.
Theorem C107_shift_none : forall dr dc a c d, rg_ok a -> shift dr dc a = None -> ucell c -> ucell d ->
  (Z.of_N (crow d) = Z.of_N (crow c) + dr)%Z -> (Z.of_N (ccol d) = Z.of_N (ccol c) + dc)%Z -> ~ within a c.
Proof. exact shift_gone. Qed.
Print Assumptions C107_shift_none.
Theorem C107_shift_exact : forall dr dc a b d, rg_ok a -> bounded a -> shift dr dc a = Some b -> ucell d -> within b d ->
  exists c, ucell c /\ within a c /\ csh c = csh d /\
    (Z.of_N (crow d) = Z.of_N (crow c) + dr)%Z /\ (Z.of_N (ccol d) = Z.of_N (ccol c) + dc)%Z.
Proof. exact shift_image. Qed.
Print Assumptions C107_shift_exact.
Example C107_example :
  rg_ok (Rg 0 (Sp 2 9) (Fr 4)) /\ rg_ok (Rg 0 (To 3) All) /\ meets (Rg 0 (Sp 2 9) (Fr 4)) (Rg 0 (To 3) All) = true /\
  inter (Rg 0 (Sp 2 9) (Fr 4)) (Rg 0 (To 3) All) = Some (Rg 0 (Sp 2 3) (Fr 4)) /\
  covers (Rg 0 (Sp 2 9) All) (Rg 0 (Pt 9) (To 7)) = true /\
  shift (-3) 1 (Rg 0 (Sp 2 9) (Pt 4)) = Some (Rg 0 (Sp 0 6) (Pt 5)) /\ shift (-10) 0 (Rg 0 (Sp 2 9) (Pt 4)) = None.
Proof. repeat split; vm_compute; congruence. Qed.

(** * C108: the region index finds what meets a query *)
Theorem C108_query : forall T ord br bc (os : list (xop T)) q, (forall l, Permutation (ord l) l) -> 0 < br -> 0 < bc -> Forall xop_ok os -> rg_ok q ->
  exists l, query ord q (xrun (ri_empty br bc) os) = Ok l /\ Permutation l (filter (fun e => meets (fst e) q) (xhist os)).
Proof. exact query_finds. Qed.
Print Assumptions C108_query.
Theorem C108_query_bounded : forall T br bc (os : list (xop T)) q max, 0 < br -> 0 < bc -> Forall xop_ok os -> rg_ok q ->
  query_bounded q max (xrun (ri_empty br bc) os) = Err tt \/
  exists l, query_bounded q max (xrun (ri_empty br bc) os) = Ok l /\ Permutation l (filter (fun e => meets (fst e) q) (xhist os)).
Proof. exact query_bounded_finds. Qed.
Print Assumptions C108_query_bounded.
Definition idx_ops : list (xop N) :=
  [XInsert (Rg 0 (Pt 3) (Pt 4)) 7; XInsert (Rg 0 (Sp 0 200) (Sp 1 20)) 8; XInsert (Rg 0 (Sp 5 9) (Pt 4)) 9; XInsert (Rg 0 (Fr 3) All) 10;
   XInsert (Rg 0 (To 2) (Fr 30)) 11; XInsert (Rg 1 All All) 12; XInsert (Rg 0 (Sp 6 6) All) 13].
Example C108_example :
  Forall xop_ok idx_ops /\
  query (fun l => l) (Rg 0 (Sp 3 6) (Pt 4)) (xrun ri_new idx_ops) =
    Ok [(Rg 0 (Pt 3) (Pt 4), 7); (Rg 0 (Sp 5 9) (Pt 4), 9); (Rg 0 (Sp 0 200) (Sp 1 20), 8); (Rg 0 (Fr 3) All, 10); (Rg 0 (Sp 6 6) All, 13)] /\
  query_bounded (Rg 0 (Sp 3 6) (Pt 4)) 9 (xrun ri_new idx_ops) =
    Ok [(Rg 0 (Pt 3) (Pt 4), 7); (Rg 0 (Sp 5 9) (Pt 4), 9); (Rg 0 (Sp 0 200) (Sp 1 20), 8); (Rg 0 (Fr 3) All, 10); (Rg 0 (Sp 6 6) All, 13)] /\
  query_bounded (Rg 0 (Sp 3 6) (Pt 4)) 4 (xrun ri_new idx_ops) = Err tt.
Proof. split; [repeat constructor; vm_compute; congruence|]. repeat split; vm_compute; reflexivity. Qed.

(** * C109: a bounded query answers when its budget is large enough *)
Theorem C109_budget_completes_partial : forall T (x : rindex T) q, supported q = true ->
  exists least, forall max, least <= max -> query_bounded q max x <> Err tt.
Proof. exact query_bounded_completes. Qed.
Print Assumptions C109_budget_completes_partial.
Theorem C109_budget_kept : forall T (x : rindex T) q max l, query_bounded q max x = Ok l -> N.of_nat (length l) <= max.
Proof. exact query_bounded_most. Qed.
Print Assumptions C109_budget_kept.
(** Of the code, it is false for one whole row (or column), even of an empty index:
    region_index.rs:854-1111 has no case for them, and a band of one row becomes one. *)
Theorem C109_one_row_refuted : exists q, rg_ok q /\ rows q = Sp 5 5 /\ cols q = All /\
  forall T max, @query_bounded T q max ri_new = Err tt.
Proof. exists (Rg 0 (Sp 5 5) All). repeat split; vm_compute; congruence. Qed.
Print Assumptions C109_one_row_refuted.
Example C109_example : supported (Rg 0 (Sp 5 6) All) = true /\ query_bounded (Rg 0 (Sp 5 6) All) 9 (xrun ri_new idx_ops) =
    Ok [(Rg 0 (Sp 5 9) (Pt 4), 9); (Rg 0 (Sp 0 200) (Sp 1 20), 8); (Rg 0 (Fr 3) All, 10); (Rg 0 (Sp 6 6) All, 13)].
Proof. split; vm_compute; reflexivity. Qed.

(** * C110: the summary of a span names the cells that its formulas read *)
Theorem C110_summary : forall d ps deps, dom_ok d -> Forall precedent_ok ps -> summary d ps = Ok deps ->
  (forall p y, ucell y -> placed_at d p ->
     ((exists r ru, In (r, ru) deps /\ within r y /\ reads ru p y) <-> exists pr, In pr ps /\ precedent_reads pr p y)) /\
  (forall y, ucell y -> ((exists r ru, In (r, ru) deps /\ within r y) <-> exists p pr, placed_at d p /\ In pr ps /\ precedent_reads pr p y)).
Proof. exact summary_reads. Qed.
Print Assumptions C110_summary.
Theorem C110_read_regions : forall ru s result rs, rule_i64 ru -> rg_ok result -> read_regions ru s result = Ok rs ->
  Forall rg_ok rs /\
  (forall y, ucell y -> ((exists r, In r rs /\ within r y) <-> csh y = s /\ exists p, within result p /\ reads ru p y)).
Proof. exact read_regions_exact. Qed.
Print Assumptions C110_read_regions.
(** B2:B10 with =A2+SUM($D$1:D2)+SUM(E:F). *)
Definition span_dom := RowRun 0 1 9 1.
Definition span_precs := [PCell (Some 0) (RelPl 0) (RelPl (-1)); PRange (Some 0) (AbsVc 1) (RelPl 0) (AbsVc 4) (RelPl 2); PRange (Some 0) WholeAxis WholeAxis (RelPl 3) (RelPl 4)].
Example C110_example : dom_ok span_dom /\ Forall precedent_ok span_precs /\
  summary span_dom span_precs =
    Ok [(Rg 0 (Sp 1 9) (Pt 0), ACell (Rel 0) (Rel (-1))); (Rg 0 (Sp 0 9) (Pt 3), ARange (Abs 0) (Rel 0) (Abs 3) (Rel 2));
        (Rg 0 All (Pt 4), WCols (Rel 3) (Rel 4)); (Rg 0 All (Pt 5), WCols (Rel 3) (Rel 4))].
Proof. split; [vm_compute; repeat split; congruence|]. split; [repeat constructor; vm_compute; congruence|vm_compute; reflexivity]. Qed.

(** * C111: a change reaches every formula of a span that reads it *)
Theorem C111_project_sound : forall ru ch read result p y, rule_i64 ru -> rg_ok ch -> rg_ok read -> rg_ok result ->
  ucell p -> ucell y -> within ch y -> within read y -> within result p -> reads ru p y ->
  match project ru ch read result with
  | Exact d | Conservative d _ => dirty_cell d result p
  | NoInter => False
  | Unsupported _ => True
  end.
Proof. exact project_sound. Qed.
Print Assumptions C111_project_sound.
Theorem C111_supported : forall ru s result rs ch read r, rule_i64 ru -> rg_ok result -> read_regions ru s result = Ok rs ->
  project ru ch read result <> Unsupported r.
Proof. exact project_supported. Qed.
Print Assumptions C111_supported.
Theorem C111_in_result : forall ru ch read result d, rule_i64 ru -> rg_ok ch -> rg_ok result -> project ru ch read result = Exact d ->
  dirty_ok d /\ forall p, ucell p -> dirty_cell d result p -> within result p.
Proof. exact project_ok. Qed.
Print Assumptions C111_in_result.
Example C111_example :
  project (ARange (Abs 0) (Rel 0) (Abs 3) (Rel 2)) (Rg 0 (Pt 4) (Pt 3)) (Rg 0 (Sp 0 9) (Pt 3)) (Rg 0 (Sp 1 9) (Pt 1)) = Exact (Regions [Rg 0 (Sp 4 9) (Pt 1)]) /\
  reads (ARange (Abs 0) (Rel 0) (Abs 3) (Rel 2)) (Cl 0 6 1) (Cl 0 4 3) /\
  project (ACell (Rel 0) (Rel (-1))) (Rg 0 (Pt 4) (Pt 0)) (Rg 0 (Sp 1 9) (Pt 0)) (Rg 0 (Sp 1 9) (Pt 1)) = Exact (Cells [Cl 0 4 1]).
Proof. repeat split; vm_compute; congruence. Qed.

(** * C112: a change reaches no other formula of a span *)
Theorem C112_project_exact_partial : forall ru s ch read result rs d p, rule_i64 ru -> not_whole ru -> rg_ok ch -> rg_ok result ->
  read_regions ru s result = Ok rs -> In read rs -> project ru ch read result = Exact d ->
  ucell p -> dirty_cell d result p ->
  within result p /\ exists y, ucell y /\ within ch y /\ within read y /\ reads ru p y.
Proof. exact project_exact. Qed.
Print Assumptions C112_project_exact_partial.
(** Of the code, it is false for whole columns: B1:C2 with =SUM(A:A) and =SUM(B:B); a change
    of A1 recomputes C1. *)
Theorem C112_whole_columns_refuted : exists ru s ch read result rs d p,
  rule_i64 ru /\ rg_ok ch /\ rg_ok result /\ read_regions ru s result = Ok rs /\ In read rs /\ project ru ch read result = Exact d /\
  ucell p /\ crow p < 10 /\ dirty_cell d result p /\ ~ exists y, within ch y /\ reads ru p y.
Proof.
  exists (WCols (Rel (-1)) (Rel (-1))), 0, (Rg 0 (Pt 0) (Pt 0)), (Rg 0 All (Pt 0)), (Rg 0 (Sp 0 1) (Sp 1 2)), [Rg 0 All (Pt 0); Rg 0 All (Pt 1)], (Regions [Rg 0 (Sp 0 1) (Sp 1 2)]), (Cl 0 0 2).
  assert (U : ucell (Cl 0 0 2)) by (split; vm_compute; congruence).
  repeat match goal with |- _ /\ _ => split end; try (vm_compute; auto; fail); try (vm_compute; congruence); try exact U.
  - exists (Rg 0 (Sp 0 1) (Sp 1 2)). split; [now left|]. vm_compute. repeat split; congruence.
  - intros (y & (_ & _ & Y) & R). cbn in *. unfold between in R. rewrite Y in R. cbn in R. lia.
Qed.
Print Assumptions C112_whole_columns_refuted.
Example C112_example :
  read_regions (ARange (Abs 0) (Rel 0) (Abs 3) (Rel 2)) 0 (Rg 0 (Sp 1 9) (Pt 1)) = Ok [Rg 0 (Sp 0 9) (Pt 3)] /\
  project (ARange (Abs 0) (Rel 0) (Abs 3) (Rel 2)) (Rg 0 (Fr 4) (Pt 3)) (Rg 0 (Sp 0 9) (Pt 3)) (Rg 0 (Sp 1 9) (Pt 1)) = Exact (Regions [Rg 0 (Sp 4 9) (Pt 1)]).
Proof. split; vm_compute; reflexivity. Qed.

(** * C113: the dirty closure recomputes every formula that is out of date *)
Theorem C113_closure_sound : forall ord, (forall l, Permutation (ord l) l) -> forall result_of es,
  (forall e, In e es -> entry_ok result_of e) -> (forall e, In e es -> rule_i64 (erule e)) ->
  forall limit changed, Forall rg_ok changed ->
  exists out, dirty_closure ord result_of limit (built es) changed = Ok out /\
    ((incomplete out = true /\ work out = [] /\ changed_out out = [] /\ exists c r, fallbacks out = [(c, r, IterationLimit)]) \/
     (incomplete out = false /\
      (forall c p, ucell p -> worked (work out) result_of c p -> exists r, (In r changed \/ In r (changed_out out)) /\ within r p) /\
      (fallbacks out = [] -> forall e p y, In e es -> ucell p -> ucell y -> within (eresult e) p -> within (eread e) y -> reads (erule e) p y ->
         ((exists r, In r changed /\ within r y) \/ stale es changed y) -> worked (work out) result_of (consumer e) p))).
Proof. exact closure_sound. Qed.
Print Assumptions C113_closure_sound.
Theorem C113_no_fallback : forall ord, (forall l, Permutation (ord l) l) -> forall result_of es,
  (forall e, In e es -> entry_ok result_of e) -> (forall e, In e es -> rule_i64 (erule e)) -> (forall e, In e es -> entry_read e) ->
  forall limit changed out, Forall rg_ok changed -> dirty_closure ord result_of limit (built es) changed = Ok out ->
  incomplete out = false -> fallbacks out = [].
Proof. exact closure_no_fallback. Qed.
Print Assumptions C113_no_fallback.
(** B1:B4 doubles A, C1:C4 sums B from the top, D1 reads C4. *)
Definition chain : list rentry :=
  [REntry 1 (Rg 0 (Sp 0 3) (Pt 0)) (Rg 0 (Sp 0 3) (Pt 1)) (ACell (Rel 0) (Rel (-1)));
   REntry 2 (Rg 0 (Sp 0 3) (Pt 1)) (Rg 0 (Sp 0 3) (Pt 2)) (ARange (Abs 0) (Rel 0) (Rel (-1)) (Rel (-1)));
   REntry 3 (Rg 0 (Pt 3) (Pt 2)) (Rg 0 (Pt 0) (Pt 3)) (ACell (Abs 3) (Abs 2))].
Definition chain_results (c : producer) : option region :=
  if N.eqb c 1 then Some (Rg 0 (Sp 0 3) (Pt 1)) else if N.eqb c 2 then Some (Rg 0 (Sp 0 3) (Pt 2)) else if N.eqb c 3 then Some (Rg 0 (Pt 0) (Pt 3)) else None.
Example C113_example :
  (forall e, In e chain -> entry_ok chain_results e) /\ (forall e, In e chain -> rule_i64 (erule e)) /\ (forall e, In e chain -> entry_read e) /\
  dirty_closure (fun l => l) chain_results 100 (built chain) [Rg 0 (Pt 2) (Pt 0)] =
    Ok (Closure [(3, Cells [Cl 0 0 3]); (2, Regions [Rg 0 (Sp 2 3) (Pt 2)]); (1, Cells [Cl 0 2 1])]
                [Rg 0 (Pt 2) (Pt 1); Rg 0 (Sp 2 3) (Pt 2); Rg 0 (Pt 0) (Pt 3)] [] false).
Proof.
  split; [|split; [|split]].
  - intros e [<-|[<-|[<-|[]]]]; repeat split; vm_compute; congruence.
  - intros e [<-|[<-|[<-|[]]]]; repeat split; vm_compute; congruence.
  - intros e [<-|[<-|[<-|[]]]]; exists 0; eexists; (split; [vm_compute; reflexivity|left; reflexivity]).
  - vm_compute. reflexivity.
Qed.

(** * C114: the dirty closure recomputes no other formula *)
Theorem C114_closure_exact_partial : forall ord, (forall l, Permutation (ord l) l) -> forall result_of es,
  (forall e, In e es -> entry_ok result_of e) -> (forall e, In e es -> rule_i64 (erule e)) -> (forall e, In e es -> entry_read e) ->
  forall changed, (forall e, In e es -> not_whole (erule e)) ->
  forall limit out, Forall rg_ok changed -> dirty_closure ord result_of limit (built es) changed = Ok out -> incomplete out = false ->
  fallbacks out = [] /\ forall c p, ucell p -> worked (work out) result_of c p -> because es changed c p /\ stale es changed p.
Proof. exact closure_exact. Qed.
Print Assumptions C114_closure_exact_partial.
(** Of the code, it is false when a span reads whole columns. *)
Definition wide : list rentry :=
  [REntry 1 (Rg 0 All (Pt 0)) (Rg 0 (Sp 0 1) (Sp 2 3)) (WCols (Rel (-2)) (Rel (-2))); REntry 1 (Rg 0 All (Pt 1)) (Rg 0 (Sp 0 1) (Sp 2 3)) (WCols (Rel (-2)) (Rel (-2)))].
Definition wide_results (c : producer) : option region := if N.eqb c 1 then Some (Rg 0 (Sp 0 1) (Sp 2 3)) else None.
Theorem C114_whole_columns_refuted : exists result_of es changed out c p,
  (forall e, In e es -> entry_ok result_of e) /\ (forall e, In e es -> rule_i64 (erule e)) /\ (forall e, In e es -> entry_read e) /\
  Forall rg_ok changed /\ dirty_closure (fun l => l) result_of 100 (built es) changed = Ok out /\ incomplete out = false /\
  ucell p /\ worked (work out) result_of c p /\ ~ stale es changed p.
Proof.
  exists wide_results, wide, [Rg 0 (Pt 0) (Pt 0)], (Closure [(1, Regions [Rg 0 (Sp 0 1) (Sp 2 3)])] [Rg 0 (Sp 0 1) (Sp 2 3)] [] false), 1, (Cl 0 0 3).
  split; [|split; [|split; [|split; [|split; [|split; [|split; [|split]]]]]]].
  - intros e [<-|[<-|[]]]; repeat split; vm_compute; congruence.
  - intros e [<-|[<-|[]]]; repeat split; vm_compute; congruence.
  - intros e [<-|[<-|[]]]; exists 0; eexists; (split; [vm_compute; reflexivity|]); [left|right; left]; reflexivity.
  - repeat constructor; vm_compute; congruence.
  - vm_compute. reflexivity.
  - reflexivity.
  - split; vm_compute; congruence.
  - exists (Regions [Rg 0 (Sp 0 1) (Sp 2 3)]), (Rg 0 (Sp 0 1) (Sp 2 3)). split; [reflexivity|]. split; [reflexivity|].
    exists (Rg 0 (Sp 0 1) (Sp 2 3)). split; [now left|]. vm_compute. repeat split; congruence.
  - assert (D : forall p y, depends wide p y -> 2 <= ccol p /\ ccol y + 2 = ccol p /\ ccol y < 2).
    { intros p y (e & [<-|[<-|[]]] & (_ & _ & W) & (_ & _ & V) & R); cbn [eread eresult erule rows cols on reads at_axis] in *; unfold between in R; lia. }
    assert (G : forall p, stale wide [Rg 0 (Pt 0) (Pt 0)] p -> ccol p = 2).
    { intros p H. induction H as [p y _ _ H (r & [<-|[]] & (_ & _ & W))|p y _ H _ IH]; apply D in H; cbn [cols on] in *; lia. }
    intros H. apply G in H. discriminate.
Qed.
Print Assumptions C114_whole_columns_refuted.
Example C114_example : (forall e, In e chain -> not_whole (erule e)) /\ stale chain [Rg 0 (Pt 2) (Pt 0)] (Cl 0 3 2) /\
  option_map (fun o => (incomplete o, length (work o))) (match dirty_closure (fun l => l) chain_results 100 (built chain) [Rg 0 (Pt 2) (Pt 0)] with Ok o => Some o | _ => None end) = Some (false, 3%nat).
Proof.
  split; [|split].
  - intros e [<-|[<-|[<-|[]]]]; exact I.
  - apply (stale_step _ _ _ (Cl 0 2 1)).
    + split; vm_compute; congruence.
    + exists (REntry 2 (Rg 0 (Sp 0 3) (Pt 1)) (Rg 0 (Sp 0 3) (Pt 2)) (ARange (Abs 0) (Rel 0) (Rel (-1)) (Rel (-1)))). split; [right; left; reflexivity|]. repeat split; vm_compute; congruence.
    + apply (stale_read _ _ _ (Cl 0 2 0)).
      * split; vm_compute; congruence.
      * split; vm_compute; congruence.
      * exists (REntry 1 (Rg 0 (Sp 0 3) (Pt 0)) (Rg 0 (Sp 0 3) (Pt 1)) (ACell (Rel 0) (Rel (-1)))). split; [left; reflexivity|]. repeat split; vm_compute; congruence.
      * exists (Rg 0 (Pt 2) (Pt 0)). split; [now left|]. repeat split; vm_compute; congruence.
  - vm_compute. reflexivity.
Qed.

(** * C115: merging and demanding dirty placements *)
Theorem C115_merge : forall a b result c,
  (dirty_cell a result c \/ dirty_cell b result c -> within result c) ->
  (dirty_cell (merge a b) result c <-> dirty_cell a result c \/ dirty_cell b result c).
Proof. exact merge_cells. Qed.
Print Assumptions C115_merge.
Theorem C115_demanded : forall d result ms, dirty_ok d -> rg_ok result -> Forall rg_ok ms ->
  match intersect_demanded d result ms with
  | Some e => (forall c, dirty_cell e result c <-> dirty_cell d result c /\ exists m, In m ms /\ within m c) /\ exists c, ucell c /\ dirty_cell e result c
  | None => forall c, ~ (dirty_cell d result c /\ exists m, In m ms /\ within m c)
  end.
Proof. exact demanded_cells. Qed.
Print Assumptions C115_demanded.
Example C115_example :
  merge (Cells [Cl 0 2 1]) (Regions [Rg 0 (Sp 3 4) (Pt 1)]) = Regions [Rg 0 (Pt 2) (Pt 1); Rg 0 (Sp 3 4) (Pt 1)] /\
  intersect_demanded Whole (Rg 0 (Sp 3 9) (Pt 1)) [Rg 0 (Sp 0 4) All; Rg 0 (Pt 9) (Fr 1)] = Some (Regions [Rg 0 (Sp 3 4) (Pt 1); Rg 0 (Pt 9) (Pt 1)]) /\
  intersect_demanded (Cells [Cl 0 5 1]) (Rg 0 (Sp 3 9) (Pt 1)) [Rg 0 (Sp 0 4) All] = None.
Proof. repeat split; vm_compute; reflexivity. Qed.
