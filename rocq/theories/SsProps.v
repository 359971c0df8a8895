(** Properties C116 to C123: insertions and deletions of rows and columns through formula
    spans. *)
From Verif Require Import Base Maps IntervalModel FpModel FpSpec FpProofs2 SsModel SsSpec SsProofs SsProofs2 SsProofs5 SsProofs6 SsProofs10.
From Coq Require Import ZifyN ZifyNat ZifyBool.

Open Scope N_scope.

(** A span as the ingest makes it: the summary of reads is derived from the references. *)
Definition fresh (d : domain) (fr : frame) (e : encoding) : span :=
  Span d (match derive (of_domain d) (meaning fr) [] with Some l => l | None => [] end) fr fr fr e.
Ltac is_fresh := apply fresh_sound; [cbv; intuition congruence
  | split; [repeat constructor; cbv; intuition congruence | split; cbv; congruence] | vm_compute; reflexivity].

(** * C116: how an edit moves a region *)
Theorem C116_regions_move_as_their_cells : forall op r, op_ok op -> rg_ok r ->
  match classify op r with
  | OtherSheet => sh r <> o_sh op /\ stays op r
  | Below => stays op r
  | Above d => moves_by op d r
  | Contained => deleted op r
  | Straddles => ~ stays op r /\ ~ deleted op r /\ forall d, ~ moves_by op d r
  end.
Proof. exact class_motion. Qed.
Print Assumptions C116_regions_move_as_their_cells.
Example C116_example : let op := Op true true 0 4 2 in op_ok op /\
  map (fun a => classify op (Rg 0 a (Pt 1))) [Sp 0 3; Sp 0 4; Sp 4 5; Sp 5 6; Fr 6; All]
    = [Below; Straddles; Contained; Straddles; Above (-2); Straddles] /\
  classify op (Rg 1 (Sp 4 5) (Pt 1)) = OtherSheet.
Proof. cbv. intuition congruence. Qed.

(** * C117: spans that are kept or moved whole *)
Theorem C117_kept_and_moved_spans_follow : forall op sp, op_ok op -> sound sp -> roomy op sp -> ~ cut op sp ->
  match edit_span op sp with
  | Kept => carries op sp sp
  | Moved sp' => sound sp' /\ carries op sp sp'
  | Gone => forall p, placed_at (s_dom sp) p -> goes op p = None
  | Halves _ _ | Demoted | Failed => True
  end.
Proof. exact uncut_carries. Qed.
Print Assumptions C117_kept_and_moved_spans_follow.

(** C10:C20 = A10 * $B$1, and D10:D20 = SUM(A10:A12) + SUM($B$5:$B$6). *)
Definition prices : span := fresh (RowRun 0 9 19 2) (Frame [TCell 0 (TRel 9) (TRel 0); TCell 0 (TAbs 0) (TAbs 1)] 10 3) (Broadcast []).
Definition sums : span :=
  fresh (RowRun 0 9 19 3) (Frame [TRange 0 (TRel 9) (TRel 11) (TRel 0) (TRel 0); TRange 0 (TAbs 4) (TAbs 5) (TAbs 1) (TAbs 1)] 10 4) (Broadcast []).
Example C117_example :
  let op := Op false true 0 3 2 in op_ok op /\ sound prices /\ sound sums /\ roomy op prices /\ roomy op sums /\ ~ cut op prices /\ ~ cut op sums /\
  (* a row is inserted above: the absolute range follows through a rewrite *)
  edit_span op sums = Moved (Span (RowRun 0 11 21 3)
     [(Rg 0 (Sp 11 23) (Pt 0), ARange (Rel 0) (Rel 2) (Rel (-3)) (Rel (-3))); (Rg 0 (Sp 6 7) (Pt 1), ARange (Abs 6) (Abs 7) (Abs 1) (Abs 1))]
     (Frame [TRange 0 (TRel 11) (TRel 13) (TRel 0) (TRel 0); TRange 0 (TAbs 6) (TAbs 7) (TAbs 1) (TAbs 1)] 12 4)
     (Frame [TRange 0 (TRel 11) (TRel 13) (TRel 0) (TRel 0); TRange 0 (TAbs 6) (TAbs 7) (TAbs 1) (TAbs 1)] 12 4)
     (Frame [TRange 0 (TRel 11) (TRel 13) (TRel 0) (TRel 0); TRange 0 (TAbs 6) (TAbs 7) (TAbs 1) (TAbs 1)] 12 4) (Broadcast [])) /\
  (* the relative read moves along, the absolute one stays *)
  edit_span op prices = Moved (Span (RowRun 0 11 21 2)
     [(Rg 0 (Sp 11 21) (Pt 0), ACell (Rel 0) (Rel (-2))); (Rg 0 (Pt 0) (Pt 1), ACell (Abs 0) (Abs 1))]
     (s_template prices) (s_template prices) (s_template prices) (Broadcast [])) /\
  edit_span (Op false true 0 30 2) prices = Kept /\ edit_span (Op true true 0 5 20) prices = Gone.
Proof.
  cbv zeta. split; [cbv; intuition congruence | ]. split; [is_fresh | ]. split; [is_fresh | ].
  assert (R : forall sp, In sp [prices; sums] -> roomy (Op false true 0 3 2) sp).
  { intros sp J. right. split; [ | split].
    - intros p P. destruct J as [<- | [<- | []]]; cbn in P; unfold opx, umax; cbn; lia.
    - intros r ru X _. destruct J as [<- | [<- | []]]; cbn in X; unfold umax;
        repeat (destruct X as [X | X]; [injection X; intros; subst; cbn; lia | ]); contradiction.
    - destruct J as [<- | [<- | []]]; repeat constructor; cbv; congruence. }
  split; [apply R; left; reflexivity | ]. split; [apply R; right; left; reflexivity | ].
  assert (C : forall sp, ~ cut (Op false true 0 3 2) sp).
  { intros sp [[p [_ X]] _]. unfold goes, goes1 in X. cbn [o_rows o_del] in X. destruct (csh p =? _); [ | discriminate].
    destruct (crow p <? _); discriminate. }
  split; [apply C | ]. split; [apply C | ]. repeat split; vm_compute; reflexivity.
Qed.

(** * C118: spans that an insertion divides *)
Theorem C118_halves_follow_partial : forall op sp up lo, op_ok op -> sound sp -> roomy op sp -> own_origin sp ->
  edit_span op sp = Halves up lo -> sound up /\ sound lo /\ carries2 op sp up lo.
Proof. exact halves_carry. Qed.
Print Assumptions C118_halves_follow_partial.
(** D1:D100 = C1 * 2, whose template is that of B1:B100 = A1 * 2: after an insertion in the
    middle the lower half is shown with column C and computed from column A. *)
Definition doubled : span :=
  Span (RowRun 0 0 99 3) [(Rg 0 (Sp 0 99) (Pt 2), ACell (Rel 0) (Rel (-1)))]
       (Frame [TCell 0 (TRel 0) (TRel 0)] 1 2) (Frame [TCell 0 (TRel 0) (TRel 2)] 1 4) (Frame [TCell 0 (TRel 0) (TRel 2)] 1 4) (Broadcast [LInt 2]).
Theorem C118_shared_template_refuted : exists op sp up lo, op_ok op /\ sound sp /\ roomy op sp /\ edit_span op sp = Halves up lo
  /\ (exists p y, placed_at (s_dom lo) p /\ Forall (fun sr => ~ reads_by sr p y) (meaning (s_shown lo)) /\ Exists (fun sr => reads_by sr p y) (meaning (s_eval lo)))
  /\ ~ carries2 op sp up lo.
Proof.
  exists (Op false true 0 50 1), doubled,
    (Span (RowRun 0 0 49 3) [(Rg 0 (Sp 0 49) (Pt 2), ACell (Rel 0) (Rel (-1)))]
       (Frame [TCell 0 (TRel 0) (TRel 0)] 1 2) (Frame [TCell 0 (TRel 0) (TRel 2)] 1 4) (Frame [TCell 0 (TRel 0) (TRel 2)] 1 4) (Broadcast [LInt 2])),
    (Span (RowRun 0 51 100 3) [(Rg 0 (Sp 51 100) (Pt 2), ACell (Rel 0) (Rel (-1)))]
       (Frame [TCell 0 (TRel 0) (TRel 0)] 1 4) (Frame [TCell 0 (TRel 0) (TRel 0)] 1 4) (Frame [TCell 0 (TRel 0) (TRel 2)] 1 4) (Broadcast [LInt 2])).
  split; [cbv; intuition congruence | ]. split; [ | split; [ | split; [vm_compute; reflexivity | split]]].
  - split; [cbv; intuition congruence | ]. split; [split; [repeat constructor; cbv; intuition congruence | split; cbv; congruence] | ].
    split; [split; [split; reflexivity | split; [repeat constructor; cbv; intuition congruence | split; cbv; congruence]] | ].
    apply (derive_described (RowRun 0 0 99 3) (Frame [TCell 0 (TRel 0) (TRel 0)] 1 2)); [cbv; intuition congruence | | vm_compute; reflexivity].
    split; [repeat constructor; cbv; intuition congruence | split; cbv; congruence].
  - right. split; [ | split].
    + intros p P. cbn in P. unfold opx, umax. cbn. lia.
    + intros r ru [X | []] _. injection X. intros. subst. cbv. congruence.
    + repeat constructor; cbv; congruence.
  - exists (Cl 0 60 3), (Cl 0 60 0). split; [cbn; lia | ]. split.
    + constructor; [ | constructor]. cbv [reads_by s_shown fst snd csh]. intros [_ X]. cbn in X. unfold between in X. lia.
    + constructor. split; [reflexivity | ]. cbn. lia.
  - intros [_ [_ F]]. specialize (F (Cl 0 60 3) (Cl 0 61 3)). destruct F as [_ F]; [cbn; lia | reflexivity | ].
    assert (PL : placed_at (RowRun 0 51 100 3) (Cl 0 61 3)) by (cbn; lia). specialize (F PL). inversion F as [ | ? ? ? ? [_ [A _]] _]; subst.
    specialize (A (Cl 0 60 2) (Cl 0 61 2)). destruct A as [A _]; [split; cbv; congruence | reflexivity | ].
    assert (X : reads_by (0, ACell (Rel 0) (Rel (-3))) (Cl 0 61 3) (Cl 0 61 2)) by (apply A; split; [reflexivity | cbn; lia]).
    destruct X as [_ X]. cbn in X. unfold between in X. lia.
Qed.
Print Assumptions C118_shared_template_refuted.
Example C118_example : let op := Op false true 0 12 2 in op_ok op /\ sound prices /\ own_origin prices /\ roomy op prices /\
  exists up lo, edit_span op prices = Halves up lo /\ s_dom up = RowRun 0 9 11 2 /\ s_dom lo = RowRun 0 14 21 2.
Proof.
  cbv zeta. split; [cbv; intuition congruence | ]. split; [is_fresh | ]. split; [split; reflexivity | ]. split.
  - right. split; [ | split].
    + intros p P. cbn in P. unfold opx, umax. cbn. lia.
    + intros r ru X _. cbn in X. unfold umax. repeat (destruct X as [X | X]; [injection X; intros; subst; cbn; lia | ]). contradiction.
    + repeat constructor; cbv; congruence.
  - eexists. eexists. split; [vm_compute; reflexivity | split; reflexivity].
Qed.

(** * C119: spans that a deletion cuts *)
Theorem C119_cut_spans_follow_partial : forall op sp sp', op_ok op -> sound sp -> aligned op sp -> cut op sp ->
  edit_span op sp = Moved sp' -> sound sp' /\ carries op sp sp'.
Proof. exact cut_carries. Qed.
Print Assumptions C119_cut_spans_follow_partial.

(** B2:B10 = A1: the fifth row goes, and the formula that read it reads another cell. *)
Definition lagged : span := fresh (RowRun 0 1 9 1) (Frame [TCell 0 (TRel 0) (TRel 0)] 2 2) (Broadcast []).
(** B1:B10 = A21. *)
Definition distant : span := fresh (RowRun 0 0 9 1) (Frame [TCell 0 (TRel 20) (TRel 0)] 1 2) (Broadcast []).
(** B1:B10 = Sheet2!A1. *)
Definition abroad : span := fresh (RowRun 0 0 9 1) (Frame [TCell 1 (TRel 0) (TRel 0)] 1 2) (Broadcast []).
(** B1:B10 = SUM($A$1:$A$10). *)
Definition total : span := fresh (RowRun 0 0 9 1) (Frame [TRange 0 (TAbs 0) (TAbs 9) (TAbs 0) (TAbs 0)] 1 2) (Broadcast []).
(** B1:B10 = A1, with a template that was written for B10. *)
Definition from_below : span := fresh (RowRun 0 0 9 1) (Frame [TCell 0 (TRel 9) (TRel 0)] 10 2) (Broadcast []).
Ltac breaks p p' y y' := 
  eexists; split; [cbv; intuition congruence | split; [is_fresh | split; [vm_compute; reflexivity | ]]];
  eapply (not_follow _ _ _ p p' y y'); [cbn; lia | reflexivity | split; cbv; congruence | reflexivity | vm_compute; reflexivity | vm_compute; reflexivity | ];
  intros [A B]; unfold reads_by in *; cbn in A, B; unfold between in *; cbn in A, B;
  first [lia | (destruct B; [split; [reflexivity | lia] | lia]) | (destruct A; [split; [reflexivity | lia] | lia])].
Theorem C119_lagged_refuted : exists sp', op_ok (Op true true 0 4 1) /\ (sound lagged /\ own_origin lagged)
  /\ edit_span (Op true true 0 4 1) lagged = Moved sp' /\ ~ carries (Op true true 0 4 1) lagged sp'.
Proof. breaks (Cl 0 5 1) (Cl 0 4 1) (Cl 0 3 0) (Cl 0 3 0). Qed.
Print Assumptions C119_lagged_refuted.
Theorem C119_distant_refuted : exists sp', op_ok (Op true true 0 4 2) /\ (sound distant /\ own_origin distant)
  /\ edit_span (Op true true 0 4 2) distant = Moved sp' /\ ~ carries (Op true true 0 4 2) distant sp'.
Proof. breaks (Cl 0 0 1) (Cl 0 0 1) (Cl 0 20 0) (Cl 0 18 0). Qed.
Print Assumptions C119_distant_refuted.
Theorem C119_other_sheet_refuted : exists sp', op_ok (Op true true 0 4 2) /\ (sound abroad /\ own_origin abroad)
  /\ edit_span (Op true true 0 4 2) abroad = Moved sp' /\ ~ carries (Op true true 0 4 2) abroad sp'.
Proof. breaks (Cl 0 6 1) (Cl 0 4 1) (Cl 1 6 0) (Cl 1 6 0). Qed.
Print Assumptions C119_other_sheet_refuted.
Theorem C119_total_refuted : exists sp', op_ok (Op true true 0 4 1) /\ (sound total /\ own_origin total)
  /\ edit_span (Op true true 0 4 1) total = Moved sp' /\ ~ carries (Op true true 0 4 1) total sp'.
Proof. breaks (Cl 0 0 1) (Cl 0 0 1) (Cl 0 10 0) (Cl 0 9 0). Qed.
Print Assumptions C119_total_refuted.
Theorem C119_origin_refuted : exists sp', op_ok (Op true true 0 4 1) /\ (sound from_below /\ own_origin from_below)
  /\ edit_span (Op true true 0 4 1) from_below = Moved sp' /\ ~ carries (Op true true 0 4 1) from_below sp'.
Proof. breaks (Cl 0 0 1) (Cl 0 0 1) (Cl 0 0 0) (Cl 0 0 0). Qed.
Print Assumptions C119_origin_refuted.

(** C1:C10 = A1 * $B$1. *)
Definition rated : span := fresh (RowRun 0 0 9 2) (Frame [TCell 0 (TRel 0) (TRel 0); TCell 0 (TAbs 0) (TAbs 1)] 1 3) (Broadcast []).
Example C119_example : let op := Op true true 0 4 2 in op_ok op /\ sound rated /\ aligned op rated /\ cut op rated /\
  edit_span op rated = Moved (Span (RowRun 0 0 7 2) [(Rg 0 (Sp 0 7) (Pt 0), ACell (Rel 0) (Rel (-2))); (Rg 0 (Pt 0) (Pt 1), ACell (Abs 0) (Abs 1))]
    (s_template rated) (s_template rated) (s_template rated) (Broadcast [])).
Proof.
  cbv zeta. split; [cbv; intuition congruence | ]. split; [is_fresh | ]. split; [ | split; [ | vm_compute; reflexivity]].
  - split; [repeat constructor; cbn; lia | cbn; lia].
  - split; [exists (Cl 0 4 2) | exists (Cl 0 0 2)]; (split; [cbn; lia | ]); vm_compute; congruence.
Qed.

(** * C120: the literals *)
Theorem C120_literals_stay_partial : forall op sp sp', op_ok op -> dom_ok (s_dom sp) -> lits_ok sp -> unsloped (s_lits sp) = true -> becomes op sp sp' ->
  lits_ok sp' /\ unsloped (s_lits sp') = true
  /\ forall p p', placed_at (s_dom sp) p -> goes op p = Some p' -> placed_at (s_dom sp') p' -> literals sp' p' = literals sp p.
Proof. exact lits_follow. Qed.
Print Assumptions C120_literals_stay_partial.
(** B10:B110 = A10 * 1, A11 * 2, A12 * 3, …: a row is inserted above. *)
Definition ramp : span := fresh (RowRun 0 9 109 1) (Frame [TCell 0 (TRel 9) (TRel 0)] 10 2) (ByRow 9 [LInt 1] [1%Z]).
Theorem C120_slopes_refuted : exists op sp sp' p p', op_ok op /\ sound sp /\ lits_ok sp /\ edit_span op sp = Moved sp'
  /\ placed_at (s_dom sp) p /\ goes op p = Some p' /\ placed_at (s_dom sp') p'
  /\ literals sp p = Some [LInt 3] /\ literals sp' p' = Some [LInt 4].
Proof.
  exists (Op false true 0 0 1), ramp. eexists. exists (Cl 0 11 1), (Cl 0 12 1).
  split; [cbv; intuition congruence | ]. split; [is_fresh | ]. split; [exact I | ]. split; [vm_compute; reflexivity | ].
  split; [cbn; lia | ]. split; [reflexivity | ]. split; [cbn; lia | ]. split; vm_compute; reflexivity.
Qed.
Print Assumptions C120_slopes_refuted.
Example C120_example :
  let sp := fresh (RowRun 0 9 11 1) (Frame [TCell 0 (TRel 9) (TRel 0)] 10 2) (Dictionary [0; 1; 0] [[LInt 5]; [LOther 3]]) in
  lits_ok sp /\ unsloped (s_lits sp) = true /\ (exists sp', becomes (Op false true 0 2 4) sp sp' /\ s_dom sp' = RowRun 0 13 15 1 /\ literals sp' (Cl 0 14 1) = Some [LOther 3])
  /\ literals sp (Cl 0 10 1) = Some [LOther 3] /\ edit_span (Op false true 0 10 4) sp = Demoted.
Proof.
  cbv zeta. split; [ | split; [reflexivity | split; [ | split; vm_compute; reflexivity]]].
  - split; [repeat constructor | ]. intros p P. cbn in P. destruct (ordinal_placed (RowRun 0 9 11 1) p P) as [i J]. exists i. split; [exact J | ].
    pose proof (ordinal_number _ _ _ J) as E. cbn in E. cbn. lia.
  - eexists. split; [vm_compute; reflexivity | split; vm_compute; reflexivity].
Qed.

(** * C121: whole histories *)
Theorem C121_histories_partial : forall l sp sp', life l sp sp' -> sound sp -> own_origin sp ->
  (sound sp' /\ own_origin sp')
  /\ (forall p', placed_at (s_dom sp') p' -> exists p, placed_at (s_dom sp) p /\ travels l p p')
  /\ (forall p p', placed_at (s_dom sp) p -> travels l p p' -> placed_at (s_dom sp') p' ->
        Forall2 (fun sr sr' => fst sr' = fst sr /\ forall y y', ucell y -> travels l y y' -> (reads_by sr p y <-> reads_by sr' p' y'))
                (meaning (s_eval sp)) (meaning (s_eval sp'))).
Proof. exact life_good. Qed.
Print Assumptions C121_histories_partial.
Example C121_example : exists sp', life [Op true true 0 4 2; Op false true 0 4 1] rated sp' /\ s_dom sp' = RowRun 0 5 8 2
  /\ travels [Op true true 0 4 2; Op false true 0 4 1] (Cl 0 7 2) (Cl 0 6 2).
Proof.
  destruct C119_example as [K [S [A [C E]]]].
  eexists. split; [ | split; [ | ]].
  - eapply life_edit; [ | | ].
    + split; [exact K | ]. split; [left; reflexivity | ]. intros _. exact A.
    + unfold becomes. rewrite E. reflexivity.
    + eapply life_edit; [ | | apply life_end].
      * split; [cbv; intuition congruence | ]. split; [ | ].
        -- right. split; [ | split].
           ++ intros p P. cbn in P. unfold opx, umax. cbn. lia.
           ++ intros r ru X _. cbn in X. unfold umax; repeat (destruct X as [X | X]; [injection X; intros; subst; cbn; lia | ]); contradiction.
           ++ repeat constructor; cbv; congruence.
        -- intros [[p [_ X]] _]. exfalso. unfold goes, goes1 in X. cbn [o_rows o_del] in X. destruct (csh p =? _); [ | discriminate].
           destruct (crow p <? _); discriminate.
      * unfold becomes. vm_compute. right. reflexivity.
  - reflexivity.
  - cbn [travels]. exists (Cl 0 5 2). split; [reflexivity | ]. split; [split; cbv; congruence | ].
    exists (Cl 0 6 2). split; [reflexivity | ]. split; [split; cbv; congruence | reflexivity].
Qed.

(** * C122: which spans and cells an edit can touch *)
Theorem C122_untouched_spans : forall op sp, op_ok op -> sound sp -> meets (of_domain (s_dom sp)) (affected op) = false ->
  Forall (fun dp => meets (fst dp) (affected op) = false) (s_deps sp) ->
  edit_span op sp = Kept /\ carries op sp sp.
Proof.
  intros op sp K S A B. pose proof (unmet_noop op sp K S A B) as C. split; [unfold edit_span; rewrite C; reflexivity | exact (noop_carries op sp K S C)].
Qed.
Print Assumptions C122_untouched_spans.
Theorem C122_dirty_cells : forall op d d' y', dom_ok d' -> op_ok op ->
  (forall p', placed_at d' p' <-> exists p, placed_at d p /\ goes op p = Some p') ->
  ((exists p, placed_at d p /\ goes op p = Some y' /\ p <> y') <-> exists r, dirty_region op d' = Some r /\ within r y').
Proof. exact dirty_moved. Qed.
Print Assumptions C122_dirty_cells.
Example C122_example : let op := Op false false 0 5 1 in op_ok op /\ sound prices /\ meets (of_domain (s_dom prices)) (affected op) = false /\
  Forall (fun dp => meets (fst dp) (affected op) = false) (s_deps prices) /\
  dirty_region op (RectDom 0 1 3 2 8) = Some (Rg 0 (Sp 1 3) (Sp 5 8)) /\ dirty_region op (s_dom prices) = None.
Proof.
  cbv zeta. split; [cbv; intuition congruence | ]. split; [is_fresh | ]. split; [vm_compute; reflexivity | ].
  split; [repeat constructor | ]. split; vm_compute; reflexivity.
Qed.

(** * C123: a summary derived from the references *)
Theorem C123_fresh_summaries : forall d fr deps lits, dom_ok d -> frame_ok fr -> derive (of_domain d) (meaning fr) [] = Some deps ->
  sound (Span d deps fr fr fr lits) /\ own_origin (Span d deps fr fr fr lits).
Proof. exact fresh_sound. Qed.
Print Assumptions C123_fresh_summaries.
Example C123_example : derive (of_domain (RowRun 0 4 9 3)) (meaning (Frame [TRange 0 (TAbs 0) (TRel 4) (TRel 0) (TRel 0); TCols 1 (TAbs 2) (TAbs 3)] 5 4)) []
  = Some [(Rg 0 (Sp 0 9) (Pt 0), ARange (Abs 0) (Rel 0) (Rel (-3)) (Rel (-3))); (Rg 1 All (Pt 2), WCols (Abs 2) (Abs 3)); (Rg 1 All (Pt 3), WCols (Abs 2) (Abs 3))].
Proof. vm_compute. reflexivity. Qed.
