(** The arms that keep or move a span. *)
From Verif Require Import Base Maps IntervalModel FpModel FpSpec FpProofs FpProofs2 FpProofs4 SsModel SsSpec SsProofs SsProofs2 SsProofs3 SsProofs4.
From Coq Require Import ZifyN ZifyNat ZifyBool.

Open Scope N_scope.

Lemma plan_parts : forall op deps dr dc,
  match plan_reads op deps dr dc with
  | NoOp => dr = 0%Z /\ dc = 0%Z /\ all_still op deps
  | Shift dr' dc' odr odc rw =>
      dr' = dr /\ dc' = dc /\ ~ (dr = 0%Z /\ dc = 0%Z) /\
      match rw with
      | false => (odr = dr /\ odc = dc /\ all_still op deps) \/ (odr = 0%Z /\ odc = 0%Z /\ all_sorted op deps)
      | true => odr = dr /\ odc = dc
      end
  | Demote _ => True
  | Split | Remove => False
  end.
Proof.
  intros op deps dr dc. unfold plan_reads.
  destruct (partition_reads op deps (Seen false false false)) as [s | ] eqn:P; [ | exact I].
  destruct (part_spec _ _ _ _ P) as [_ [_ [_ F]]].
  assert (ST : shifting_rel s = false -> displaced_abs s = false -> all_still op deps).
  { intros A B. unfold all_still. rewrite Forall_forall in *. intros dp J. destruct (F dp J) as [F1 [F2 [F3 F4]]].
    destruct (classify op (fst dp)) eqn:C; auto; try congruence.
    destruct (F3 eq_refl) as [F5 F6]. exfalso. exact (kinds_some _ _ (F5 A) (F6 B)). }
  destruct ((dr =? 0)%Z && (dc =? 0)%Z) eqn:Z.
  - destruct (shifting_rel s) eqn:A; [exact I | ]. destruct (displaced_abs s) eqn:B; [exact I | ]. cbn [orb].
    split; [lia | ]. split; [lia | auto].
  - destruct (displaced_abs s) eqn:B.
    + repeat split; lia.
    + destruct (shifting_rel s) eqn:A; [destruct (still_rel s) eqn:C; [exact I | ] | ].
      * repeat split; try lia. right. split; [reflexivity | ]. split; [reflexivity | ].
        unfold all_sorted. rewrite Forall_forall in *. intros dp J. destruct (F dp J) as [F1 [F2 [F3 F4]]].
        destruct (above (classify op (fst dp))) eqn:E.
        -- left. split; [reflexivity | ]. destruct (F3 eq_refl) as [_ F6]. exact (F6 eq_refl).
        -- right. split; [ | exact (F4 eq_refl eq_refl)]. destruct (classify op (fst dp)); auto; try congruence; discriminate.
      * repeat split; try lia. left. auto.
Qed.

Lemma op_small : forall op, op_ok op -> small (dz op) /\ small (odz op true) /\ small (odz op false).
Proof.
  intros op [_ K]. unfold small, odz, dz, umax in *. destruct (o_rows op), (o_del op); cbn [Bool.eqb]; lia.
Qed.

Lemma steps_above : forall op p p', csh p = o_sh op -> thr op <= opx op p -> goes op p = Some p' -> steps op p p' (dz op).
Proof.
  intros op p p' E T G. apply (goes_above op p p' E T) in G. unfold steps, opx, oth, odz in *.
  destruct (o_rows op); cbn [Bool.eqb] in *; lia.
Qed.
Lemma steps_still : forall op p, steps op p p 0.
Proof. intros op p. split; [reflexivity | lia]. Qed.

Lemma deps_fine : forall fr d deps, described (meaning fr) d deps ->
  Forall (fun dp => rg_ok (fst dp) /\ shaped dp /\ snd dp <> WResult) deps.
Proof.
  intros fr d deps [_ [G _]]. rewrite Forall_forall in *. intros dp J. destruct (G dp J) as [G1 [G2 [G3 _]]].
  split; [exact G1 | ]. split; [exact G2 | ]. exact (meaning_rule _ _ _ G3).
Qed.

Lemma placed_some : forall d, dom_ok d -> exists p, placed_at d p.
Proof.
  intros d K. destruct d as [s r0 r1 c | s r c0 c1 | s r0 r1 c0 c1]; cbn in *.
  - exists (Cl s r0 c). cbn. lia.
  - exists (Cl s r c0). cbn. lia.
  - exists (Cl s r0 c0). cbn. lia.
Qed.

(** What is left to show once the rules are known to move. *)
Lemma carry_span : forall op sp d' deps' fr' g lits, keeps_kind g ->
  sound sp -> meaning fr' = map (fun sr => (fst sr, g (snd sr))) (meaning (s_template sp)) -> frame_ok fr' ->
  dom_ok d' -> images op (s_dom sp) d' ->
  (forall p, placed_at (s_dom sp) p -> goes op p <> None) ->
  Forall2 (carried op g) (s_deps sp) deps' ->
  (forall s ru p p', In (s, ru) (meaning (s_template sp)) -> placed_at (s_dom sp) p -> goes op p = Some p' ->
     moves op s ru (g ru) p p' /\ onto op (s, g ru) p' /\ lands (g ru) p') ->
  sound (Span d' deps' fr' fr' fr' lits) /\ carries op sp (Span d' deps' fr' fr' fr' lits).
Proof.
  intros op sp d' deps' fr' g lits KG [K1 [K2 [[[AG1 AG2] SK] D]]] E FK DK IM ALL CA MV. split.
  - unfold sound. cbn [s_dom s_template s_deps]. split; [exact DK | ]. split; [exact FK | ].
    split; [split; [split; reflexivity | exact FK] | ]. rewrite E.
    apply (described_image op g _ (s_dom sp) (s_deps sp) d' deps' KG (meaning_rule _)); try assumption.
    intros r ru y y' J U W _. pose proof D as [_ [G _]]. rewrite Forall_forall in G.
    destruct (G _ J) as [_ [_ [_ G4]]]. destruct (G4 y U W) as [p [P R]].
    destruct (goes op p) as [p' | ] eqn:GP; [ | exfalso; exact (ALL p P GP)]. exists p, p'. auto.
  - split; cbn [s_dom s_eval]; [exact IM | ].
    intros p p' P G. rewrite AG1, E. unfold formula_follows.
    assert (T : forall l, (forall sr, In sr l -> In sr (meaning (s_template sp))) ->
      Forall2 (follows op p p') l (map (fun sr => (fst sr, g (snd sr))) l)).
    { induction l as [ | [s ru] l IH]; intro Q; cbn [map]; [constructor | ].
      constructor; [ | apply IH; intros sr J; apply Q; right; exact J].
      cbn [fst snd]. destruct (MV s ru p p' (Q _ (or_introl eq_refl)) P G) as [M [O _]].
      apply moves_follows; [exact M | intros _; exact O]. }
    apply T. auto.
Qed.

Lemma roomy_fits : forall op sp, roomy op sp -> fits op (s_deps sp).
Proof. intros op sp [R | [_ [R _]]]; [left | right]; assumption. Qed.

Lemma shift_carries : forall op sp dr dc odr odc sp', op_ok op -> sound sp -> roomy op sp ->
  classify_span op (s_dom sp) (s_deps sp) = Shift dr dc odr odc false ->
  do_shift op sp dr dc odr odc = Moved sp' ->
  sound sp' /\ carries op sp sp'.
Proof.
  intros op sp dr dc odr odc sp' K SD R C H.
  assert (SD' := SD). destruct SD' as [K1 [K2 [AG D]]].
  unfold do_shift in H.
  destruct (with_origin (s_template sp) odr odc) as [fr' | ] eqn:WO; [ | discriminate].
  destruct (dom_shift dr dc (s_dom sp)) as [d' | ] eqn:DS; [ | discriminate].
  destruct (shifted_deps op dr dc odr odc (s_deps sp)) as [deps' | ] eqn:SH; [ | discriminate].
  injection H. intros. subst sp'. clear H.
  unfold classify_span in C.
  destruct (classify op (of_domain (s_dom sp))) as [ | | x | | ] eqn:CD;
    try (pose proof (plan_parts op (s_deps sp) 0 0) as PP; rewrite C in PP; exfalso; tauto).
  2: { destruct (o_del op); discriminate. } 2: { discriminate. }
  pose proof (plan_parts op (s_deps sp) (fst (op_delta op)) (snd (op_delta op))) as PP. rewrite C in PP.
  rewrite op_delta_eq in PP. cbn [fst snd] in PP. destruct PP as [-> [-> [_ PP]]].
  destruct (images_above op _ _ x K CD K1 DS) as [DK [IM [AB ALL]]].
  destruct (op_small op K) as [SZ [SR SC]].
  assert (SMO : small odr /\ small odc).
  { destruct PP as [[-> [-> _]] | [-> [-> _]]]; [split; assumption | unfold small; lia]. }
  destruct (meaning_shift _ _ _ _ K2 (proj1 SMO) (proj2 SMO) WO) as [FK [_ [ME _]]].
  assert (CA : Forall2 (carried op (rule_shift (- odr) (- odc))) (s_deps sp) deps').
  { apply (shifted_carried op (odz op true) (odz op false)); [exact K | symmetry; apply op_delta_eq | exact (deps_fine _ _ _ D) | exact SH]. }
  apply (carry_span op sp d' deps' fr' (rule_shift (- odr) (- odc)) (s_lits sp)); try assumption; [apply shift_kind | ].
  intros s ru p p' J P G. pose proof (meaning_small _ _ _ K2 J) as SM. pose proof (meaning_rule _ _ _ J) as NR.
  destruct (AB p P) as [A1 A2]. pose proof (steps_above op p p' A1 A2 G) as ST.
  destruct PP as [[-> [-> PS]] | [-> [-> PS]]].
  - pose proof (moves_still op _ _ _ s ru p p' (dz op) K D PS J SM NR P SZ ST) as M. cbv zeta in M.
    unfold odz. destruct (o_rows op); cbn [Bool.eqb] in *; exact M.
  - pose proof (moves_sorted op _ _ _ s ru p p' K D PS (roomy_fits _ _ R) J SM NR P ST) as M. cbv zeta in M.
    exact M.
Qed.

(** A span that is left as it is. *)
Lemma noop_still : forall op d deps, op_ok op -> classify_span op d deps = NoOp ->
  (classify op (of_domain d) = OtherSheet \/ classify op (of_domain d) = Below) /\ all_still op deps.
Proof.
  intros op d deps K C. unfold classify_span in C.
  destruct (classify op (of_domain d)) as [ | | x | | ] eqn:CD.
  - split; [auto | ]. pose proof (plan_parts op deps 0 0) as PP. rewrite C in PP. tauto.
  - split; [auto | ]. pose proof (plan_parts op deps 0 0) as PP. rewrite C in PP. tauto.
  - exfalso. unfold plan_reads in C. destruct (partition_reads op deps (Seen false false false)) as [s | ]; [ | discriminate].
    assert (N0 : (fst (op_delta op) =? 0)%Z && (snd (op_delta op) =? 0)%Z = true ->
       o_n op = 0) by (unfold op_delta; destruct (o_rows op), (o_del op); cbn [fst snd]; lia).
    destruct ((fst (op_delta op) =? 0)%Z && (snd (op_delta op) =? 0)%Z) eqn:Z.
    + specialize (N0 eq_refl). destruct K. lia.
    + destruct (displaced_abs s); [discriminate | ]. destruct (shifting_rel s), (still_rel s); discriminate.
  - destruct (o_del op); discriminate.
  - discriminate.
Qed.

Lemma noop_carries : forall op sp, op_ok op -> sound sp -> classify_span op (s_dom sp) (s_deps sp) = NoOp -> carries op sp sp.
Proof.
  intros op sp K SD C. destruct SD as [K1 [K2 [[[AG1 AG2] SK] D]]]. destruct (noop_still op _ _ K C) as [CD AS].
  destruct (images_still op _ CD K1) as [IM ST]. split; [exact IM | ].
  intros p p' P G. rewrite (ST p P) in G. injection G. intros. subst p'. clear G. rewrite AG1.
  assert (ME : meaning (s_template sp) = mshift (- 0) (- 0) (meaning (s_template sp))).
  { destruct (with_origin (s_template sp) 0 0) as [fr | ] eqn:W.
    - assert (Z0 : small 0) by (unfold small; lia). destruct (meaning_shift _ _ _ _ K2 Z0 Z0 W) as [_ [F [M [A B]]]].
      rewrite <- M. f_equal. destruct fr as [f r c], (s_template sp) as [f' r' c']. cbn in *. f_equal; [congruence | lia | lia].
    - exfalso. unfold with_origin, shift32 in W. cbv zeta in W. destruct K2 as [_ K2].
      destruct (_ && _) eqn:E1 in W; [ | lia]. destruct (_ && _) eqn:E2 in W; [discriminate | lia]. }
  rewrite ME at 2. unfold formula_follows, mshift.
  assert (T : forall l, (forall sr, In sr l -> In sr (meaning (s_template sp))) ->
    Forall2 (follows op p p) l (map (fun sr => (fst sr, rule_shift (- 0) (- 0) (snd sr))) l)).
  { induction l as [ | [s ru] l IH]; intro Q; cbn [map]; [constructor | ].
    constructor; [ | apply IH; intros sr J; apply Q; right; exact J].
    cbn [fst snd]. pose proof (Q _ (or_introl eq_refl)) as J.
    assert (Z0 : small 0) by (unfold small; lia).
    pose proof (moves_still op _ _ _ s ru p p 0 K D AS J (meaning_small _ _ _ K2 J) (meaning_rule _ _ _ J) P Z0 (steps_still op p)) as M.
    cbv zeta in M. replace (if o_rows op then 0 else 0)%Z with 0%Z in M by (destruct (o_rows op); reflexivity).
    destruct M as [M [O _]]. apply moves_follows; [exact M | intros _; exact O]. }
  apply T. auto.
Qed.

(** Spans that are not looked at would have been left alone. *)
Lemma unmet_still : forall op r, rg_ok r -> op_ok op -> meets r (affected op) = false ->
  classify op r = OtherSheet \/ classify op r = Below.
Proof.
  intros op r K [_ K2] M. destruct (N.eq_dec (sh r) (o_sh op)) as [E | E]; [right | left; apply class_other; exact E].
  assert (A : ax_ok (op_axis op r)) by (unfold op_axis, rg_ok in *; destruct (o_rows op); tauto).
  unfold classify. rewrite E, N.eqb_refl. cbn [negb].
  destruct (bound_on _ A) as [_ [B1 [_ B2]]].
  assert (H : snd (ax_bounds (op_axis op r)) < o_at op).
  { destruct (N.lt_ge_cases (snd (ax_bounds (op_axis op r))) (o_at op)) as [L | L]; [exact L | exfalso].
    assert (AK : rg_ok (affected op)) by (unfold affected, rg_ok; destruct (o_rows op); cbn; unfold umax in *; lia).
    assert (MT : meets r (affected op) = true).
    { apply (meets_within _ _ K AK). destruct K as [KR KC]. destruct (bound_on _ KR) as [X1 [_ [X2 _]]]. destruct (bound_on _ KC) as [Y1 [_ [Y2 _]]].
      exists (if o_rows op then Cl (sh r) (snd (ax_bounds (rows r))) (fst (ax_bounds (cols r))) else Cl (sh r) (fst (ax_bounds (rows r))) (snd (ax_bounds (cols r)))).
      unfold op_axis, affected, within, ucell in *. destruct (o_rows op); cbn [csh crow ccol sh rows cols on]; repeat split; auto; lia. }
    congruence. }
  unfold classify_axis. destruct (snd (ax_bounds (op_axis op r)) <? o_at op) eqn:F; [ | lia]. destruct (o_del op); reflexivity.
Qed.

Lemma part_still : forall op deps s, all_still op deps ->
  exists s', partition_reads op deps s = Some s' /\ shifting_rel s' = shifting_rel s /\ displaced_abs s' = displaced_abs s.
Proof.
  intros op deps. induction deps as [ | [r ru] l IH]; intros s A; cbn [partition_reads]; [eauto | ].
  inversion A as [ | ? ? A1 A2]; subst. cbn [fst snd] in *.
  destruct A1 as [A1 | A1]; rewrite A1; destruct (IH (Seen (shifting_rel s) (still_rel s || fst (bound_kinds ru (o_rows op))) (displaced_abs s)) A2) as [s' [B [C D]]];
    exists s'; cbn in *; auto.
Qed.

Lemma unmet_noop : forall op sp, op_ok op -> sound sp -> meets (of_domain (s_dom sp)) (affected op) = false ->
  Forall (fun dp => meets (fst dp) (affected op) = false) (s_deps sp) ->
  classify_span op (s_dom sp) (s_deps sp) = NoOp.
Proof.
  intros op sp K [K1 [_ [_ [_ [G _]]]]] M F.
  assert (A : all_still op (s_deps sp)).
  { unfold all_still. rewrite Forall_forall in *. intros dp J. apply unmet_still; [exact (proj1 (G dp J)) | exact K | exact (F dp J)]. }
  destruct (part_still op _ (Seen false false false) A) as [s' [P [B C]]]. cbn in B, C.
  assert (Q : plan_reads op (s_deps sp) 0 0 = NoOp) by (unfold plan_reads; rewrite P, B, C; reflexivity).
  unfold classify_span. destruct (unmet_still op _ (of_domain_ok _ K1) K M) as [E | E]; rewrite E; exact Q.
Qed.

(** A removed span is one whose cells are all deleted. *)
Lemma remove_gone : forall op d deps, op_ok op -> dom_ok d -> classify_span op d deps = Remove ->
  forall p, placed_at d p -> goes op p = None.
Proof.
  intros op d deps K DK C p P.
  assert (CD : classify op (of_domain d) = Contained).
  { unfold classify_span in C. destruct (classify op (of_domain d)); auto.
    - pose proof (plan_parts op deps 0 0) as PP. rewrite C in PP. tauto.
    - pose proof (plan_parts op deps 0 0) as PP. rewrite C in PP. tauto.
    - pose proof (plan_parts op deps (fst (op_delta op)) (snd (op_delta op))) as PP. rewrite C in PP. tauto.
    - destruct (o_del op); discriminate. }
  pose proof (placed_u _ _ DK P) as U. apply of_domain_within in P.
  assert (S1 : csh p = o_sh op).
  { destruct (N.eq_dec (sh (of_domain d)) (o_sh op)) as [E | E]; [destruct P; congruence | apply class_other in E; congruence]. }
  assert (Z : goes1 op (opx op p) = None).
  { apply (class_contained op (of_domain d)); try assumption; [unfold opx, ucell in *; destruct (o_rows op); lia | exact (on_within _ _ _ P)]. }
  unfold goes. rewrite S1, N.eqb_refl. unfold opx in Z. destruct (o_rows op); rewrite Z; reflexivity.
Qed.
