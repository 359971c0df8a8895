(** Splitting a span at an insertion. *)
From Verif Require Import Base Maps IntervalModel FpModel FpSpec FpProofs FpProofs2 FpProofs3 FpProofs4 SsModel SsSpec SsProofs SsProofs2 SsProofs3 SsProofs4 SsProofs5 SsProofs6.
From Coq Require Import ZifyN ZifyNat ZifyBool.

Open Scope N_scope.

Lemma rederive_is_derive : forall result deps acc,
  rederive_deps result deps acc = derive result (map (fun dp => (sh (fst dp), snd dp)) deps) acc.
Proof.
  intros result deps. induction deps as [ | [r ru] l IH]; intro acc; cbn [rederive_deps derive map fst snd]; [reflexivity | ].
  destruct (read_regions ru (sh r) result); auto.
Qed.

(** The references of a summary are those of the formulas. *)
Lemma same_refs : forall m d deps, dom_ok d -> described m d deps -> (forall s ru, In (s, ru) m -> ru <> WResult) ->
  forall sr, In sr m <-> In sr (map (fun dp => (sh (fst dp), snd dp)) deps).
Proof.
  intros m d deps K [DC [DG DL]] NR [s ru]. rewrite Forall_forall in *. split; intro H.
  - specialize (DC _ H). pose proof (DL _ H) as L. cbn [snd] in L. specialize (NR _ _ H). apply (covered_iff _ _ _ _ NR) in DC. destruct DC as [D1 D2].
    apply in_map_iff. destruct (whole_dec ru) as [W | W].
    + destruct (D1 W) as [r [A [B _]]]. exists (r, ru). cbn [fst snd]. rewrite B. auto.
    + destruct (placed_some d K) as [p P]. destruct ru as [ | | c0 c1 | ]; cbn [not_whole] in W; try tauto; try congruence.
      pose proof (L p P) as LP. cbn [lands] in LP. unfold lands1 in LP.
      destruct (D2 W p (Cl s 0 (Z.to_N (at_axis c0 (ccol p))))) as [r [A [_ B]]]; try assumption.
      * unfold ucell, umax in *. cbn [crow ccol]. lia.
      * split; [reflexivity | ]. cbn [snd reads ccol]. unfold between. lia.
      * exists (r, WCols c0 c1). cbn [fst snd]. destruct B as [B _]. cbn [csh] in B. rewrite <- B. auto.
  - apply in_map_iff in H. destruct H as [[r u] [E H]]. cbn [fst snd] in E. injection E. intros. subst.
    destruct (DG _ H) as [_ [_ [G _]]]. exact G.
Qed.

Lemma rederive_described : forall fr d deps d1 deps1, frame_ok fr -> dom_ok d -> dom_ok d1 -> described (meaning fr) d deps ->
  rederive_deps (of_domain d1) deps [] = Some deps1 -> described (meaning fr) d1 deps1.
Proof.
  intros fr d deps d1 deps1 F K K1 D H. rewrite rederive_is_derive in H. destruct (derive_in _ _ _ _ H) as [A B].
  pose proof (same_refs _ d deps K D (meaning_rule fr)) as SR.
  apply made_described; try assumption.
  - intros s ru J. exact (meaning_small _ _ _ F J).
  - intro dp. rewrite A. cbn [In]. unfold made. split.
    + intros [[] | [s [rs [X Y]]]]. exists s, rs. split; [apply SR; exact X | exact Y].
    + intros [s [rs [X Y]]]. right. exists s, rs. split; [apply SR; exact X | exact Y].
  - intros s ru J. apply B. apply SR. exact J.
Qed.

(** The halves of a domain. *)
Lemma split_halves : forall op d du dl, dom_ok d -> split_domain op d = Some (du, dl) ->
  o_del op = false /\ dom_ok du /\ dom_ok dl
  /\ (forall p, placed_at d p <-> placed_at du p \/ placed_at dl p)
  /\ (forall p, placed_at d p -> csh p = o_sh op)
  /\ (forall p, placed_at du p -> opx op p < o_at op) /\ (forall p, placed_at dl p -> o_at op <= opx op p).
Proof.
  intros op d du dl K H. unfold split_domain in H. unfold opx.
  destruct (dsheet d =? o_sh op) eqn:S; cbn [negb orb] in H; [ | discriminate].
  destruct (o_del op); [discriminate | ]. split; [reflexivity | ].
  destruct d as [s r0 r1 c | s r c0 c1 | s r0 r1 c0 c1]; cbn [dsheet dom_ok] in *; destruct (o_rows op); try discriminate;
    unfold split_axis in H; destruct (_ && _) eqn:E in H; try discriminate; cbn [option_map fst snd] in H; injection H; intros; subst; cbn [dom_ok placed_at];
    repeat split; intros; lia.
Qed.

Lemma bound_of_cell : forall op r y, ucell y -> within r y -> opx op y <= snd (ax_bounds (op_axis op r)).
Proof.
  intros op r y U W. apply (on_bounds (op_axis op r) (opx op y)); [unfold opx, ucell in *; destruct (o_rows op); lia | exact (on_within _ _ _ W)].
Qed.

(** What a part of the span reads fits, as what the span reads does. *)
Lemma fits_part : forall op fr d deps d1 deps1, described (meaning fr) d deps -> described (meaning fr) d1 deps1 ->
  (forall p, placed_at d1 p -> placed_at d p) ->
  (forall r ru, In (r, ru) deps -> ax_bounded (op_axis op r) = true -> snd (ax_bounds (op_axis op r)) + o_n op <= umax) ->
  forall r ru, In (r, ru) deps1 -> ax_bounded (op_axis op r) = true -> snd (ax_bounds (op_axis op r)) + o_n op <= umax.
Proof.
  intros op fr d deps d1 deps1 D D1 SUB F r ru J B.
  pose proof D1 as [_ [G1 _]]. rewrite Forall_forall in G1. destruct (G1 _ J) as [[R1 R2] [SH [IM G]]]. cbn [fst snd] in *.
  destruct (bound_on _ R1) as [_ [X1 [_ X2]]]. destruct (bound_on _ R2) as [_ [Y1 [_ Y2]]].
  set (y := Cl (sh r) (snd (ax_bounds (rows r))) (snd (ax_bounds (cols r)))).
  assert (U : ucell y) by (unfold ucell, y; cbn; lia).
  destruct (G y U) as [p [P RD]]; [unfold within, y; cbn; auto | ].
  assert (C : exists q, In (q, ru) deps /\ within q y).
  { destruct D as [DC _]. rewrite Forall_forall in DC. specialize (DC _ IM). pose proof (meaning_rule _ _ _ IM) as NR.
    apply (covered_iff _ _ _ _ NR) in DC. destruct DC as [C1 C2].
    assert (RB : reads_by (sh r, ru) p y) by (split; [reflexivity | exact RD]).
    destruct (whole_dec ru) as [W | W].
    - destruct (C1 W) as [q [Q1 [_ Q3]]]. exists q. split; [exact Q1 | exact (Q3 p y (SUB p P) U RB)].
    - destruct (C2 W p y (SUB p P) U RB) as [q [Q1 [_ Q3]]]. exists q. auto. }
  destruct C as [q [Q1 Q2]].
  destruct (shaped_axis op deps _ d D q ru Q1) as [QB | QB].
  - specialize (F _ _ Q1 QB). pose proof (bound_of_cell op q y U Q2) as L.
    replace (opx op y) with (snd (ax_bounds (op_axis op r))) in L by (unfold opx, op_axis, y; destruct (o_rows op); reflexivity). lia.
  - exfalso. apply (axes_pair ru _ (meaning_rule _ _ _ IM)) in QB. destruct QB as [c0 [c1 [-> RW]]].
    unfold shaped in SH. cbn [fst snd] in SH. unfold op_axis in B. rewrite RW in B. destruct SH as [SH _]. rewrite SH in B. discriminate.
Qed.

Lemma split_carries : forall op sp up lo, op_ok op -> sound sp -> roomy op sp -> own_origin sp ->
  do_split op sp = Halves up lo -> sound up /\ sound lo /\ carries2 op sp up lo.
Proof.
  intros op sp up lo K SD R [OR OC] H. assert (SD' := SD). destruct SD' as [K1 [K2 [[[AG1 AG2] SK] D]]].
  unfold do_split in H.
  destruct (single_binding (s_lits sp)); cbn [negb] in H; [ | discriminate].
  destruct (split_domain op (s_dom sp)) as [[du dl] | ] eqn:SP; [ | discriminate].
  destruct (rederive_deps (of_domain du) (s_deps sp) []) as [depu | ] eqn:RU; [ | discriminate].
  destruct (rederive_deps (of_domain dl) (s_deps sp) []) as [depl | ] eqn:RL; [ | discriminate].
  destruct (classify_span op du depu) eqn:CU; try discriminate.
  destruct (classify_span op dl depl) as [ | dr dc odr odc rw | | | ] eqn:CL; try discriminate. destruct rw; [discriminate | ].
  destruct (with_origin (s_shown sp) odr odc) as [shown | ] eqn:WS; [ | discriminate].
  destruct (dom_shift dr dc dl) as [dl' | ] eqn:DS; [ | discriminate].
  destruct (shifted_deps op dr dc odr odc depl) as [depl' | ] eqn:SH; [ | discriminate].
  cbv zeta in H. injection H. intros. subst up lo. clear H.
  destruct (split_halves op _ _ _ K1 SP) as [DEL [KU [KL [PP [SO [PU PL]]]]]].
  pose proof (rederive_described _ _ _ _ _ K2 K1 KU D RU) as DU.
  pose proof (rederive_described _ _ _ _ _ K2 K1 KL D RL) as DL.
  set (spu := Span du depu (s_template sp) (s_eval sp) (s_shown sp) (s_lits sp)).
  set (spl := Span dl depl (s_template sp) (s_eval sp) (s_shown sp) (s_lits sp)).
  assert (SU : sound spu) by (split; [exact KU | split; [exact K2 | split; [split; [split; assumption | exact SK] | exact DU]]]).
  assert (SL : sound spl) by (split; [exact KL | split; [exact K2 | split; [split; [split; assumption | exact SK] | exact DL]]]).
  assert (RL' : roomy op spl).
  { destruct R as [R | [R1 [R2 R3]]]; [congruence | right]. unfold spl. cbn [s_dom s_deps s_template]. split; [ | split; [ | exact R3]].
    - intros p P. apply R1. apply PP. auto.
    - apply (fits_part op (s_template sp) (s_dom sp) (s_deps sp) dl depl D DL); [ | exact R2]. intros p P. apply PP. auto. }
  pose proof (noop_carries op spu K SU CU) as [NU1 NU2].
  set (tm := Frame (f_refs (s_template sp)) (f_row shown) (f_col shown)).
  assert (WT : with_origin (s_template sp) odr odc = Some tm).
  { unfold with_origin in *. rewrite <- OR, <- OC.
    destruct (shift32 (f_row (s_shown sp)) odr); [ | discriminate]. destruct (shift32 (f_col (s_shown sp)) odc); [ | discriminate].
    injection WS. intros. subst shown. reflexivity. }
  assert (DO : do_shift op spl dr dc odr odc = Moved (Span dl' depl' tm tm tm (s_lits sp))).
  { unfold do_shift, spl. cbn [s_template s_dom s_deps s_lits]. rewrite WT, DS, SH. reflexivity. }
  destruct (shift_carries op spl dr dc odr odc _ K SL RL' CL DO) as [SM [NL1 NL2]].
  assert (SMO : small odr /\ small odc).
  { destruct (op_small op K) as [_ [SR SC]]. unfold classify_span in CL.
    destruct (classify op (of_domain dl));
      try (pose proof (plan_parts op depl 0 0) as Q; rewrite CL in Q; exfalso; tauto); try (destruct (o_del op); discriminate); try discriminate.
    pose proof (plan_parts op depl (fst (op_delta op)) (snd (op_delta op))) as Q. rewrite CL in Q. rewrite op_delta_eq in Q. cbn [fst snd] in Q.
    destruct Q as [_ [_ [_ [[-> [-> _]] | [-> [-> _]]]]]]; [auto | unfold small; lia]. }
  destruct (meaning_shift _ _ _ _ SK (proj1 SMO) (proj2 SMO) WS) as [FS [_ [MS _]]].
  destruct (meaning_shift _ _ _ _ K2 (proj1 SMO) (proj2 SMO) WT) as [_ [_ [MT _]]].
  split; [exact SU | ]. split.
  { destruct SM as [M1 [M2 [_ M4]]]. cbn [s_dom s_template s_deps s_shown s_eval] in *.
    split; [exact M1 | ]. split; [exact M2 | ]. split; [ | exact M4]. split; [ | exact FS].
    split; [reflexivity | ]. cbn [s_shown s_template]. fold tm. rewrite MS, MT, AG2. reflexivity. }
  cbn [s_dom s_eval] in *. split; [ | split].
  - intro p'. cbn [s_dom]. split.
    + intros [Q | Q]; [apply NU1 in Q | apply NL1 in Q]; destruct Q as [p [P G]]; exists p; (split; [ | exact G]); apply PP; auto.
    + intros [p [P G]]. apply PP in P. destruct P as [P | P]; [left; apply NU1 | right; apply NL1]; exists p; auto.
  - intros p' [Q1 Q2]. cbn [s_dom] in *. apply NU1 in Q1. apply NL1 in Q2. destruct Q1 as [p [P G]], Q2 as [q [P2 G2]].
    cbn [s_dom spu spl] in P, P2.
    assert (S1 : csh p = o_sh op) by (apply SO, PP; auto). assert (S2 : csh q = o_sh op) by (apply SO, PP; auto).
    apply goes_iff in G. apply goes_iff in G2. rewrite S1, N.eqb_refl in G. rewrite S2, N.eqb_refl in G2.
    destruct G as [_ [_ G]], G2 as [_ [_ G2]]. apply goes1_iff in G. apply goes1_iff in G2.
    specialize (PU p P). specialize (PL q P2). unfold thr, dz in *. rewrite DEL in *. lia.
  - intros p p' P G. cbn [s_dom s_eval]. split; intro Q.
    + apply NU2; [ | exact G]. apply PP in P. destruct P as [P | P]; [exact P | exfalso].
      apply NU1 in Q. destruct Q as [q [Q GQ]]. cbn [s_dom spu] in Q.
      assert (S1 : csh p = o_sh op) by (apply SO, PP; auto). assert (S2 : csh q = o_sh op) by (apply SO, PP; auto).
      apply goes_iff in G. apply goes_iff in GQ. rewrite S1, N.eqb_refl in G. rewrite S2, N.eqb_refl in GQ.
      destruct G as [_ [_ G]], GQ as [_ [_ GQ]]. apply goes1_iff in G. apply goes1_iff in GQ.
      specialize (PU q Q). specialize (PL p P). unfold thr, dz in *. rewrite DEL in *. lia.
    + apply NL2; [ | exact G]. apply PP in P. destruct P as [P | P]; [exfalso | exact P].
      apply NL1 in Q. destruct Q as [q [Q GQ]]. cbn [s_dom spl] in Q.
      assert (S1 : csh p = o_sh op) by (apply SO, PP; auto). assert (S2 : csh q = o_sh op) by (apply SO, PP; auto).
      apply goes_iff in G. apply goes_iff in GQ. rewrite S1, N.eqb_refl in G. rewrite S2, N.eqb_refl in GQ.
      destruct G as [_ [_ G]], GQ as [_ [_ GQ]]. apply goes1_iff in G. apply goes1_iff in GQ.
      specialize (PU p P). specialize (PL q Q). unfold thr, dz in *. rewrite DEL in *. lia.
Qed.
