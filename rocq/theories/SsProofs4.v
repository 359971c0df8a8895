(** Moving a span without rewriting its formulas. *)
From Verif Require Import Base Maps IntervalModel FpModel FpSpec FpProofs FpProofs2 FpProofs4 SsModel SsSpec SsProofs SsProofs2 SsProofs3.
From Coq Require Import ZifyN ZifyNat ZifyBool.

Open Scope N_scope.

(** * Templates at another origin *)

Lemma meaning_rule : forall fr s ru, In (s, ru) (meaning fr) -> ru <> WResult.
Proof.
  intros fr s ru I. apply in_map_iff in I. destruct I as [t [E _]]. injection E. intros A _. subst ru. destruct t; discriminate.
Qed.

Definition small (z : Z) : Prop := (- 8589934592 <= z <= 8589934592)%Z.
Definition psmall (p : proj) : Prop := match p with Rel off => small off | Abs i => i <= umax end.
Definition rsmall (ru : rule) : Prop :=
  match ru with
  | ACell r c => psmall r /\ psmall c
  | ARange r0 r1 c0 c1 => psmall r0 /\ psmall r1 /\ psmall c0 /\ psmall c1
  | WCols c0 c1 => psmall c0 /\ psmall c1
  | WResult => True
  end.
Lemma proj_of_small : forall o b, o <= umax -> tix b <= umax -> psmall (proj_of o b).
Proof. intros o b A B. destruct b; cbn in *; unfold small, umax in *; lia. Qed.
Lemma rule_of_small : forall fr t, frame_ok fr -> tref_ok t -> rsmall (rule_of fr t).
Proof.
  intros fr t [_ [A B]] T. destruct t; cbn [rule_of rsmall tref_ok] in *;
    repeat match goal with |- _ /\ _ => split end; apply proj_of_small; lia.
Qed.
Lemma meaning_small : forall fr s ru, frame_ok fr -> In (s, ru) (meaning fr) -> rsmall ru.
Proof.
  intros fr s ru K I. apply in_map_iff in I. destruct I as [t [E J]]. injection E. intros A _. subst ru.
  destruct K as [K1 K2]. rewrite Forall_forall in K1. apply rule_of_small; [split; [rewrite Forall_forall; exact K1 | exact K2] | exact (K1 _ J)].
Qed.

Lemma proj_shift_of : forall o o' d b, o <= umax -> tix b <= umax -> small d -> (Z.of_N o' = Z.of_N o + d)%Z ->
  proj_of o' b = proj_shift (- d) (proj_of o b).
Proof.
  intros o o' d b A B S E. destruct b; cbn [proj_of proj_shift tix] in *; [ | reflexivity].
  f_equal. unfold i64_sat, small, umax, i64min, i64max in *. lia.
Qed.

Definition mshift (dr dc : Z) (m : list (N * rule)) : list (N * rule) := map (fun sr => (fst sr, rule_shift dr dc (snd sr))) m.

Lemma meaning_shift : forall fr fr' dr dc, frame_ok fr -> small dr -> small dc -> with_origin fr dr dc = Some fr' ->
  frame_ok fr' /\ f_refs fr' = f_refs fr /\ meaning fr' = mshift (- dr) (- dc) (meaning fr)
  /\ (Z.of_N (f_row fr') = Z.of_N (f_row fr) + dr)%Z /\ (Z.of_N (f_col fr') = Z.of_N (f_col fr) + dc)%Z.
Proof.
  intros fr fr' dr dc [K1 [K2 K3]] S1 S2 H. unfold with_origin in H.
  destruct (shift32 (f_row fr) dr) as [r | ] eqn:A; [apply shift32_ok in A | discriminate].
  destruct (shift32 (f_col fr) dc) as [c | ] eqn:B; [apply shift32_ok in B | discriminate].
  injection H. intros. subst. cbn [f_refs f_row f_col]. split; [ | split; [reflexivity | split]].
  - split; [exact K1 | cbn [f_row f_col]; lia].
  - unfold meaning, mshift. cbn [f_refs]. rewrite map_map. apply map_ext_in. intros t I. cbn [fst snd].
    rewrite Forall_forall in K1. specialize (K1 _ I). f_equal.
    destruct t; cbn [rule_of rule_shift tref_ok f_row f_col] in *; f_equal; apply proj_shift_of; solve [lia | assumption].
  - lia.
Qed.

Lemma shift_kind : forall dr dc, keeps_kind (rule_shift dr dc).
Proof. intros dr dc ru. destruct ru; cbn; split; split; try tauto; discriminate. Qed.

Lemma shift_pair : forall rw dr dc ru, rpair rw (rule_shift dr dc ru) =
  option_map (fun q => (proj_shift (if rw then dr else dc) (fst q), proj_shift (if rw then dr else dc) (snd q))) (rpair rw ru).
Proof. intros rw dr dc ru. destruct rw, ru; reflexivity. Qed.

Lemma small_pair : forall rw ru a b, rsmall ru -> rpair rw ru = Some (a, b) -> psmall a /\ psmall b.
Proof. intros rw ru a b S H. destruct rw, ru; cbn in *; try discriminate; injection H; intros; subst; tauto. Qed.

Lemma at_shift : forall p d x x', psmall p -> small d -> (Z.of_N x' = Z.of_N x + d)%Z ->
  at_axis (proj_shift (- d) p) x' = at_axis p x.
Proof.
  intros p d x x' S D E. destruct p; cbn [proj_shift at_axis psmall] in *; [ | reflexivity].
  unfold i64_sat, small, i64min, i64max in *. lia.
Qed.
Lemma at_shift0 : forall p x, psmall p -> at_axis (proj_shift 0 p) x = at_axis p x.
Proof. intros p x S. apply (at_shift p 0); [exact S | unfold small; lia | lia]. Qed.

(** * The two ways *)

(** All reads stay. *)
Definition all_still (op : sop) (deps : list dep) : Prop :=
  Forall (fun dp => classify op (fst dp) = OtherSheet \/ classify op (fst dp) = Below) deps.
(** All relative reads move, all absolute ones stay. *)
Definition all_sorted (op : sop) (deps : list dep) : Prop :=
  Forall (fun dp =>
    (above (classify op (fst dp)) = true /\ snd (bound_kinds (snd dp) (o_rows op)) = false) \/
    ((classify op (fst dp) = OtherSheet \/ classify op (fst dp) = Below) /\ fst (bound_kinds (snd dp) (o_rows op)) = false)) deps.

Lemma still_at : forall op deps s ru z, op_ok op -> all_still op deps -> seen_at op deps s ru z ->
  moved1 op s z z /\ (0 <= z <= Z.of_N umax)%Z /\ (s = o_sh op -> (z < Z.of_N (o_at op))%Z).
Proof.
  intros op deps s ru z K A [i [r [-> [U [J [S O]]]]]]. unfold all_still in A. rewrite Forall_forall in A. specialize (A _ J). cbn [fst] in A.
  assert (Q : s = o_sh op -> i < o_at op).
  { intro E. destruct A as [A | A]; [apply class_other in A; congruence | exact (class_below op r i A U O)]. }
  split; [ | split; [lia | intro E; specialize (Q E); lia]].
  unfold moved1. destruct (s =? o_sh op) eqn:E; [ | reflexivity].
  exists i, i. split; [reflexivity | ]. split; [reflexivity | ]. apply goes1_iff. left. split; [apply Q; lia | reflexivity].
Qed.

(** The placement of the span after the edit. *)
Definition steps (op : sop) (p p' : cell) (dx : Z) : Prop :=
  oth op p' = oth op p /\ (Z.of_N (opx op p') = Z.of_N (opx op p) + dx)%Z.

Lemma moves_still : forall op m d deps s ru p p' dx, op_ok op -> described m d deps -> all_still op deps ->
  In (s, ru) m -> rsmall ru -> ru <> WResult -> placed_at d p -> small dx -> steps op p p' dx ->
  let g := rule_shift (- (if o_rows op then dx else 0)) (- (if o_rows op then 0 else dx)) in
  moves op s ru (g ru) p p' /\ onto op (s, g ru) p' /\ lands (g ru) p'.
Proof.
  intros op m d deps s ru p p' dx K D A I SM NR P SD [S1 S2] g.
  assert (NG : not_result (g ru)) by (intro E; apply NR; unfold g in E; destruct ru; cbn in E; congruence).
  assert (L : lands ru p) by (destruct D as [_ [_ D]]; rewrite Forall_forall in D; exact (D _ I p P)).
  pose proof (proj1 (lands_pairs op ru p NR) L) as [L1 L2].
  assert (PO : pair_same (rpair (negb (o_rows op)) ru) (rpair (negb (o_rows op)) (g ru)) (oth op p)).
  { unfold g. rewrite shift_pair. destruct (rpair (negb (o_rows op)) ru) as [[a b] | ] eqn:PR; cbn [option_map pair_same fst snd]; [ | exact Logic.I].
    destruct (small_pair _ _ _ _ SM PR) as [B1 B2].
    destruct (o_rows op); cbn [negb]; split; apply at_shift0; assumption. }
  assert (LO : lands_pair (rpair (negb (o_rows op)) (g ru)) (oth op p')).
  { rewrite S1. destruct (rpair (negb (o_rows op)) ru) as [[a b] | ], (rpair (negb (o_rows op)) (g ru)) as [[a' b'] | ];
      cbn [pair_same lands_pair] in *; try tauto. unfold lands1 in *. destruct PO as [-> ->]. exact L2. }
  assert (PM : pair_moved op s (rpair (o_rows op) ru) (rpair (o_rows op) (g ru)) (opx op p) (opx op p')
               /\ lands_pair (rpair (o_rows op) (g ru)) (opx op p') /\ uniform op s (rpair (o_rows op) ru) (opx op p)).
  { unfold g. rewrite shift_pair. destruct (rpair (o_rows op) ru) as [[a b] | ] eqn:PR; cbn [option_map pair_moved lands_pair uniform fst snd]; [ | auto].
    destruct (small_pair _ _ _ _ SM PR) as [B1 B2].
    destruct (bounds_seen op m d deps s ru p a b D I NR P PR) as [Q1 Q2].
    destruct (still_at _ _ _ _ _ K A Q1) as [X1 [X2 X3]]. destruct (still_at _ _ _ _ _ K A Q2) as [Y1 [Y2 Y3]].
    assert (E : forall q, psmall q -> at_axis (proj_shift (if o_rows op then - (if o_rows op then dx else 0) else - (if o_rows op then 0 else dx)) q) (opx op p') = at_axis q (opx op p)).
    { intros q Q. destruct (o_rows op); apply at_shift; assumption. }
    unfold lands1. rewrite !E by assumption. repeat split; try assumption; try lia. }
  destruct PM as [PM [PL PU]].
  assert (M : moves op s ru (g ru) p p').
  { split; [exact NR | ]. split; [exact NG | ]. split; [apply shift_kind | ]. split; [exact S1 | ]. split; assumption. }
  split; [exact M | ]. split; [exact (moves_onto op s ru (g ru) p p' K M L PU) | ].
  apply (lands_pairs op (g ru) p' NG). split; assumption.
Qed.

Lemma kinds_rel : forall ru rw a b, rpair rw ru = Some (a, b) -> snd (bound_kinds ru rw) = false -> is_abs a = false /\ is_abs b = false.
Proof. intros ru rw a b P H. rewrite (kinds_pair _ _ _ _ P) in H. cbn [snd] in H. apply orb_false_iff in H. exact H. Qed.
Lemma kinds_abs : forall ru rw a b, rpair rw ru = Some (a, b) -> fst (bound_kinds ru rw) = false -> is_abs a = true /\ is_abs b = true.
Proof.
  intros ru rw a b P H. rewrite (kinds_pair _ _ _ _ P) in H. cbn [fst] in H. apply orb_false_iff in H.
  destruct (is_abs a), (is_abs b), H as [H1 H2]; cbn in H1, H2; try discriminate; auto.
Qed.

(** A region of the summary that moves fits on the sheet after it has moved. *)
Definition fits (op : sop) (deps : list dep) : Prop :=
  o_del op = true \/ forall r ru, In (r, ru) deps -> ax_bounded (op_axis op r) = true -> snd (ax_bounds (op_axis op r)) + o_n op <= umax.

Lemma sorted_at : forall op deps s ru a x x', op_ok op -> all_sorted op deps -> fits op deps ->
  (forall r ru, In (r, ru) deps -> ax_bounded (op_axis op r) = true \/ rpair (o_rows op) ru = None) ->
  (exists b, rpair (o_rows op) ru = Some (a, b) \/ rpair (o_rows op) ru = Some (b, a)) ->
  (Z.of_N x' = Z.of_N x + dz op)%Z -> seen_at op deps s ru (at_axis a x) ->
  moved1 op s (at_axis a x) (at_axis a x') /\ (0 <= at_axis a x' <= Z.of_N umax)%Z
  /\ (s = o_sh op -> if is_abs a then (at_axis a x < Z.of_N (o_at op))%Z else (Z.of_N (thr op) <= at_axis a x)%Z).
Proof.
  intros op deps s ru a x x' K A F BB [b PR] EX [i [r [Z [U [J [S O]]]]]]. unfold all_sorted in A. rewrite Forall_forall in A. specialize (A _ J). cbn [fst snd] in A.
  assert (NN : rpair (o_rows op) ru <> None) by (destruct PR as [PR | PR]; rewrite PR; discriminate).
  destruct A as [[AB AK] | [ST AK]].
  - assert (NA : is_abs a = false).
    { destruct PR as [PR | PR]; destruct (kinds_rel _ _ _ _ PR AK); assumption. }
    rewrite NA. destruct (classify op r) as [ | | d | | ] eqn:C; try discriminate.
    destruct (class_above op r d i K C U O) as [T _].
    assert (SO : s = o_sh op).
    { rewrite <- S. destruct (N.eq_dec (sh r) (o_sh op)) as [E | E]; [exact E | ]. apply class_other in E. congruence. }
    destruct a as [off | k]; [ | discriminate]. cbn [at_axis] in *.
    assert (HI : o_del op = true \/ i + o_n op <= umax).
    { destruct F as [F | F]; [left; exact F | right]. destruct (BB _ _ J) as [B | B]; [ | contradiction].
      specialize (F _ _ J B). pose proof (on_bounds _ _ U O). lia. }
    unfold moved1. rewrite SO, N.eqb_refl. unfold thr, dz in *.
    split; [ | split; [destruct (o_del op); destruct HI; lia | intros _; lia]].
    exists i, (if o_del op then i - o_n op else i + o_n op). split; [exact Z | ]. split; [destruct (o_del op); lia | ].
    apply goes1_iff. right. unfold thr, dz. destruct (o_del op); lia.
  - assert (NA : is_abs a = true).
    { destruct PR as [PR | PR]; destruct (kinds_abs _ _ _ _ PR AK); assumption. }
    rewrite NA. destruct a as [off | k]; [discriminate | ]. cbn [at_axis] in *.
    assert (Q : s = o_sh op -> i < o_at op).
    { intro E. destruct ST as [C | C]; [apply class_other in C; congruence | exact (class_below op r i C U O)]. }
    split; [ | split; [lia | intro E; specialize (Q E); lia]].
    unfold moved1. destruct (s =? o_sh op) eqn:E; [ | reflexivity].
    exists k, k. split; [reflexivity | ]. split; [reflexivity | ]. apply goes1_iff. left. split; [ | reflexivity]. assert (i = k) by lia. subst. apply Q. lia.
Qed.

Lemma shaped_axis : forall op deps m d, described m d deps -> forall r ru, In (r, ru) deps ->
  ax_bounded (op_axis op r) = true \/ rpair (o_rows op) ru = None.
Proof.
  intros op deps m d [_ [G _]] r ru J. rewrite Forall_forall in G. destruct (G _ J) as [_ [SH _]].
  unfold shaped, bounded in SH. cbn [fst snd] in SH. unfold op_axis. destruct ru, (o_rows op); cbn [rpair]; tauto.
Qed.

Lemma moves_sorted : forall op m d deps s ru p p', op_ok op -> described m d deps -> all_sorted op deps -> fits op deps ->
  In (s, ru) m -> rsmall ru -> ru <> WResult -> placed_at d p -> steps op p p' (dz op) ->
  let g := rule_shift 0 0 in
  moves op s ru (g ru) p p' /\ onto op (s, g ru) p' /\ lands (g ru) p'.
Proof.
  intros op m d deps s ru p p' K D A F I SM NR P [S1 S2] g.
  assert (NG : not_result (g ru)) by (intro E; apply NR; unfold g in E; destruct ru; cbn in E; congruence).
  assert (L : lands ru p) by (destruct D as [_ [_ DD]]; rewrite Forall_forall in DD; exact (DD _ I p P)).
  pose proof (proj1 (lands_pairs op ru p NR) L) as [L1 L2].
  assert (PO : pair_same (rpair (negb (o_rows op)) ru) (rpair (negb (o_rows op)) (g ru)) (oth op p)).
  { unfold g. rewrite shift_pair. destruct (rpair (negb (o_rows op)) ru) as [[a b] | ] eqn:PR; cbn [option_map pair_same fst snd]; [ | exact Logic.I].
    destruct (small_pair _ _ _ _ SM PR) as [B1 B2].
    destruct (o_rows op); cbn [negb]; split; apply at_shift0; assumption. }
  assert (LO : lands_pair (rpair (negb (o_rows op)) (g ru)) (oth op p')).
  { rewrite S1. destruct (rpair (negb (o_rows op)) ru) as [[a b] | ], (rpair (negb (o_rows op)) (g ru)) as [[a' b'] | ];
      cbn [pair_same lands_pair] in *; try tauto. unfold lands1 in *. destruct PO as [-> ->]. exact L2. }
  assert (PM : pair_moved op s (rpair (o_rows op) ru) (rpair (o_rows op) (g ru)) (opx op p) (opx op p')
               /\ lands_pair (rpair (o_rows op) (g ru)) (opx op p') /\ uniform op s (rpair (o_rows op) ru) (opx op p)).
  { unfold g. rewrite shift_pair. destruct (rpair (o_rows op) ru) as [[a b] | ] eqn:PR; cbn [option_map pair_moved lands_pair uniform fst snd]; [ | auto].
    destruct (small_pair _ _ _ _ SM PR) as [B1 B2].
    destruct (bounds_seen op m d deps s ru p a b D I NR P PR) as [Q1 Q2].
    pose proof (shaped_axis op deps m d D) as BB.
    destruct (sorted_at op deps s ru a _ _ K A F BB (ex_intro _ b (or_introl PR)) S2 Q1) as [X1 [X2 X3]].
    destruct (sorted_at op deps s ru b _ _ K A F BB (ex_intro _ a (or_intror PR)) S2 Q2) as [Y1 [Y2 Y3]].
    assert (E : forall q x, psmall q -> at_axis (proj_shift (if o_rows op then 0 else 0) q) x = at_axis q x).
    { intros q x Q. destruct (o_rows op); apply at_shift0; assumption. }
    unfold lands1. rewrite !E by assumption. repeat split; try assumption; try lia.
    (* all bounds of one kind *)
    intros E1 E2. specialize (X3 E1). specialize (Y3 E1). unfold thr in *. rewrite E2 in *.
    assert (SK : is_abs a = is_abs b).
    { unfold all_sorted in A. rewrite Forall_forall in A. destruct Q1 as [i [r [_ [_ [J _]]]]]. specialize (A _ J). cbn [fst snd] in A.
      destruct A as [[_ AK] | [_ AK]]; [destruct (kinds_rel _ _ _ _ PR AK) | destruct (kinds_abs _ _ _ _ PR AK)]; congruence. }
    rewrite SK in X3. destruct (is_abs b); [left | right]; split; assumption. }
  destruct PM as [PM [PL PU]].
  assert (M : moves op s ru (g ru) p p').
  { split; [exact NR | ]. split; [exact NG | ]. split; [apply shift_kind | ]. split; [exact S1 | ]. split; assumption. }
  split; [exact M | ]. split; [exact (moves_onto op s ru (g ru) p p' K M L PU) | ].
  apply (lands_pairs op (g ru) p' NG). split; assumption.
Qed.

(** The summary moves along. *)
Lemma shifted_carried : forall op dr dc odr odc deps deps', op_ok op -> (dr, dc) = op_delta op ->
  Forall (fun dp => rg_ok (fst dp) /\ shaped dp /\ snd dp <> WResult) deps ->
  shifted_deps op dr dc odr odc deps = Some deps' ->
  Forall2 (carried op (rule_shift (- odr) (- odc))) deps deps'.
Proof.
  intros op dr dc odr odc deps. induction deps as [ | [r ru] l IH]; intros deps' K E F H; cbn [shifted_deps] in H.
  - injection H. intros. subst. constructor.
  - inversion F as [ | ? ? [F1 [F2 F3]] FL]; subst. cbn [fst snd] in *.
    destruct (match classify op r with OtherSheet | Below => Some r | Above _ => shift dr dc r | _ => None end) as [r' | ] eqn:C; [ | discriminate].
    destruct (shifted_deps op dr dc odr odc l) as [l' | ] eqn:T; [ | discriminate]. injection H. intros. subst.
    constructor; [ | exact (IH l' K E FL eq_refl)].
    rewrite op_delta_eq in E. injection E. intros. subst.
    destruct (classify op r) as [ | | d | | ] eqn:CR; try discriminate.
    + injection C. intros. subst. apply carried_still; [exact F1 | apply shift_kind | left; exact CR].
    + injection C. intros. subst. apply carried_still; [exact F1 | apply shift_kind | right; exact CR].
    + exact (carried_above op _ r r' ru d K F1 (shift_kind _ _) F2 F3 CR C).
Qed.
