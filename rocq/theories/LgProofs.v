(** Proofs about LgModel.v. *)
From Coq Require Import List Bool NArith ZArith Arith Lia.
From Verif Require Import Base Maps LookupModel EvModel LgModel LgSpec.
Import ListNotations.

Section Proofs.
Variable T : Type.
Variable is_zero : T -> bool.
Notation value := (value T). Notation handle := (handle T). Notation outcome := (outcome T).
Notation truth_of := (truth_of T is_zero).
Notation and_scan := (and_scan T is_zero). Notation or_scan := (or_scan T is_zero).
Notation junction := (junction T).
Notation and_fn := (and_fn T is_zero). Notation or_fn := (or_fn T is_zero). Notation not_fn := (not_fn T is_zero).
Notation xor_fn := (xor_fn T is_zero).
Notation yes := (yes T is_zero). Notation no := (no T is_zero). Notation blank := (blank T). Notation fault := (fault T).
Notation first_fault := (first_fault T). Notation last_fault := (last_fault T).
Notation values_of := (values_of T). Notation literal_of := (literal_of T). Notation value_of := (value_of T).

Lemma truth_spec : forall v, match truth_of v with
  | TBool b => yes v = b /\ no v = negb b /\ blank v = false /\ fault v = None
  | TBlank => yes v = false /\ no v = false /\ blank v = true /\ fault v = None
  | TError e => yes v = false /\ no v = false /\ blank v = false /\ fault v = Some e
  | TNone => yes v = false /\ no v = false /\ blank v = false /\ fault v = Some K_VALUE
  end.
Proof. intros [[]|]; cbn; rewrite ?negb_involutive; auto. Qed.

Definition over (f g : option N) : option N := match f with Some e => Some e | None => g end.
Lemma and_scan_ok : forall vs first, and_scan first vs =
  if existsb (fun v => no v || blank v) vs then None else Some (over first (first_fault vs)).
Proof.
  induction vs as [|v vs IH]; intros first; [destruct first; reflexivity|]. cbn [LgModel.and_scan existsb].
  unfold LgSpec.first_fault. cbn [map first_some]. pose proof (truth_spec v) as H.
  destruct (truth_of v) as [[|]| |e|]; destruct H as (_ & -> & -> & ->); cbn [orb negb first_some]; rewrite ?IH; auto;
    destruct (existsb _ vs); auto; destruct first; reflexivity.
Qed.
Lemma or_scan_ok : forall vs first, or_scan first vs =
  if existsb yes vs then None else Some (over first (first_fault vs)).
Proof.
  induction vs as [|v vs IH]; intros first; [destruct first; reflexivity|]. cbn [LgModel.or_scan existsb].
  unfold LgSpec.first_fault. cbn [map first_some]. pose proof (truth_spec v) as H.
  destruct (truth_of v) as [[|]| |e|]; destruct H as (-> & _ & _ & ->); cbn [orb negb first_some]; rewrite ?IH; auto;
    destruct (existsb _ vs); auto; destruct first; reflexivity.
Qed.

(** A loop whose scan decides on a kind of values. *)
Section Loop.
Variable scan : option N -> list value -> option (option N).
Variable dec : value -> bool.
Variable decided : bool.
Hypothesis scan_ok : forall vs first, scan first vs = if existsb dec vs then None else Some (over first (first_fault vs)).

Lemma first_fault_app : forall a b, first_fault (a ++ b) = over (first_fault a) (first_fault b).
Proof.
  unfold LgSpec.first_fault. induction a as [|v a IH]; intros b; [reflexivity|]. cbn [app map first_some]. destruct (fault v); auto.
Qed.
Lemma over_assoc : forall a b c, over (over a b) c = over a (over b c).
Proof. now intros [|] [|] c. Qed.
Lemma junction_ok : forall hs vss i first, Forall2 (fun h vs => values_of h = Ok vs) hs vss ->
  snd (junction scan decided i first hs) =
  Ok (sc T (if existsb dec (concat vss) then SBool decided else or_else T (over first (first_fault (concat vss))) (negb decided))).
Proof.
  induction hs as [|h hs IH]; intros vss i first F; inversion F as [|? vs ? vss' V F']; subst.
  - cbn. destruct first; reflexivity.
  - cbn [LgModel.junction concat]. rewrite V, scan_ok, existsb_app. destruct (existsb dec vs) eqn:E; [reflexivity|].
    cbn [orb]. specialize (IH vss' (S i) (over first (first_fault vs)) F').
    destruct (junction scan decided (S i) (over first (first_fault vs)) hs) as [t r]. cbn [snd] in *. rewrite IH.
    rewrite first_fault_app, over_assoc. reflexivity.
Qed.
(** Nothing after a decision is looked at. *)
Lemma junction_stops : forall hs vss rest i first, Forall2 (fun h vs => values_of h = Ok vs) hs vss ->
  existsb dec (concat vss) = true ->
  junction scan decided i first (hs ++ rest) = junction scan decided i first hs /\
  exists n, fst (junction scan decided i first hs) = seq i n /\ n <= length hs.
Proof.
  induction hs as [|h hs IH]; intros vss rest i first F E; inversion F as [|? vs ? vss' V F']; subst; [discriminate|].
  cbn [app LgModel.junction]. rewrite V, scan_ok. cbn [concat] in E. rewrite existsb_app in E.
  destruct (existsb dec vs) eqn:D.
  - split; [reflexivity|]. exists 1. split; [reflexivity|cbn; lia].
  - destruct (IH vss' rest (S i) (over first (first_fault vs)) F' E) as (-> & n & Q & L).
    destruct (junction scan decided (S i) (over first (first_fault vs)) hs) as [t r]. split; [reflexivity|].
    exists (S n). cbn [fst] in *. split; [cbn; now rewrite Q|cbn; lia].
Qed.
Lemma junction_fails : forall hs vss h e rest i first, Forall2 (fun h vs => values_of h = Ok vs) hs vss ->
  existsb dec (concat vss) = false -> values_of h = Err e -> snd (junction scan decided i first (hs ++ h :: rest)) = Err e.
Proof.
  induction hs as [|g hs IH]; intros vss h e rest i first F E H; inversion F as [|? vs ? vss' V F']; subst.
  - cbn [app LgModel.junction]. now rewrite H.
  - cbn [app LgModel.junction]. rewrite V, scan_ok. cbn [concat] in E. rewrite existsb_app in E.
    apply orb_false_iff in E. destruct E as [-> E].
    specialize (IH vss' h e rest (S i) (over first (first_fault vs)) F' E H).
    destruct (junction scan decided (S i) (over first (first_fault vs)) (hs ++ h :: rest)). exact IH.
Qed.
End Loop.

Lemma and_ok : forall hs vss, hs <> [] -> Forall2 (fun h vs => values_of h = Ok vs) hs vss ->
  snd (and_fn hs) = Ok (sc T (and_of T is_zero (concat vss))).
Proof.
  intros hs vss N F. destruct hs as [|h hs]; [congruence|]. unfold LgModel.and_fn.
  exact (junction_ok and_scan (fun v => no v || blank v) false and_scan_ok (h :: hs) vss 0 None F).
Qed.
Lemma or_ok : forall hs vss, hs <> [] -> Forall2 (fun h vs => values_of h = Ok vs) hs vss ->
  snd (or_fn hs) = Ok (sc T (or_of T is_zero (concat vss))).
Proof.
  intros hs vss N F. destruct hs as [|h hs]; [congruence|]. unfold LgModel.or_fn.
  exact (junction_ok or_scan yes true or_scan_ok (h :: hs) vss 0 None F).
Qed.

(** ** NOT *)
Definition negated (v : value) : scalar T :=
  match fault v with Some e => SErr e | None => SBool (negb (yes v)) end.
Lemma not_ok : forall h, snd (not_fn [h]) = rbind (literal_of h) (fun v => Ok (sc T (negated v))).
Proof.
  intros h. cbn. destruct (literal_of h) as [v|e|]; auto. cbn. unfold negated. pose proof (truth_spec v) as H.
  destruct (truth_of v) as [b| |e|]; destruct H as (Y & _ & _ & F); rewrite ?Y, F; auto.
Qed.
Lemma negated_spec : forall v, let w : value := VS (negated v) in
  yes w = (no v || blank v) /\ (no w || blank w) = yes v /\ fault w = fault v.
Proof.
  intros v. unfold negated. pose proof (truth_spec v) as H.
  destruct (truth_of v) as [[|]| |e|]; destruct H as (Y & N & B & F); rewrite F, ?Y, ?N, ?B; cbn; auto.
Qed.
Lemma lone_values : forall h, lone T h -> values_of h = rbind (literal_of h) (fun v => Ok [v]).
Proof.
  intros h L. unfold LgModel.literal_of. destruct h as [s| | |v]; cbn in *; try contradiction.
  - destruct s; reflexivity.
  - destruct v; reflexivity.
Qed.
Definition nots (hs : list handle) : list handle := map (fun h => nest T (not_fn [h])) hs.
Lemma nest_values : forall h, values_of (nest T (not_fn [h])) = rbind (literal_of h) (fun v => Ok [VS (negated v)]).
Proof. intros h. unfold nest. cbn [LgModel.values_of]. rewrite not_ok. destruct (literal_of h); reflexivity. Qed.

Section DeMorgan.
Variables scan scan' : option N -> list value -> option (option N).
Variables dec dec' : value -> bool.
Variable d : bool.
Hypothesis scan_ok : forall vs first, scan first vs = if existsb dec vs then None else Some (over first (first_fault vs)).
Hypothesis scan_ok' : forall vs first, scan' first vs = if existsb dec' vs then None else Some (over first (first_fault vs)).
Hypothesis dual : forall v, dec' (VS (negated v)) = dec v.
Lemma dual_ok : forall hs i first, Forall (lone T) hs ->
  junction scan' (negb d) i first (nots hs) =
  let '(t, r) := junction scan d i first hs in
  (t, rbind r (fun v => Ok (sc T (negated (literal T v))))).
Proof.
  induction hs as [|h hs IH]; intros i first F; inversion F as [|? ? L F']; subst.
  - cbn. unfold says. destruct first, d; reflexivity.
  - cbn [nots map LgModel.junction]. rewrite nest_values, (lone_values h L). destruct (literal_of h) as [v|e|]; cbn [rbind]; auto.
    rewrite scan_ok, scan_ok'. cbn [existsb]. rewrite dual, !orb_false_r. destruct (dec v).
    + unfold says. destruct d; reflexivity.
    + unfold LgSpec.first_fault. cbn [map first_some]. destruct (negated_spec v) as (_ & _ & ->).
      change (map (fun h0 : handle => nest T (not_fn [h0])) hs) with (nots hs). rewrite IH by auto.
      destruct (junction scan d (S i) _ hs) as [t r]. reflexivity.
Qed.
End DeMorgan.
Lemma de_morgan_and : forall hs, Forall (lone T) hs -> hs <> [] ->
  snd (or_fn (nots hs)) = snd (not_fn [nest T (and_fn hs)]).
Proof.
  intros hs F N. rewrite not_ok. destruct hs as [|h hs]; [congruence|]. unfold LgModel.or_fn, LgModel.and_fn.
  change (nots (h :: hs)) with (nest T (not_fn [h]) :: nots hs). cbv iota. change (nest T (not_fn [h]) :: nots hs) with (nots (h :: hs)).
  pose proof (dual_ok and_scan or_scan (fun v => no v || blank v) yes false and_scan_ok or_scan_ok (fun v => proj1 (negated_spec v)) (h :: hs) 0 None F) as D. cbn [negb] in D. rewrite D.
  unfold nest, LgModel.literal_of. cbn [LgModel.value_of]. destruct (junction and_scan false 0 None (h :: hs)) as [t [v|e|]]; reflexivity.
Qed.
Lemma de_morgan_or : forall hs, Forall (lone T) hs -> hs <> [] ->
  snd (and_fn (nots hs)) = snd (not_fn [nest T (or_fn hs)]).
Proof.
  intros hs F N. rewrite not_ok. destruct hs as [|h hs]; [congruence|]. unfold LgModel.or_fn, LgModel.and_fn.
  change (nots (h :: hs)) with (nest T (not_fn [h]) :: nots hs). cbv iota. change (nest T (not_fn [h]) :: nots hs) with (nots (h :: hs)).
  pose proof (dual_ok or_scan and_scan yes (fun v => no v || blank v) true or_scan_ok and_scan_ok (fun v => proj1 (proj2 (negated_spec v))) (h :: hs) 0 None F) as D. cbn [negb] in D. rewrite D.
  unfold nest, LgModel.literal_of. cbn [LgModel.value_of]. destruct (junction or_scan true 0 None (h :: hs)) as [t [v|e|]]; reflexivity.
Qed.

(** ** XOR *)
Notation all_values := (all_values T).
Lemma last_fault_snoc : forall vs v, last_fault (vs ++ [v]) = over (fault v) (last_fault vs).
Proof. intros vs v. unfold LgSpec.last_fault. rewrite map_app, rev_app_distr. cbn. destruct (fault v); reflexivity. Qed.
Lemma xor_cells : forall cells first n,
  fold_left (xor_cell T is_zero first) cells (n, None) =
  (n + count T is_zero (map VS cells), match first with None => last_fault (map VS cells) | Some _ => None end).
Proof.
  intros cells first n. induction cells as [|s cells IH] using rev_ind.
  - cbn. rewrite Nat.add_0_r. destruct first; reflexivity.
  - rewrite fold_left_app, IH, map_app. cbn [fold_left map]. rewrite last_fault_snoc. unfold count.
    rewrite filter_app, app_length. unfold xor_cell. pose proof (truth_spec (VS s)) as H. cbn [filter].
    destruct (truth_of (VS s)) as [[|]| |e|]; destruct H as (-> & _ & _ & ->); cbn [length over];
      rewrite ?Nat.add_0_r; try (f_equal; lia); destruct first; reflexivity.
Qed.
Lemma xor_loop_ok : forall hs vss i n first, Forall2 (fun h vs => all_values h = Ok vs) hs vss ->
  xor_loop T is_zero i n first hs =
  (seq i (length hs), Ok (sc T (or_else T (over first (first_some (map last_fault vss))) (Nat.odd (n + count T is_zero (concat vss)))))).
Proof.
  induction hs as [|h hs IH]; intros vss i n first F; inversion F as [|? vs ? vss' V F']; subst.
  - cbn. rewrite Nat.add_0_r. destruct first; reflexivity.
  - assert (S1 : forall m f, xor_loop T is_zero (S i) m f hs = (seq (S i) (length hs), Ok (sc T (or_else T (over f (first_some (map last_fault vss'))) (Nat.odd (m + count T is_zero (concat vss'))))))) by (intros; now apply IH).
    assert (G : forall (t : list nat) X Y a b, X = Y -> a = b ->
      (t, Ok (sc T (or_else T X (Nat.odd a)))) = (t, @Ok N _ (sc T (or_else T Y (Nat.odd b))))) by (intros; subst; reflexivity).
    assert (C1 : forall cells, vs = map VS cells -> view_of T h = Some cells ->
      xor_loop T is_zero i n first (h :: hs) = (seq i (length (h :: hs)), Ok (sc T (or_else T (over first (first_some (map last_fault (vs :: vss')))) (Nat.odd (n + count T is_zero (concat (vs :: vss')))))))).
    { intros cells -> Vw. cbn [xor_loop]. rewrite Vw, xor_cells, S1. cbn [length seq map first_some concat].
      unfold count. rewrite filter_app, app_length, Nat.add_assoc. do 4 f_equal.
      destruct first; [reflexivity|]. destruct (last_fault (map VS cells)); reflexivity. }
    assert (C2 : forall s, vs = [VS s] -> view_of T h = None -> literal_of h = Ok (VS s) ->
      xor_loop T is_zero i n first (h :: hs) = (seq i (length (h :: hs)), Ok (sc T (or_else T (over first (first_some (map last_fault (vs :: vss')))) (Nat.odd (n + count T is_zero (concat (vs :: vss')))))))).
    { intros s -> Vw Li. cbn [xor_loop]. rewrite Vw, Li. unfold xor_one, count, LgSpec.last_fault. cbn [map rev app first_some concat filter].
      pose proof (truth_spec (VS s)) as H.
      destruct (truth_of (VS s)) as [[|]| |e|]; destruct H as (-> & _ & _ & ->); rewrite S1; cbn [length seq first_some]; unfold count, LgSpec.last_fault;
        (apply G; [destruct first; reflexivity|cbn [app length filter]; try lia]). }
    destruct h as [[s| |]|[r| |]|g|[[[[s|g]|r]|]| |]]; cbn in V; try discriminate; injection V as <-.
    + now apply (C1 [s]).
    + now apply (C1 (concat (g_cells r))).
    + now apply (C1 (concat g)).
    + now apply (C2 s).
    + now apply (C1 (concat g)).
    + now apply (C1 (concat (g_cells r))).
    + now apply (C2 (SErr K_CALC)).
Qed.
Lemma xor_ok : forall hs vss, hs <> [] -> Forall2 (fun h vs => all_values h = Ok vs) hs vss ->
  xor_fn hs = (seq 0 (length hs), Ok (sc T (or_else T (first_some (map last_fault vss)) (Nat.odd (count T is_zero (concat vss)))))).
Proof.
  intros hs vss N F. destruct hs as [|h hs]; [congruence|]. unfold LgModel.xor_fn.
  rewrite (xor_loop_ok (h :: hs) vss 0 0 None F). reflexivity.
Qed.
(** With at most one faulty cell in each range the first one counts. *)
Definition one_fault (vs : list value) : Prop := length (filter (fun v => match fault v with Some _ => true | None => false end) vs) <= 1.
Lemma one_fault_same : forall vs, one_fault vs -> last_fault vs = first_fault vs.
Proof.
  unfold one_fault, LgSpec.last_fault, LgSpec.first_fault. induction vs as [|v vs IH]; intros H; [reflexivity|].
  assert (A : forall (l : list (option N)) x, first_some (l ++ [x]) = over (first_some l) x).
  { induction l as [|y l IHl]; intros x; [destruct x; reflexivity|]. cbn. destruct y; auto. }
  cbn [map rev filter first_some] in *. rewrite A. destruct (fault v) as [e|] eqn:Fv.
  - cbn [length] in H. assert (Z : length (filter (fun v => match fault v with Some _ => true | None => false end) vs) = 0) by lia.
    assert (E : first_some (rev (map fault vs)) = None).
    { rewrite <- map_rev. assert (Q : forall w, In w (rev vs) -> fault w = None).
      { intros w Hw. apply in_rev in Hw. destruct (fault w) eqn:Fw; auto. exfalso.
        apply length_zero_iff_nil in Z. assert (I : In w (filter (fun v => match fault v with Some _ => true | None => false end) vs)) by (apply filter_In; rewrite Fw; auto).
        rewrite Z in I. exact I. }
      clear - Q. induction (rev vs) as [|w l IHl]; [reflexivity|]. cbn. rewrite (Q w (or_introl eq_refl)). apply IHl. intros; apply Q; now right. }
    rewrite E. reflexivity.
  - rewrite IH by auto. destruct (first_some (map fault vs)); reflexivity.
Qed.
Lemma first_of_firsts : forall vss, first_some (map first_fault vss) = first_fault (concat vss).
Proof. induction vss as [|vs vss IH]; [reflexivity|]. cbn [map concat first_some]. rewrite first_fault_app, <- IH. destruct (first_fault vs); reflexivity. Qed.

(** Two values: exclusive or by AND, OR and NOT. *)
Lemma single_all : forall h, single T h -> lone T h /\ all_values h = values_of h /\
  exists r, literal_of h = rbind r (fun s => Ok (VS s)) /\ values_of h = rbind r (fun s => Ok [VS s]).
Proof.
  intros h S1. destruct h as [s| | |[[[[s|g]|r]|]|e|]]; cbn in *; try contradiction; repeat split; unfold LgModel.literal_of; cbn.
  - exists s. destruct s; auto.
  - exists (Ok s). auto.
  - exists (Ok (SErr K_CALC)). auto.
  - exists (Err e). auto.
  - exists Panic. auto.
Qed.
End Proofs.
