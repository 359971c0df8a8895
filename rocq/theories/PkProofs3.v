(** try_add_edge: what an accepted edge keeps, refusals, termination. *)
From Coq Require Import Permutation.
From Verif Require Import Base Maps ListSort SchedProofs2 LeaseProofs2 EdgeProofs EdgeProofs2 PkModel PkSpec PkProofs PkProofs2.

Lemma ensure_id : forall n o, In n o -> ensure n o = o.
Proof. intros n o H. unfold ensure. destruct (place n o) eqn:E; auto. apply place_none in E. contradiction. Qed.
Definition closed (g : view) (o : list nat) : Prop := forall a b, In b (succs g a) -> In a o -> In b o.

(** What is reached from y is found as long as it can still lead to x. *)
Lemma found : forall g o affected px x y, NoDup o -> respects (succs g) o -> closed g o ->
  place x o = Some px -> In y o -> In y affected ->
  (forall u v, In u affected -> In v (succs g u) -> low px o v -> In v affected) ->
  forall v, leads (succs g) y v -> leads (succs g) v x -> In v affected /\ In v o.
Proof.
  intros g o affected px x y ND R CL Ex Hy Ha C v H. induction H as [y|y v w H IH Hw]; intros HX; auto.
  assert (HX' : leads (succs g) v x).
  { clear - Hw HX. induction HX as [w|w z q HX IH Hq]; [eapply leads_step; [constructor|exact Hw]|].
    eapply leads_step; [apply IH; exact Hw|exact Hq]. }
  destruct (IH Hy Ha HX') as [IA IO].
  assert (Hwo : In w o) by (apply (CL v); auto).
  destruct (place w o) as [pw|] eqn:Ew; [|apply place_none in Ew; contradiction].
  split; auto. apply (C v w); auto. exists pw. split; auto.
  apply (leads_before (succs g) o w x ND R CL HX Hwo pw px Ew Ex).
Qed.

Lemma respects_acyclic : forall g o, NoDup o -> agree g -> respects (succs g) o -> acyclic_on g o.
Proof.
  intros g o ND AG R. exists (fun n => place_or o n). intros n p Hn Hp Hin.
  assert (Hs : In n (succs g p)).
  { apply (count_occ_In Nat.eq_dec) in Hin. rewrite <- AG in Hin. now apply count_occ_In in Hin. }
  destruct (R p n Hs Hp Hn) as (i & j & Hij & Ei & Ej). unfold place_or.
  apply (nth_place _ _ _ ND) in Ei. apply (nth_place _ _ _ ND) in Ej. now rewrite Ei, Ej.
Qed.
Lemma filter_all : forall A (f : A -> bool) l, (forall a, In a l -> f a = true) -> filter f l = l.
Proof.
  intros A f l. induction l as [|a l IH]; cbn; intros H; auto. rewrite (H a) by auto. f_equal. apply IH. auto.
Qed.
Lemma rebuild_respects : forall g o, NoDup o -> agree g -> respects (succs g) o -> (forall n, In n o -> there g n = true) ->
  exists o', rebuild_full (length o) g o = KDone o' /\ Permutation o' o /\ respects (succs g) o'.
Proof.
  intros g o ND AG R T. destruct (rebuild_ok g o (length o) ND AG (le_n _)) as (o' & E & P & R').
  rewrite (filter_all _ _ _ T) in *. exists o'. split; auto. split; auto. apply R'. now apply respects_acyclic.
Qed.

Lemma try_refuses : forall fuel g budget x y o o', NoDup o -> agree g -> respects (succs g) o -> closed g o ->
  (forall n, In n o -> there g n = true) -> In x o -> In y o ->
  try_add fuel g budget x y o = PkOk o' -> ~ leads (succs g) y x.
Proof.
  induction fuel as [|fuel IH]; intros g budget x y o o' ND AG R CL T Hx Hy; cbn [try_add];
    (destruct (Nat.eqb_spec x y) as [|Hxy]; [discriminate|]);
    cbv zeta; rewrite (ensure_id x o Hx), (ensure_id y o Hy);
    destruct (place x o) as [px|] eqn:E1; try discriminate;
    destruct (place y o) as [py|] eqn:E2; try discriminate;
    (destruct (Nat.ltb_spec px py) as [L|L];
     [intros _ HL; pose proof (leads_before (succs g) o y x ND R CL HL Hy py px E2 E1); lia|]).
  - cbn [search]. discriminate.
  - assert (LY : low px o y) by (exists py; auto).
    pose proof (search_sound g budget px x y o (S fuel) [y] [] [] (search_start g px x y o LY Hxy) (fun _ => eq_refl) Hxy) as SS.
    destruct (search (S fuel) g budget px x y o [y] [] []) as [aff|p| |] eqn:ES; try discriminate.
    + intros _ HL. destruct SS as (S1 & S2 & S3 & S4 & S5).
      destruct (found g o aff px x y ND R CL E1 Hy S2 S5 x HL (leads_refl _ x)) as [F _]. contradiction.
    + destruct (rebuild_respects g o ND AG R T) as (o3 & E3 & P3 & R3). rewrite E3.
      assert (I3 : forall n, In n o3 <-> In n o) by (intros n; split; apply Permutation_in; [|apply Permutation_sym]; exact P3).
      apply IH; auto.
      * eapply Permutation_NoDup; [apply Permutation_sym, P3|exact ND].
      * intros a b Hb Ha. apply I3. apply I3 in Ha. eapply CL; eauto.
      * intros n Hn. apply T. now apply I3.
      * now apply I3.
      * now apply I3.
Qed.

(** The search needs no more fuel than stack plus the unseen successors. *)
Section Fuel.
Variable g : view.
Variable budget px x y : nat.
Variable o : list nat.
Hypothesis ND : NoDup o.
Definition weight (visited : list nat) : nat :=
  list_sum (map (fun u => length (succs g u)) (filter (fun u => negb (memb u visited)) o)).
Lemma weight_visit : forall u visited, In u o -> ~ In u visited ->
  weight (u :: visited) + length (succs g u) = weight visited.
Proof.
  intros u visited Hu Hv. unfold weight. revert Hu. generalize ND. generalize o. induction o0 as [|a l IH]; [intros _ []|].
  intros N1 Hu. apply NoDup_cons_iff in N1. destruct N1 as [Na Nl].
  cbn [filter]. destruct (Nat.eq_dec a u) as [->|Hne].
  - assert (E1 : memb u (u :: visited) = true) by (apply memb_spec; now left).
    assert (E2 : memb u visited = false) by now apply memb_false.
    rewrite E1, E2. cbn [negb map list_sum fold_right].
    assert (E3 : filter (fun v => negb (memb v (u :: visited))) l = filter (fun v => negb (memb v visited)) l).
    { apply filter_ext_in. intros b Hb. f_equal. cbn [memb existsb]. destruct (Nat.eqb_spec b u); [subst; contradiction|reflexivity]. }
    rewrite E3. unfold list_sum. cbn. lia.
  - destruct Hu as [|Hu]; [congruence|]. specialize (IH Nl Hu).
    assert (E1 : memb a (u :: visited) = memb a visited).
    { cbn [memb existsb]. destruct (Nat.eqb_spec a u); [congruence|reflexivity]. }
    rewrite E1. destruct (memb a visited); cbn [negb map]; auto.
    unfold list_sum in *. cbn [fold_right]. lia.
Qed.
Lemma search_ends : forall fuel stack visited parent, (forall n, In n stack -> In n o) ->
  length stack + weight visited <= fuel -> search fuel g budget px x y o stack visited parent <> DFuel.
Proof.
  induction fuel as [|fuel IH]; intros stack visited parent HS HF.
  - destruct stack; cbn in *; [discriminate|lia].
  - destruct stack as [|u stack]; [discriminate|]. cbn [search].
    destruct (memb u visited) eqn:M; [apply IH; [intros; apply HS; now right|cbn in HF; lia]|].
    destruct (budget <? S (length visited)); [discriminate|]. destruct (u =? x); [discriminate|].
    apply memb_false in M. apply IH.
    + intros n Hn. apply in_app_or in Hn. destruct Hn as [Hn|Hn]; [|apply HS; now right].
      rewrite <- in_rev in Hn. apply filter_In in Hn. destruct Hn as [_ Hn].
      destruct (place n o) as [p|] eqn:E; [|discriminate]. apply place_nth in E. eapply nth_error_In; eauto.
    + rewrite app_length, rev_length. pose proof (weight_visit u visited (HS u (or_introl eq_refl)) M).
      match goal with |- context [filter ?f (succs g u)] => pose proof (filter_len nat f (succs g u)) end.
      cbn in HF. lia.
Qed.
Lemma search_within : forall fuel stack visited parent, length o <= budget -> NoDup visited ->
  (forall n, In n visited \/ In n stack -> In n o) -> search fuel g budget px x y o stack visited parent <> DOver.
Proof.
  induction fuel as [|fuel IH]; intros stack visited parent HB NV HS; (destruct stack as [|u stack]; [discriminate|]); cbn [search].
  - discriminate.
  - destruct (memb u visited) eqn:M; [apply IH; auto; intros n [H|H]; apply HS; auto; right; now right|].
    apply memb_false in M.
    assert (Hl : length (u :: visited) <= length o).
    { apply NoDup_incl_length; [constructor; auto|]. intros n [<-|H]; apply HS; auto. right; now left. }
    cbn [length] in Hl. destruct (Nat.ltb_spec budget (S (length visited))); [lia|].
    destruct (u =? x); [discriminate|]. apply IH; auto; [constructor; auto|].
    intros n [[<-|H0]|H0]; [apply HS; right; now left|apply HS; now left|].
    apply in_app_or in H0. destruct H0 as [H0|H0]; [|apply HS; right; now right].
    rewrite <- in_rev in H0. apply filter_In in H0. destruct H0 as [_ H0].
    destruct (place n o) as [p|] eqn:E; [|discriminate]. apply place_nth in E. eapply nth_error_In; eauto.
Qed.
End Fuel.

Lemma try_ends : forall g budget x y o, NoDup o -> agree g -> In x o -> In y o -> length o <= budget -> x <> y ->
  forall fuel, S (1 + weight g o []) <= fuel -> try_add fuel g budget x y o <> PkFuel.
Proof.
  intros g budget x y o ND AG Hx Hy HB Hxy fuel HF E. destruct fuel as [|fuel]; [lia|].
  revert E. cbn [try_add]. destruct (Nat.eqb_spec x y); [contradiction|].
  cbv zeta. rewrite (ensure_id x o Hx), (ensure_id y o Hy).
  destruct (place x o) as [px|] eqn:E1; [|apply place_none in E1; contradiction].
  destruct (place y o) as [py|] eqn:E2; [|apply place_none in E2; contradiction].
  destruct (px <? py); [discriminate|].
  pose proof (search_ends g budget px x y o ND (S fuel) [y] [] []) as HE.
  pose proof (search_within g budget px x y o (S fuel) [y] [] [] HB (NoDup_nil _)) as HO.
  destruct (search (S fuel) g budget px x y o [y] [] []); try discriminate.
  - exfalso. apply HO; auto. intros m [[]|[<-|[]]]. exact Hy.
  - exfalso. apply HE; auto; [intros m [<-|[]]; exact Hy|cbn [length]; lia].
Qed.

(** Within the budget an answer is always found: a cycle exactly when y leads to x. *)
Lemma try_decides : forall g budget x y o, NoDup o -> agree g -> respects (succs g) o -> closed g o ->
  (forall n, In n o -> there g n = true) -> In x o -> In y o -> length o <= budget -> x <> y ->
  exists n, forall fuel, n <= fuel ->
    (leads (succs g) y x -> exists p, try_add fuel g budget x y o = PkCycle (Some p)) /\
    (~ leads (succs g) y x -> exists o', try_add fuel g budget x y o = PkOk o').
Proof.
  intros g budget x y o ND AG R CL T Hx Hy HB Hxy. exists (S (1 + weight g o [])). intros fuel HF.
  assert (D : (exists p, try_add fuel g budget x y o = PkCycle (Some p) /\ leads (succs g) y x) \/
              (exists o', try_add fuel g budget x y o = PkOk o')).
  { destruct fuel as [|fuel]; [lia|].
    destruct (try_add (S fuel) g budget x y o) as [o'|path| |] eqn:E.
    - right. eauto.
    - left. destruct (try_cycle _ _ _ _ _ _ ND AG path Hxy E) as (p & l & -> & -> & HH & W). exists (l ++ [x]). split; auto.
      clear - HH W. assert (G : forall l a, walk (succs g) (a :: l) -> forall b, In b (a :: l) -> leads (succs g) a b).
      { intros l0. induction l0 as [|c l0 IH]; intros a H b [<-|Hb]; try constructor; [destruct Hb|].
        destruct H as [H1 H2]. specialize (IH c H2 b Hb). clear - H1 IH.
        induction IH as [c|c d e IH1 IH2 He]; [eapply leads_step; [constructor|exact H1]|].
        eapply leads_step; [apply IH2; exact H1|exact He]. }
      destruct l as [|a l]; cbn in *; injection HH as ->; [constructor|].
      apply (G (l ++ [x]) y W). right. apply in_or_app. right. now left.
    - exfalso. now apply (try_no_underflow (S fuel) g budget x y o ND AG).
    - exfalso. now apply (try_ends g budget x y o ND AG Hx Hy HB Hxy (S fuel) HF). }
  split.
  - intros HL. destruct D as [(p & E & _)|(o' & E)]; [eauto|]. exfalso.
    apply (try_refuses fuel g budget x y o o' ND AG R CL T Hx Hy E HL).
  - intros HN. destruct D as [(p & _ & HL)|(o' & E)]; [contradiction|eauto].
Qed.

(** An accepted edge keeps the order when the window behind x is clear. *)
Definition plus_edge (succ : nat -> list nat) (x y : nat) (u : nat) : list nat :=
  if u =? x then y :: succ u else succ u.
Lemma affected_few : forall o affected px py x y, NoDup o -> NoDup affected -> place x o = Some px -> place y o = Some py ->
  ~ In x affected -> (forall n, In n affected -> exists p, place n o = Some p /\ py <= p <= px) -> length affected <= px - py.
Proof.
  intros o affected px py x y ND NA E1 E2 Hx H.
  assert (L : length affected <= length (skipn py (firstn px o))).
  { apply NoDup_incl_length; auto. intros n Hn. destruct (H n Hn) as (p & Ep & Hp).
    assert (p <> px).
    { intros ->. apply place_nth in Ep. apply place_nth in E1. congruence. }
    apply place_nth in Ep. apply skipn_nth_in with (i := p); [|lia].
    rewrite nth_firstn by lia. exact Ep. }
  rewrite skipn_length, firstn_length in L. lia.
Qed.
Lemma try_keeps : forall fuel g budget x y o o' px py, NoDup o -> agree g -> respects (succs g) o -> closed g o ->
  (forall n, In n o -> there g n = true) -> length o <= budget ->
  place x o = Some px -> place y o = Some py ->
  (forall u v pv, leads (succs g) y u -> In v (succs g u) -> place v o = Some pv -> ~ (px < pv <= px + (px - py))) ->
  try_add fuel g budget x y o = PkOk o' -> respects (plus_edge (succs g) x y) o'.
Proof.
  intros fuel g budget x y o o' px py ND AG R CL T HB E1 E2 W E.
  assert (Hx : In x o) by (apply place_nth in E1; eapply nth_error_In; eauto).
  assert (Hy : In y o) by (apply place_nth in E2; eapply nth_error_In; eauto).
  destruct (try_ok fuel g budget x y o ND AG o' E) as (N' & B & I1 & I2).
  assert (KEEP : respects (succs g) o').
  { revert E. destruct fuel as [|fuel]; cbn [try_add];
    (destruct (Nat.eqb_spec x y) as [|Hxy]; [discriminate|]);
    cbv zeta; rewrite (ensure_id x o Hx), (ensure_id y o Hy), E1, E2;
    (destruct (Nat.ltb_spec px py) as [L|L]; [intros Q; injection Q as <-; exact R|]).
    - cbn [search]. discriminate.
    - assert (LY : low px o y) by (exists py; auto).
      pose proof (search_sound g budget px x y o (S fuel) [y] [] [] (search_start g px x y o LY Hxy) (fun _ => eq_refl) Hxy) as SS.
      pose proof (search_within g budget px x y o (S fuel) [y] [] [] HB (NoDup_nil _)) as HO.
      destruct (search (S fuel) g budget px x y o [y] [] []) as [aff|p| |] eqn:ES; try discriminate.
      + intros Q. injection Q as <-. destruct SS as (S1 & S2 & S3 & S4 & S5).
        intros u v Hv Hu Hw.
        apply (Permutation_in _ (splice_perm px aff o)) in Hu. apply (Permutation_in _ (splice_perm px aff o)) in Hw.
        pose proof (R u v Hv Hu Hw) as Buv.
        destruct (place v o) as [pv|] eqn:Ev; [|apply place_none in Ev; contradiction].
        apply (splice_keeps o aff px ND u v pv); auto; [now apply place_nth| |].
        * intros Hva. destruct (S4 v Hva) as [(p & Ep & Hp) _]. congruence.
        * intros Hua Hva. assert (px < pv).
          { destruct (Nat.lt_ge_cases px pv); auto. exfalso. apply Hva. apply (S5 u v); auto. exists pv. auto. }
          assert (HN : ~ (px < pv <= px + (px - py))) by (apply (W u v pv); auto; now apply S4).
          assert (length (filter (fun n => memb n aff) o) <= px - py).
          { apply Nat.le_trans with (length aff).
            - apply NoDup_incl_length; [now apply NoDup_filter|]. intros n Hn. apply filter_In in Hn. now apply memb_spec.
            - apply (affected_few o aff px py x y); auto. intros n Hn. destruct (S4 n Hn) as [(p & Ep & Hp) HL].
              exists p. split; auto. split; auto.
              apply (leads_before (succs g) o y n ND R CL HL Hy py p E2 Ep). }
          lia.
      + exfalso. apply HO; auto. intros m [[]|[<-|[]]]. exact Hy. }
  intros u v Hv Hu Hw. unfold plus_edge in Hv. destruct (Nat.eqb_spec u x) as [->|]; [|now apply KEEP].
  destruct Hv as [<-|Hv]; [exact B|now apply KEEP].
Qed.

(** Over the budget with a rebuild that does not help, the call never answers. *)
Lemma rebuild_same : forall g o o1, NoDup o -> agree g -> rebuild_full (length o) g o = KDone o1 ->
  (forall n, In n o -> there g n = true) -> Permutation o1 o.
Proof.
  intros g o o1 ND AG E T. destruct (rebuild_ok g o (length o) ND AG (le_n _)) as (o' & E' & P & _).
  rewrite E in E'. injection E' as <-. now rewrite (filter_all _ _ _ T) in P.
Qed.
Lemma try_never : forall g budget x y o px py, place x o = Some px -> place y o = Some py -> py <= px -> x <> y ->
  (forall fuel, search fuel g budget px x y o [y] [] [] = DOver \/ search fuel g budget px x y o [y] [] [] = DFuel) ->
  rebuild_full (length o) g o = KDone o -> forall fuel, try_add fuel g budget x y o = PkFuel.
Proof.
  intros g budget x y o px py E1 E2 L Hxy HS HR.
  assert (Hx : In x o) by (apply place_nth in E1; eapply nth_error_In; eauto).
  assert (Hy : In y o) by (apply place_nth in E2; eapply nth_error_In; eauto).
  induction fuel as [|fuel IH]; cbn [try_add]; (destruct (Nat.eqb_spec x y); [contradiction|]);
    cbv zeta; rewrite (ensure_id x o Hx), (ensure_id y o Hy), E1, E2;
    (destruct (Nat.ltb_spec px py); [lia|]).
  - destruct (HS 0) as [-> | ->]; reflexivity.
  - destruct (HS (S fuel)) as [-> | ->]; auto. now rewrite HR.
Qed.
