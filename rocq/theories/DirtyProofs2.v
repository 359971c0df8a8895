(** Proofs about DirtyModel.v: scheduling, and the path for spilled cells. *)
From Verif Require Import Base Maps ListSort SchedModel SchedProofs2 EdgeModel EdgeSpec EdgeProofs EdgeProofs2
  IntervalModel IntervalProofs StripeModel StripeSpec StripeProofs DirtyModel DirtySpec DirtyProofs.
From Coq Require Import ZifyN ZifyNat ZifyBool.

Lemma scheduled_in : forall g st v,
  In v (scheduled g st) <-> g_live g v = true /\ g_formula g v = true /\ (In v (dirty st) \/ In v (g_volatile g)).
Proof.
  intros g st v. unfold scheduled. rewrite sort_nat_in, dedup_in, filter_In, in_app_iff, Bool.andb_true_iff. tauto.
Qed.

Theorem mark_schedules : forall g es rs srcs, built g es rs ->
  exists n aff, forall fuel, n <= fuel -> forall st, ddepth st = 0 ->
  exists st', mark_dirty_many fuel g srcs st = Some (aff, st') /\ NoDup aff
    /\ (forall v, In v aff <-> reach (reads_of es rs (g_pos g)) srcs v)
    /\ (forall v, In v (scheduled g st') <->
          In v (scheduled g st) \/
          (g_live g v = true /\ g_formula g v = true /\ reach (reads_of es rs (g_pos g)) srcs v)).
Proof.
  intros g es rs srcs B.
  destruct (mark_now_exact g _ (built_tracks g es rs B) srcs) as (n & aff & ND & Haff & Hn).
  exists n, aff. intros fuel L st D. unfold mark_dirty_many. rewrite D; cbn [Nat.ltb Nat.leb].
  rewrite (Hn fuel L st). eexists; split; [reflexivity|]. split; [exact ND|]. split; [exact Haff|].
  intros v. rewrite !scheduled_in; cbn [dirty]. rewrite in_app_iff, Haff. tauto.
Qed.

(** ** Spilled cells *)
Lemma legal_app : forall P os o r, legal P os r -> (forall r', P o r') -> legal P (os ++ [o]) r.
Proof. intros P os; induction os as [|x os IH]; intros o r H Ho; cbn in *; [auto|]. destruct H; split; auto. Qed.

Lemma folded_built : forall g es rs, built g es rs ->
  exists es', built (folded g) es' rs /\ (forall f v, spec_run es' f v <-> spec_run es f v)
    /\ forall v, base_deps (folded g) v = edge_deps (folded g) v.
Proof.
  intros g es rs B. unfold folded. destruct (0 <? ops (delta (g_store g))) eqn:Z.
  - exists (es ++ [ORebuild]). split; [|split].
    + destruct B as [B1 [B2 B2'] B3 B4 B5 B6]. constructor; cbn [g_store g_index g_blocks g_pos g_names]; auto.
      * unfold run. rewrite fold_left_app. cbn [fold_left step]. rewrite B1. reflexivity.
      * split; apply legal_app; (assumption || (intros; exact I)).
      * intros v n Hn. unfold spec_run; rewrite fold_left_app; cbn [fold_left spec_step]. apply (B6 v n Hn).
    + intros f v. unfold spec_run; rewrite fold_left_app; reflexivity.
    + intros v. rewrite edge_deps_eq. unfold base_deps, in_edges_merged; cbn [g_store].
      unfold rebuild. rewrite Z; cbn [orb delta ops slab_new base]. reflexivity.
  - exists es. split; [|split].
    + destruct B as [B1 B2 B3 B4 B5 B6]; constructor; auto.
    + reflexivity.
    + intros v. rewrite edge_deps_eq. unfold base_deps, in_edges_merged; cbn [g_store].
      destruct (ops (delta (g_store g))); [reflexivity|discriminate].
Qed.

Definition inside (b : bounds) (r c : N) : Prop := (b_r0 b <= r <= b_r1 b)%N /\ (b_c0 b <= c <= b_c1 b)%N.
Definition bfits (b : bounds) : Prop := fits (b_r1 b) /\ fits (b_c1 b).

Lemma bounds_fold : forall g srcs m,
  (forall v sheet row col, g_pos g v = Some (sheet, (row, col)) -> fits row /\ fits col) ->
  let m' := fold_left (fun m s => match g_pos g s with
                        | None => m
                        | Some (sheet, (r, c)) =>
                            mput N.eqb m sheet (match mget N.eqb m sheet with
                                                | Some b => grow r c b
                                                | None => Bounds r r c c
                                                end)
                        end) srcs m in
  (forall sheet b, In (sheet, b) m -> bfits b) ->
  (forall sheet b, In (sheet, b) m' -> bfits b) /\
  (forall sheet b, mget N.eqb m sheet = Some b -> exists b', mget N.eqb m' sheet = Some b' /\
     forall r c, inside b r c -> inside b' r c) /\
  (forall s sheet r c, In s srcs -> g_pos g s = Some (sheet, (r, c)) ->
     exists b, mget N.eqb m' sheet = Some b /\ inside b r c).
Proof.
  intros g srcs; induction srcs as [|s srcs IH]; intros m P m' Fm.
  - subst m'; cbn [fold_left]. split; [exact Fm|]. split; [intros sheet b H; exists b; auto|intros ? ? ? ? []].
  - cbn [fold_left] in m'.
    destruct (g_pos g s) as [[sheet [r c]]|] eqn:E.
    + set (b0 := match mget N.eqb m sheet with Some b => grow r c b | None => Bounds r r c c end) in *.
      destruct (P s sheet r c E) as [F1 F2].
      assert (Fb : bfits b0).
      { unfold b0. destruct (mget N.eqb m sheet) as [b|] eqn:G.
        - apply (mget_In N.eqb N_eqb_spec) in G. destruct (Fm _ _ G) as [A B].
          unfold bfits, fits, grow in *; cbn. lia.
        - unfold bfits, fits in *; cbn; lia. }
      destruct (IH (mput N.eqb m sheet b0) P) as (A & B & C).
      { intros sh b Hb. destruct Hb as [Hb|Hb]; [injection Hb as <- <-; exact Fb|].
        apply (mdel_In N.eqb N_eqb_spec) in Hb. apply (Fm sh), Hb. }
      split; [exact A|]. split.
      * intros sh b Hb. destruct (N.eq_dec sheet sh) as [<-|Ne].
        -- destruct (B sheet b0 (mget_put_same N.eqb N_eqb_spec _ _ _)) as (b' & G & K).
           exists b'; split; [exact G|]. intros r' c' Hi; apply K. unfold b0; rewrite Hb.
           unfold inside, grow in *; cbn; lia.
        -- apply (B sh b). rewrite (mget_put_other N.eqb N_eqb_spec) by exact Ne. exact Hb.
      * intros s' sh r' c' [<-|Hs] E'.
        -- rewrite E in E'; injection E' as <- <- <-.
           destruct (B sheet b0 (mget_put_same N.eqb N_eqb_spec _ _ _)) as (b' & G & K).
           exists b'; split; [exact G|]. apply K. unfold b0. destruct (mget N.eqb m sheet); unfold inside, grow; cbn; lia.
        -- apply (C s' sh r' c' Hs E').
    + destruct (IH m P Fm) as (A & B & C). split; [exact A|]. split; [exact B|].
      intros s' sh r' c' [<-|Hs] E'; [congruence|]. apply (C s' sh r' c' Hs E').
Qed.

Definition value_stack (g : graph) (srcs : list nat) : list nat :=
  flat_map (fun s => base_deps g s ++ g_names g s) srcs
  ++ flat_map (fun e => rect_deps g (fst e) (b_r0 (snd e)) (b_c0 (snd e)) (b_r1 (snd e)) (b_c1 (snd e)))
              (bounds_by_sheet g srcs).

Lemma propagate_ext : forall deps deps', (forall v, deps v = deps' v) ->
  forall fuel vis st, propagate fuel deps vis st = propagate fuel deps' vis st.
Proof.
  intros deps deps' E fuel; induction fuel as [|n IH]; intros vis [|x st]; cbn; try reflexivity.
  rewrite E. destruct (memb x vis); apply IH.
Qed.

Lemma reach_rel_ext : forall (R R' : reads) srcs, (forall f v, R f v <-> R' f v) -> forall v, reach R srcs v -> reach R' srcs v.
Proof.
  intros R R' srcs E v H; induction H as [v H|u f H IH K]; [apply reach_src, H|].
  apply (reach_read R' srcs u); [exact IH|apply E, K].
Qed.

(** Every dependent of a spilled cell that changed is marked. *)
Theorem values_complete : forall g es rs srcs, built g es rs ->
  exists n aff, forall fuel, n <= fuel -> forall st, ddepth st = 0 ->
  exists st', mark_values fuel g srcs st = Some (aff, st') /\ NoDup aff
    /\ (forall v, reach (reads_of es rs (g_pos g)) srcs v -> In v aff)
    /\ (forall v, In v (dirty st') <-> In v (dirty st) \/ In v aff).
Proof.
  intros g es rs srcs B. destruct srcs as [|s0 srcs0].
  { exists 0, []. intros fuel _ st D. exists st. split; [reflexivity|]. split; [constructor|]. split.
    - intros v H; destruct (reach_nil _ _ H).
    - cbn; tauto. }
  set (srcs := s0 :: srcs0).
  destruct (folded_built g es rs B) as (es' & B' & Es & Eb).
  destruct (built_tracks _ _ _ B') as [T N0].
  set (h := folded g) in *.
  assert (Ed : forall v, base_deps h v ++ range_deps h v = dependents h v) by (intros v; unfold dependents; rewrite Eb; reflexivity).
  destruct (enough_fuel (dependents h) (universe h) (value_stack h srcs) (dependents_universe h)) as (n & out & Hn).
  exists n, (dedup (srcs ++ out)). intros fuel L st D. eexists.
  split; [|split; [apply dedup_NoDup|split]].
  - unfold mark_values, srcs. rewrite D; cbn [Nat.ltb Nat.leb]. cbv zeta. fold srcs. fold h. fold (value_stack h srcs).
    rewrite (propagate_ext _ _ Ed), (Hn fuel L). reflexivity.
  - pose proof (Hn n (le_n n)) as P.
    assert (Rel : forall f v, reads_of es rs (g_pos g) f v <-> reads_of es' rs (g_pos h) f v).
    { intros f v; unfold reads_of. rewrite Es. reflexivity. }
    intros v H. apply (reach_rel_ext _ _ _ Rel) in H. apply dedup_in, in_or_app.
    induction H as [v H|u f H IH K]; [left; exact H|right].
    destruct IH as [Hu|Hu].
    + apply (propagate_more _ _ _ _ _ P). right. unfold value_stack.
      apply T in K. unfold dependents in K. apply in_app_or in K. destruct K as [K|K].
      * apply in_or_app; left. apply in_flat_map; exists u; split; [exact Hu|]. rewrite Eb. apply in_or_app; auto.
      * apply in_or_app; right. unfold range_deps in K.
        destruct (g_pos h u) as [[sheet [r c]]|] eqn:Eu; [|destruct K].
        destruct (bounds_fold h srcs [] (bu_places _ _ _ B')) as (A1 & _ & A3); [intros ? ? []|].
        destruct (A3 u sheet r c Hu Eu) as (b & G & [I1 I2]).
        fold (bounds_by_sheet h srcs) in G, A1.
        apply in_flat_map. exists (sheet, b). pose proof (mget_In N.eqb N_eqb_spec _ _ _ G) as Gi.
        split; [exact Gi|]. cbn [fst snd]. destruct (A1 _ _ Gi) as [F1 F2].
        unfold rect_deps in *. apply in_map_iff in K. destruct K as (d & <- & K). apply in_map.
        rewrite (bu_index _ _ _ B') in *.
        destruct (bu_places _ _ _ B' _ _ _ _ Eu) as [Fr Fc].
        destruct (collect_exact (g_blocks h) rs sheet r c r c (bu_shapes _ _ _ B') (N.le_refl _) (N.le_refl _) Fr Fc) as [_ Q].
        rewrite Q in K. destruct K as (rg & row & col & Hr & Ha & Hb & Hc).
        destruct (collect_exact (g_blocks h) rs sheet (b_r0 b) (b_c0 b) (b_r1 b) (b_c1 b) (bu_shapes _ _ _ B')
                    ltac:(lia) ltac:(lia) F1 F2) as [_ Q'].
        apply Q'. exists rg, row, col. split; [exact Hr|]. split; [lia|]. split; [lia|exact Hc].
    + apply (propagate_closed _ _ _ _ _ P) with (v := u); [intros ? ? []|exact Hu|]. apply T, K.
  - intros v; cbn [dirty]. apply in_app_iff.
Qed.
