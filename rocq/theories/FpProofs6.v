(** The region index: what queries return. *)
From Coq Require Import ZifyN ZifyNat ZifyBool Permutation.
From Verif Require Import Base Maps IntervalModel IntervalProofs FpModel FpSpec FpProofs FpProofs2 FpProofs3 FpProofs5.

Open Scope N_scope.

Lemma bucket_meet : forall n a a' b b', 0 < n -> a <= a' -> b <= b' -> a <= b' -> b <= a' ->
  exists k, a / n <= k <= a' / n /\ b / n <= k <= b' / n.
Proof.
  intros n a a' b b' P A B C D. exists (N.max (a / n) (b / n)).
  assert (a / n <= a' / n) by (apply N.div_le_mono; lia). assert (b / n <= b' / n) by (apply N.div_le_mono; lia).
  assert (a / n <= b' / n) by (apply N.div_le_mono; lia). assert (b / n <= a' / n) by (apply N.div_le_mono; lia). lia.
Qed.
Lemma div_low : forall n a, 0 < n -> a / n <= a.
Proof. intros n a P. apply N.div_le_upper_bound; [lia|]. nia. Qed.

Lemma ax_meets_norm : forall a b, ax_ok a -> ax_ok b -> ax_meets (ax_norm a) (ax_norm b) = ax_meets a b.
Proof.
  intros a b A B. apply eq_true_iff_eq. rewrite !meets_on by auto using norm_ok. split; intros (x & X & H1 & H2); exists x.
  - rewrite !norm_on in *. auto.
  - rewrite !norm_on. auto.
Qed.
Lemma meets_norm : forall a b, rg_ok a -> rg_ok b -> meets (norm a) (norm b) = meets a b.
Proof. intros a b [A1 A2] [B1 B2]. unfold meets, norm. cbn [sh rows cols]. now rewrite !ax_meets_norm. Qed.

Ltac in_list :=
  match goal with
  | |- In _ (_ ++ _) => apply in_or_app; first [left; solve [in_list] | right; in_list]
  | |- In _ (got k2_eqb _ _) => eapply got2_to; [eassumption|lia]
  | |- In _ (got k3_eqb _ _) => eapply got3_to; [eassumption|lia|lia]
  | |- In _ (got N.eqb _ _) => eassumption
  | |- In _ (walk2 _ _ _) => eapply walk2_in; [eassumption|unfold btw, any1; lia]
  | |- In _ (walk3 _ _ _) => eapply walk3_in; [eassumption|unfold btw, any2; lia]
  | |- In _ (tree_got _ _ _ _) => eapply tree_got_in; [eassumption|eassumption|lia|lia|lia]
  | |- In _ (walkt _ _ _ _ _) => eapply walkt_in; [eassumption|eassumption|unfold btw, any1; lia|lia|lia]
  | |- In _ (flat_map (got k3_eqb _) (buckets _ _ _ _ _ _ _)) => apply in_flat_map; eexists; split; [apply buckets_in; eexists; eexists; split; [reflexivity|split; eassumption]|eassumption]
  | |- In _ (flat_map _ (upto _ _)) => apply in_flat_map; eexists; split; [apply upto_in; eassumption|in_list]
  | |- In (Some _) (visits _) => apply visits_in; in_list
  | |- In (Some _) (vgot _ _ _) => apply visits_in; in_list
  | |- In (Some _) (vtree _ _ _ _) => apply vtree_in; in_list
  | |- In (Some _) (vwalkt _ _ _ _ _) => apply vwalkt_in; in_list
  | |- In (Some _) (vfilter _ _ _ _) => eapply vfilter_in; [eassumption|unfold btw; lia|unfold btw; lia]
  | |- In _ (if ?b then _ else _) => destruct b; in_list
  end.

Lemma all_ids : forall T (x : rindex T) s i e, nth_error (entries x) i = Some e -> sh (fst e) = s ->
  In (N.of_nat i) (map (fun p => N.of_nat (fst p)) (filter (fun p => N.eqb (sh (fst (snd p))) s) (combine (seq 0 (length (entries x))) (entries x)))).
Proof.
  intros T x s i e H S. apply in_map_iff. exists (i, e). split; [auto|]. apply filter_In. cbn [snd fst]. split; [|lia].
  assert (G : forall l k i, nth_error l i = Some e -> In ((k + i)%nat, e) (combine (seq k (length l)) l)).
  { clear. induction l as [|a l IH]; intros k i H; [destruct i; discriminate|]. cbn [length seq combine]. destruct i as [|i]; cbn [nth_error] in H.
    - injection H as ->. left. f_equal. lia.
    - right. replace (k + S i)%nat with (S k + i)%nat by lia. now apply IH. }
  apply (G (entries x) 0%nat i H).
Qed.

Section Complete.
  Variable T : Type.
  Variables br bc : N.
  Hypothesis pr : 0 < br.
  Hypothesis pc : 0 < bc.

  (** What the proofs of both queries need of an entry and a query of the shapes that
      the index knows. *)
  Lemma candidates_complete : forall (x : rindex T) q i e, inv br bc x -> rg_ok q -> nth_error (entries x) i = Some e ->
    meets (norm (fst e)) q = true -> In (N.of_nat i) (candidates q x).
  Proof.
    intros x q i e J Oq H M. destruct (i_filed _ _ _ J i e H) as [Oe F]. assert (One := norm_rok _ Oe).
    assert (JB := i_br _ _ _ J). assert (JC := i_bc _ _ _ J). assert (J6 := i_col_iv _ _ _ J). assert (J7 := i_row_iv _ _ _ J).
    destruct One as [O1 O2], Oq as [O3 O4]. set (id := N.of_nat i) in *.
    assert (SH : sh (fst e) = sh q). { unfold meets in M. cbn [norm sh] in M. lia. }
    unfold candidates. cbv zeta. rewrite JB, JC. destruct (norm (fst e)) as [s r c] eqn:NE.
    assert (s = sh q). { rewrite <- SH. unfold norm in NE. congruence. } subst s.
    unfold meets in M. cbn [sh rows cols] in *. rewrite N.eqb_refl in M. cbn [andb] in M. apply andb_true_iff in M. destruct M as [M1 M2].
    unfold filed in F. cbn [sh rows cols] in F. cbv zeta in F. rewrite JB, JC in F.
    destruct (rows q) as [qr|qr qr'|qr|qr|] eqn:QR, (cols q) as [qc|qc qc'|qc|qc|] eqn:QC; cbn [ax_ok] in *;
    try exact (all_ids T x (sh q) i e H SH);
    destruct r as [a|a a'|a|a|], c as [b|b b'|b|b|]; cbn [ax_meets ax_ok] in *; try match type of F with _ /\ _ => destruct F as [F F'] end; try solve [in_list].
    all: match goal with
         | O1 : ?a <= ?a' /\ _, O2 : ?b <= ?b' /\ _, F : forall i j, ?a / _ <= i <= _ -> ?b / _ <= j <= _ -> _ |- _ =>
           match type of O3 with
           | ?q <= ?q' /\ _ => destruct (bucket_meet br a a' q q' pr) as (k & K1 & K2); [lia|lia|lia|lia|]
           | ?q <= umax => (destruct (bucket_meet br a a' q q pr) as (k & K1 & K2); [lia|lia|lia|lia|]) || (destruct (bucket_meet br a a' q umax pr) as (k & K1 & K2); [lia|lia|lia|lia|])
           | True => destruct (bucket_meet br a a' a a' pr) as (k & K1 & K2); [lia|lia|lia|lia|]
           end;
           match type of O4 with
           | ?q <= ?q' /\ _ => destruct (bucket_meet bc b b' q q' pc) as (m & K3 & K4); [lia|lia|lia|lia|]
           | ?q <= umax => (destruct (bucket_meet bc b b' q q pc) as (m & K3 & K4); [lia|lia|lia|lia|]) || (destruct (bucket_meet bc b b' q umax pc) as (m & K3 & K4); [lia|lia|lia|lia|])
           | True => destruct (bucket_meet bc b b' b b' pc) as (m & K3 & K4); [lia|lia|lia|lia|]
           end;
           destruct (F k m K1 K3) as [F1 F2]; clear F
         end; try solve [in_list].
  Qed.
  Lemma bounded_complete : forall (x : rindex T) q i e vs, inv br bc x -> rg_ok q -> nth_error (entries x) i = Some e ->
    meets (norm (fst e)) q = true -> bounded_visits q x = Some vs -> In (Some (N.of_nat i)) vs.
  Proof.
    intros x q i e vs J Oq H M B. destruct (i_filed _ _ _ J i e H) as [Oe F]. assert (One := norm_rok _ Oe).
    assert (JB := i_br _ _ _ J). assert (JC := i_bc _ _ _ J). assert (J6 := i_col_iv _ _ _ J). assert (J7 := i_row_iv _ _ _ J).
    destruct One as [O1 O2], Oq as [O3 O4]. set (id := N.of_nat i) in *.
    assert (SH : sh (fst e) = sh q). { unfold meets in M. cbn [norm sh] in M. lia. }
    unfold bounded_visits in B. cbv zeta in B. rewrite JB, JC in B. destruct (norm (fst e)) as [s r c] eqn:NE.
    assert (s = sh q). { rewrite <- SH. unfold norm in NE. congruence. } subst s.
    unfold meets in M. cbn [sh rows cols] in *. rewrite N.eqb_refl in M. cbn [andb] in M. apply andb_true_iff in M. destruct M as [M1 M2].
    unfold filed in F. cbn [sh rows cols] in F. cbv zeta in F. rewrite JB, JC in F.
    destruct (rows q) as [qr|qr qr'|qr|qr|] eqn:QR, (cols q) as [qc|qc qc'|qc|qc|] eqn:QC; cbn [ax_ok] in *;
    try discriminate B; injection B as <-; unfold common;
    destruct r as [a|a a'|a|a|], c as [b|b b'|b|b|]; cbn [ax_meets ax_ok] in *; try match type of F with _ /\ _ => destruct F as [F F'] end; try solve [in_list].
    all: match goal with
         | O1 : ?a <= ?a' /\ _, O2 : ?b <= ?b' /\ _, F : forall i j, ?a / _ <= i <= _ -> ?b / _ <= j <= _ -> _ |- _ =>
           match type of O3 with
           | ?q <= ?q' /\ _ => destruct (bucket_meet br a a' q q' pr) as (k & K1 & K2); [lia|lia|lia|lia|]
           | ?q <= umax => (destruct (bucket_meet br a a' q q pr) as (k & K1 & K2); [lia|lia|lia|lia|]) || (destruct (bucket_meet br a a' q umax pr) as (k & K1 & K2); [lia|lia|lia|lia|])
           | True => destruct (bucket_meet br a a' a a' pr) as (k & K1 & K2); [lia|lia|lia|lia|]
           end;
           match type of O4 with
           | ?q <= ?q' /\ _ => destruct (bucket_meet bc b b' q q' pc) as (m & K3 & K4); [lia|lia|lia|lia|]
           | ?q <= umax => (destruct (bucket_meet bc b b' q q pc) as (m & K3 & K4); [lia|lia|lia|lia|]) || (destruct (bucket_meet bc b b' q umax pc) as (m & K3 & K4); [lia|lia|lia|lia|])
           | True => destruct (bucket_meet bc b b' b b' pc) as (m & K3 & K4); [lia|lia|lia|lia|]
           end;
           destruct (F k m K1 K3) as [F1 F2]; clear F;
           assert (k <= umax) by (assert (Q := div_low br a' pr); lia); assert (m <= umax) by (assert (Q := div_low bc b' pc); lia)
         end; try solve [in_list].
  Qed.
End Complete.

(** * Ids are of entries *)
Lemma all_ids_under : forall T (x : rindex T) s id, In id (map (fun p => N.of_nat (fst p)) (filter (fun p => N.eqb (sh (fst (snd p))) s) (combine (seq 0 (length (entries x))) (entries x)))) ->
  id < count x.
Proof.
  intros T x s id H. apply in_map_iff in H. destruct H as ([i e] & <- & H). apply filter_In in H. destruct H as [H _]. apply in_combine_l in H. apply in_seq in H. cbn [fst]. unfold count. lia.
Qed.
Ltac out_list J :=
  match goal with
  | H : In _ (_ ++ _) |- _ => apply in_app_or in H; destruct H as [H|H]; out_list J
  | H : In _ (got k2_eqb _ _) |- _ => eapply under_got; [apply k2_spec| |exact H]; apply J
  | H : In _ (got k3_eqb _ _) |- _ => eapply under_got; [apply k3_spec| |exact H]; apply J
  | H : In _ (got N.eqb _ _) |- _ => eapply under_got; [apply N_eqb_spec| |exact H]; apply J
  | H : In _ (walk2 _ _ _) |- _ => eapply walk2_under; [|exact H]; apply J
  | H : In _ (walk3 _ _ _) |- _ => eapply walk3_under; [|exact H]; apply J
  | H : In _ (tree_got _ _ _ _) |- _ => eapply tree_under; [|exact H]; apply J
  | H : In _ (walkt _ _ _ _ _) |- _ => eapply walkt_under; [|exact H]; apply J
  | H : In _ (flat_map _ _) |- _ => apply in_flat_map in H; destruct H as (? & _ & H); out_list J
  | H : In (Some _) (visits _) |- _ => apply visits_in in H; out_list J
  | H : In (Some _) (vgot _ _ _) |- _ => apply visits_in in H; out_list J
  | H : In (Some _) (vtree _ _ _ _) |- _ => apply vtree_in in H; out_list J
  | H : In (Some _) (vwalkt _ _ _ _ _) |- _ => apply vwalkt_in in H; out_list J
  | H : In (Some _) (vfilter _ _ _ _) |- _ => eapply vfilter_under; [|exact H]; apply J
  | H : In _ (if ?b then _ else _) |- _ => destruct b; out_list J
  end.
Lemma candidates_under : forall T br bc (x : rindex T) q id, inv br bc x -> In id (candidates q x) -> id < count x.
Proof.
  intros T br bc x q id J H. unfold candidates in H. cbv zeta in H.
  destruct (rows q), (cols q); try (eapply all_ids_under; exact H); out_list J.
Qed.
Lemma bounded_under : forall T br bc (x : rindex T) q vs id, inv br bc x -> bounded_visits q x = Some vs -> In (Some id) vs -> id < count x.
Proof.
  intros T br bc x q vs id J B H. unfold bounded_visits in B. cbv zeta in B.
  destruct (rows q), (cols q); try discriminate B; injection B as <-; unfold common in H; out_list J.
Qed.

(** * The results *)
Definition pick {T} (q : region) (en : list (region * T)) (id : N) : list (region * T) :=
  match nth_error en (N.to_nat id) with Some e => if meets (fst e) q then [e] else [] | None => [] end.
Lemma exact_pick : forall T q (en : list (region * T)) ids, (forall id, In id ids -> id < N.of_nat (length en)) ->
  exact q en ids = Ok (flat_map (pick q en) ids).
Proof.
  intros T q en. induction ids as [|id ids IH]; intros H; [reflexivity|]. cbn [exact flat_map]. unfold pick at 1.
  destruct (nth_error en (N.to_nat id)) as [e|] eqn:E.
  - rewrite IH by (intros j Hj; apply H; now right). cbn [rbind]. destruct (meets (fst e) q); reflexivity.
  - apply nth_error_None in E. assert (K := H id (or_introl eq_refl)). lia.
Qed.
Lemma pick_filter : forall T q (en : list (region * T)) l, flat_map (pick q en) l = flat_map (pick q en) (filter (fun id => match pick q en id with [] => false | _ => true end) l).
Proof. intros T q en. induction l as [|a l IH]; [auto|]. cbn [flat_map filter]. destruct (pick q en a) eqn:E; cbn [flat_map]; rewrite ?E, IH; auto. Qed.
Lemma pick_all : forall T q (en : list (region * T)), flat_map (pick q en) (map N.of_nat (seq 0 (length en))) = filter (fun e => meets (fst e) q) en.
Proof.
  intros T q en. assert (G : forall suf pre, en = pre ++ suf -> flat_map (pick q en) (map N.of_nat (seq (length pre) (length suf))) = filter (fun e => meets (fst e) q) suf).
  { induction suf as [|e suf IH]; intros pre E; [auto|]. cbn [length seq map flat_map filter]. unfold pick at 1. rewrite Nnat.Nat2N.id.
    assert (N1 : nth_error en (length pre) = Some e) by (rewrite E, nth_error_app2 by lia; now rewrite PeanoNat.Nat.sub_diag). rewrite N1.
    specialize (IH (pre ++ [e])). rewrite app_length in IH. cbn [length] in IH. rewrite PeanoNat.Nat.add_1_r in IH. rewrite IH by (rewrite E, <- app_assoc; auto).
    destruct (meets (fst e) q); auto. }
  apply (G en []). reflexivity.
Qed.
Lemma exact_perm : forall T q (en : list (region * T)) ids, NoDup ids -> (forall id, In id ids -> id < N.of_nat (length en)) ->
  (forall i e, nth_error en i = Some e -> meets (fst e) q = true -> In (N.of_nat i) ids) ->
  exists l, exact q en ids = Ok l /\ Permutation l (filter (fun e => meets (fst e) q) en).
Proof.
  intros T q en ids D U C. rewrite exact_pick by auto. eexists. split; [reflexivity|]. rewrite <- pick_all, pick_filter, (pick_filter T q en (map _ _)).
  apply Permutation_flat_map. apply NoDup_Permutation.
  - now apply NoDup_filter.
  - apply NoDup_filter. apply FinFun.Injective_map_NoDup; [intros a b; lia|apply seq_NoDup].
  - intros id. rewrite !filter_In. split; intros [H P]; split; auto.
    + apply in_map_iff. exists (N.to_nat id). split; [lia|]. apply in_seq. assert (K := U id H). lia.
    + unfold pick in P. destruct (nth_error en (N.to_nat id)) as [e|] eqn:E; [|discriminate]. destruct (meets (fst e) q) eqn:M; [|discriminate].
      rewrite <- (Nnat.N2Nat.id id). eapply C; eauto.
Qed.

Lemma visit_ids : forall vs max n ids ids', visit max n ids vs = Some ids' -> NoDup ids ->
  NoDup ids' /\ forall id, In id ids' <-> In id ids \/ In (Some id) vs.
Proof.
  induction vs as [|v vs IH]; intros max n ids ids' H D; cbn [visit] in H.
  - injection H as <-. split; auto. intros id. cbn [In]. tauto.
  - destruct v as [id|].
    + destruct (memN id ids) eqn:M.
      * apply memN_spec in M. apply IH in H; auto. destruct H as [H1 H2]. split; auto. intros j. rewrite H2. cbn [In]. split; [tauto|].
        intros [K|[K|K]]; [auto|injection K as ->; auto|auto].
      * destruct (N.eqb _ _); [discriminate|]. apply memN_false in M. apply IH in H.
        -- destruct H as [H1 H2]. split; auto. intros j. rewrite H2, in_app_iff. cbn [In]. split; [intros [[K|[->|[]]]|K]; auto|].
           intros [K|[K|K]]; [auto|injection K as ->; auto|auto].
        -- apply NoDup_rev in D. apply NoDup_rev in D. rewrite rev_involutive in D. clear - D M.
           induction ids as [|a l IHl]; cbn; [repeat constructor; auto|]. inversion D; subst. constructor.
           ++ intros K. apply in_app_iff in K. destruct K as [K|[->|[]]]; [auto|]. apply M. now left.
           ++ apply IHl; auto. intros K. apply M. now right.
    + destruct (N.ltb _ _); [discriminate|]. apply IH in H; auto. destruct H as [H1 H2]. split; auto. intros j. rewrite H2. cbn [In]. split; [tauto|].
      intros [K|[K|K]]; [auto|discriminate|auto].
Qed.

Theorem query_finds : forall T ord br bc (os : list (xop T)) q, (forall l, Permutation (ord l) l) -> 0 < br -> 0 < bc -> Forall xop_ok os -> rg_ok q ->
  exists l, query ord q (xrun (ri_empty br bc) os) = Ok l /\ Permutation l (filter (fun e => meets (fst e) q) (xhist os)).
Proof.
  intros T ord br bc os q P Br Bc F Q. destruct (xrun_inv T br bc os _ (inv_empty T br bc) F) as [J E]. set (x := xrun (ri_empty br bc) os) in *.
  unfold query. replace (xhist os) with (entries x) by exact E. apply exact_perm.
  - eapply Permutation_NoDup; [symmetry; apply P|apply NoDup_nodup].
  - intros id H. apply (Permutation_in _ (P _)) in H. apply nodup_In in H. eapply candidates_under; eauto.
  - intros i e H M. apply (Permutation_in _ (Permutation_sym (P _))). apply nodup_In. apply (candidates_complete T br bc Br Bc x (norm q) i e); auto.
    + now apply norm_rok.
    + rewrite meets_norm; auto. apply (i_filed _ _ _ J i e H).
Qed.
Theorem query_bounded_finds : forall T br bc (os : list (xop T)) q max, 0 < br -> 0 < bc -> Forall xop_ok os -> rg_ok q ->
  query_bounded q max (xrun (ri_empty br bc) os) = Err tt \/
  exists l, query_bounded q max (xrun (ri_empty br bc) os) = Ok l /\ Permutation l (filter (fun e => meets (fst e) q) (xhist os)).
Proof.
  intros T br bc os q max Br Bc F Q. destruct (xrun_inv T br bc os _ (inv_empty T br bc) F) as [J E]. set (x := xrun (ri_empty br bc) os) in *.
  unfold query_bounded. replace (xhist os) with (entries x) by exact E. destruct (bounded_visits (norm q) x) as [vs|] eqn:B; [|auto].
  destruct (visit max 0 [] vs) as [ids|] eqn:V; [|auto]. right. apply visit_ids in V; [|constructor]. destruct V as [V1 V2]. apply exact_perm; auto.
  - intros id H. apply V2 in H. destruct H as [[]|H]. eapply bounded_under; eauto.
  - intros i e H M. apply V2. right. apply (bounded_complete T br bc Br Bc x (norm q) i e vs); auto.
    + now apply norm_rok.
    + rewrite meets_norm; auto. apply (i_filed _ _ _ J i e H).
Qed.

(** A large enough budget completes, and no answer exceeds the budget. *)
Lemma visit_some : forall vs max n ids, n + N.of_nat (length vs) <= max -> N.of_nat (length ids) + N.of_nat (length vs) <= max ->
  exists ids', visit max n ids vs = Some ids'.
Proof.
  induction vs as [|v vs IH]; intros max n ids A B; cbn [visit]; [eauto|]. cbn [length] in *. destruct v as [id|].
  - destruct (memN id ids); [apply IH; lia|]. destruct (N.eqb _ _) eqn:E; [lia|]. apply IH; [lia|]. rewrite app_length. cbn [length]. lia.
  - destruct (N.ltb _ _) eqn:E; [lia|]. apply IH; lia.
Qed.
Lemma visit_most : forall vs max n ids ids', visit max n ids vs = Some ids' -> N.of_nat (length ids) <= max -> N.of_nat (length ids') <= max.
Proof.
  induction vs as [|v vs IH]; intros max n ids ids' H L; cbn [visit] in H; [now injection H as <-|]. destruct v as [id|].
  - destruct (memN id ids); [eauto|]. destruct (N.eqb _ _) eqn:E; [discriminate|]. apply IH in H; auto. rewrite app_length. cbn [length]. lia.
  - destruct (N.ltb _ _); [discriminate|]. eauto.
Qed.
Lemma exact_most : forall T q (en : list (region * T)) ids l, exact q en ids = Ok l -> (length l <= length ids)%nat.
Proof.
  intros T q en. induction ids as [|id ids IH]; intros l H; cbn [exact] in H; [apply Ok_inj in H; subst; auto|].
  destruct (nth_error en (N.to_nat id)); [|discriminate]. destruct (exact q en ids) as [k| |]; try discriminate. cbn [rbind] in H. apply Ok_inj in H. subst l.
  specialize (IH k eq_refl). destruct (meets _ _); cbn [length]; lia.
Qed.
Theorem query_bounded_completes : forall T (x : rindex T) q, supported q = true ->
  exists least, forall max, least <= max -> query_bounded q max x <> Err tt.
Proof.
  intros T x q H. unfold supported in H. apply andb_true_iff in H. destruct H as [H H2]. apply andb_true_iff in H. destruct H as [H0 H1].
  assert (B : exists vs, bounded_visits (norm q) x = Some vs).
  { unfold bounded_visits. cbv zeta. cbn [norm rows cols]. destruct (rows q) as [a|a a'|a|a|], (cols q) as [b|b b'|b|b|]; try discriminate; cbn [ax_norm] in *;
    repeat match goal with |- context [N.eqb ?u ?v] => destruct (N.eqb u v) end; try discriminate; eauto. }
  destruct B as [vs B]. exists (N.of_nat (length vs)). intros max L. unfold query_bounded. rewrite B.
  destruct (visit_some vs max 0 []) as [ids ->]; [lia|cbn; lia|].
  generalize (entries x). induction ids as [|id ids IH]; intros en; cbn [exact]; [discriminate|]. destruct (nth_error en (N.to_nat id)); [|discriminate].
  specialize (IH en). destruct (exact q en ids) as [k|[]|]; cbn [rbind]; try discriminate; auto.
Qed.
Theorem query_bounded_most : forall T (x : rindex T) q max l, query_bounded q max x = Ok l -> N.of_nat (length l) <= max.
Proof.
  intros T x q max l H. unfold query_bounded in H. destruct (bounded_visits (norm q) x) as [vs|]; [|discriminate].
  destruct (visit max 0 [] vs) as [ids|] eqn:V; [|discriminate]. apply visit_most in V; [|cbn; lia]. apply exact_most in H. lia.
Qed.
