(** Where the store forgets edges, and answers without repetitions. *)
From Verif Require Import Base Maps ListSort SchedModel SchedProofs2 EdgeModel EdgeSpec EdgeProofs EdgeProofs2.

(** An edge added before its source is registered is gone after a compaction. *)
Definition early : list op := [OVertex (0, 0)%N 0; OAdd 1 0; ORebuild; OVertex (1, 0)%N 1].
Lemma early_lost : spec_run early 1 0 /\ ~ In 0 (out_edges (run early store_new) 1) /\ ~ In 1 (in_edges_merged (run early store_new) 0).
Proof.
  split; [cbn; auto|]. vm_compute. split; intros H; exact H.
Qed.

(** A second bulk load that creates one cell hands the store only that cell; the next
    compaction drops the formulas of the first load. *)
Definition second_load : list op :=
  [ OIngest [((0, 0)%N, 0); ((1, 0)%N, 1)] [((0, 0)%N, 0); ((1, 0)%N, 1)] [(1, [0])];
    OIngest [((2, 0)%N, 2)] [((0, 0)%N, 0); ((1, 0)%N, 1); ((2, 0)%N, 2)] [(2, [0])];
    OMove 2 (3, 0)%N;
    OAdd 2 1 ].
Lemma second_load_lost :
  legal registered second_load []
  /\ spec_run second_load 1 0
  /\ In 0 (out_edges (run (firstn 2 second_load) store_new) 1)
  /\ ~ In 0 (out_edges (run second_load store_new) 1)
  /\ ~ In 1 (in_edges_merged (run second_load store_new) 0).
Proof.
  split; [|split; [|split]].
  - cbn. unfold incl. cbn. intuition.
  - cbn. unfold replace_rows. cbn. auto.
  - vm_compute. auto.
  - vm_compute. split; intros H; repeat (destruct H as [H|H]; [discriminate|]); exact H.
Qed.

(** Without repeated targets in the rows given, no answer repeats a target. *)
Definition plain_rows (o : op) : Prop :=
  match o with
  | OBuild adj _ _ | OIngest _ _ adj => forall p, In p adj -> NoDup (snd p)
  | _ => True
  end.
Lemma out_nodup : forall s v, NoDup (csr_out (base s) v) -> NoDup (out_edges s v).
Proof. intros s v H. unfold out_edges. destruct (_ =? 0); auto. apply merge_nodup. Qed.

Definition base_plain (s : store) : Prop := forall v, NoDup (csr_out (base s) v).
Lemma rebuild_plain : forall s, base_plain s -> base_plain (rebuild s).
Proof.
  intros s H. unfold rebuild. destruct (_ || _); auto. intros v. cbn [base]. apply from_nodup.
  intros p P. apply in_map_iff in P. destruct P as (w & <- & _). apply merge_nodup.
Qed.
Lemma maybe_plain : forall s, base_plain s -> base_plain (maybe_rebuild s).
Proof. intros s H. unfold maybe_rebuild. destruct (_ && _); auto. now apply rebuild_plain. Qed.
Lemma vertices_fold_base : forall l s, base (fold_left (fun s p => add_vertex (fst p) (snd p) s) l s) = base s.
Proof. induction l as [|p l IH]; intros s; cbn [fold_left]; auto. now rewrite IH. Qed.
Lemma vertices_plain : forall l s, base_plain s -> base_plain (add_vertices l s).
Proof.
  intros [|p l] s H; auto. unfold add_vertices. apply rebuild_plain. unfold base_plain. now rewrite vertices_fold_base.
Qed.
Lemma carried_plain : forall adj s p, base_plain s -> (forall q, In q adj -> NoDup (snd q)) ->
  In p (with_carried adj s) -> NoDup (snd p).
Proof.
  intros adj s p B R. unfold with_carried.
  assert (X : forall l rows, (forall q, In q rows -> NoDup (snd q)) ->
     forall q, In q (fold_left (carried (map fst adj) s) l rows) -> NoDup (snd q)).
  { induction l as [|[f a] l IH]; intros rows H q Q; auto. cbn [fold_left] in Q. eapply IH; [|exact Q].
    intros q'. unfold carried. destruct (_ || _); auto.
    match goal with |- context [dedup ?l] => destruct (dedup l) as [|x d] eqn:D end; auto.
    intros Q'. apply in_app_iff in Q'. destruct Q' as [Q'|[<-|[]]]; auto. cbn [snd].
    eapply Permutation.Permutation_NoDup; [apply Permutation.Permutation_sym, sort_nat_perm|].
    rewrite <- D. apply dedup_NoDup. }
  apply X. intros q Q. apply in_app_iff in Q. destruct Q as [Q|Q]; auto.
  unfold uncovered in Q. apply in_flat_map in Q. destruct Q as (v & _ & Q).
  destruct (memb v (map fst adj)); [destruct Q|].
  pose proof (out_nodup s v (B v)) as N. destruct (out_edges s v); [destruct Q|]. destruct Q as [<-|[]]. exact N.
Qed.
Lemma build_plain : forall adj cs vs s, base_plain s -> (forall q, In q adj -> NoDup (snd q)) -> base_plain (build_edges adj cs vs s).
Proof. intros adj cs vs s B R v. cbn [build_edges base]. apply from_nodup. intros p P. eapply carried_plain; eauto. Qed.
Lemma step_plain : forall o s, plain_rows o -> base_plain s -> base_plain (step o s).
Proof.
  intros o s P H. destruct o; cbn [step]; auto; try (apply maybe_plain; exact H).
  - now apply vertices_plain.
  - unfold update_addr. destruct (mget Nat.eqb (vpos s) v); exact H.
  - now apply rebuild_plain.
  - now apply build_plain.
  - unfold ingest. destruct adj as [|a adj]; [now apply vertices_plain|]. apply build_plain; auto. now apply vertices_plain.
Qed.
Lemma run_plain : forall os s, Forall plain_rows os -> base_plain s -> base_plain (run os s).
Proof. induction os as [|o os IH]; intros s F H; auto. inversion F; subst. cbn. apply IH; auto. now apply step_plain. Qed.
Lemma answers_plain : forall os v, Forall plain_rows os -> NoDup (out_edges (run os store_new) v).
Proof. intros os v F. apply out_nodup. apply (run_plain os store_new F). intros w. constructor. Qed.

Lemma load_exact : forall os fresh all adj,
  legal registered os [] -> legal complete os [] ->
  registered (OIngest fresh all adj) (reg_run os) ->
  answers (run (os ++ [OIngest fresh all adj]) store_new) (spec_run (os ++ [OIngest fresh all adj])).
Proof.
  intros os fresh all adj L C [R _]. unfold run, spec_run. rewrite !fold_left_app. cbn [fold_left].
  pose proof (inv_run os _ _ _ inv_new L C) as I. apply (inv_vertices fresh) in I.
  fold (run os store_new) in I. fold (run os store_new) (spec_run os). fold (spec_run os) (reg_run os) in I.
  cbn [step spec_step]. unfold ingest. destruct adj as [|row adj].
  - eapply inv_answers. destruct I. split; eauto.
  - pose proof (inv_build _ _ _ (reg_run os ++ map snd fresh) (row :: adj)
      (map fst (match fresh with [] => all | _ => fresh end)) (reg_run os ++ map snd fresh) I R (incl_refl _) (incl_refl _)) as I2.
    apply inv_answers in I2. exact I2.
Qed.
