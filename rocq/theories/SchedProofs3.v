(** Layers and condensation units. *)
From Coq Require Import Permutation Sorted.
From Verif Require Import Base GraphSpec SchedSpec TarjanModel ListSort LiveGraphProofs SchedModel SchedProofs SchedProofs2.

(** Number of the component holding x. *)
Fixpoint cidx (sccs : list (list nat)) (x : nat) : nat :=
  match sccs with [] => 0 | C :: r => if memb x C then 0 else S (cidx r x) end.
Lemma cidx_at : forall pre C post x, NoDup (concat (pre ++ C :: post)) -> In x C -> cidx (pre ++ C :: post) x = length pre.
Proof.
  induction pre as [|A pre IH]; intros C post x N H; cbn [app cidx length].
  - replace (memb x C) with true; auto. symmetry. now apply memb_spec.
  - cbn [app concat] in N. apply NoDup_app_iff in N. destruct N as (_ & N & Sep).
    replace (memb x A) with false. { f_equal. now apply IH. }
    symmetry. apply memb_false. intros I. apply (Sep x I). apply in_concat. exists C. split; auto. apply in_or_app. right; now left.
Qed.
Lemma cidx_before : forall pre post x, In x (concat pre) -> cidx (pre ++ post) x < length pre.
Proof.
  induction pre as [|A pre IH]; intros post x H; cbn [app cidx length concat] in *; [destruct H|].
  destruct (memb x A) eqn:M; [lia|]. apply memb_false in M. apply in_app_iff in H. destruct H as [H|H]; [tauto|].
  specialize (IH post x H). lia.
Qed.
Lemma comp_rank : forall E P sccs, components E P sccs -> forall x y, P x -> E x y -> cidx sccs y < cidx sccs x \/ strong E x y.
Proof.
  intros E P sccs (H1 & H2 & H3 & H4 & H5) x y Px e. apply H1 in Px. apply in_concat_split in Px.
  destruct Px as (pre & C & post & -> & Hx). rewrite (cidx_at _ _ _ _ H2 Hx).
  destruct (H5 pre C post x y eq_refl Hx e) as [H|H].
  - left. now apply cidx_before.
  - right. apply (H4 C); auto. apply in_or_app. right; now left.
Qed.

Lemma NoDup_concat_filter : forall (p : list nat -> bool) ls, NoDup (concat ls) -> NoDup (concat (filter p ls)).
Proof.
  intros p ls. induction ls as [|C ls IH]; intros N; auto. cbn in *. apply NoDup_app_iff in N. destruct N as (N1 & N2 & N3).
  destruct (p C); auto. cbn. apply NoDup_app_iff. split; auto. split; auto.
  intros x Hx Hy. apply (N3 x Hx). apply in_concat in Hy. destruct Hy as (D & HD & I). apply filter_In in HD. apply in_concat. exists D. tauto.
Qed.

Section Split.
Variables deps vdeps : nat -> list nat.
Variable vertices : list nat.
Notation E := (needs (fun v => deps v ++ vdeps v) vertices).
Hypothesis noself : forall v, In v vertices -> In v (vdeps v) -> In v (deps v).
Variable sccs : list (list nat).
Hypothesis HC : components E (fun x => In x vertices) sccs.

Lemma is_cycle_spec : forall C x, In C sccs -> In x C -> (is_cycle deps C = true <-> on_cycle E x).
Proof.
  intros C x IC Ix. rewrite (comp_cyclic _ _ _ HC C x IC Ix). unfold is_cycle.
  rewrite orb_true_iff, andb_true_iff, Nat.ltb_lt, Nat.eqb_eq, memb_spec.
  assert (Px : In x vertices). { apply HC. apply in_concat; eauto. }
  destruct C as [|a [|b C]]; [destruct Ix| |cbn [length]; split; left; lia].
  destruct Ix as [<-|[]]. cbn [length hd]. unfold needs. rewrite in_app_iff. split.
  - intros [H|[_ H]]; [lia|]. tauto.
  - intros [H|(_ & _ & [H|H])]; [lia| |]; right; split; auto.
Qed.
Lemma in_cycles : forall x, In x (concat (filter (is_cycle deps) sccs)) <-> In x vertices /\ on_cycle E x.
Proof.
  intros x. rewrite in_concat. split.
  - intros (C & IC & Ix). apply filter_In in IC. destruct IC as [IC F]. split.
    + apply HC. apply in_concat; eauto.
    + apply (is_cycle_spec C x IC Ix). exact F.
  - intros [Ix Cx]. apply HC in Ix. apply in_concat in Ix. destruct Ix as (C & IC & Ix). exists C. split; auto.
    apply filter_In. split; auto. apply (is_cycle_spec C x IC Ix). exact Cx.
Qed.
Lemma in_acyclic : forall x, In x (concat (filter (fun C => negb (is_cycle deps C)) sccs)) <-> In x vertices /\ ~ on_cycle E x.
Proof.
  intros x. rewrite in_concat. split.
  - intros (C & IC & Ix). apply filter_In in IC. destruct IC as [IC F]. split.
    + apply HC. apply in_concat; eauto.
    + rewrite <- (is_cycle_spec C x IC Ix). now destruct (is_cycle deps C).
  - intros [Ix Cx]. apply HC in Ix. apply in_concat in Ix. destruct Ix as (C & IC & Ix). exists C. split; auto.
    apply filter_In. split; auto. rewrite <- (is_cycle_spec C x IC Ix) in Cx. now destruct (is_cycle deps C).
Qed.
Lemma acyclic_rank : forall x y, In x vertices -> ~ on_cycle E x -> E x y -> cidx sccs y < cidx sccs x.
Proof.
  intros x y Ix Nx e. destruct (comp_rank _ _ _ HC x y Ix e) as [H|[_ H]]; auto. exfalso. apply Nx. exists y. auto.
Qed.
Lemma cycle_class : forall C x y, In C (filter (is_cycle deps) sccs) -> In x C -> on_cycle E x /\ (In y C <-> strong E x y).
Proof.
  intros C x y H Ix. apply filter_In in H. destruct H as [H F]. split; [now apply (is_cycle_spec C x H Ix)|].
  destruct HC as (_ & _ & _ & H4 & _). now apply H4.
Qed.
End Split.

(** A schedule made of layers only. *)
Lemma nth_seq_id : forall (ls : list (list nat)) , map (fun i => nth i ls []) (seq 0 (length ls)) = ls.
Proof.
  induction ls as [|a ls IH]; auto. cbn [length seq map nth]. f_equal. rewrite <- seq_shift, map_map. exact IH.
Qed.
Lemma concat_map_in : forall A (f : A -> list nat) l x, In x (concat (map f l)) <-> exists a, In a l /\ In x (f a).
Proof. intros. rewrite <- flat_map_concat_map. apply in_flat_map. Qed.

Lemma layers_good : forall (E : nat -> nat -> Prop) vertices (D : nat -> list nat) vs ws,
  NoDup vs -> (forall x, In x vs <-> In x vertices) -> (forall x, In x vertices -> ~ on_cycle E x) ->
  (forall x y, In x vs -> E x y -> In y (D x)) ->
  Permutation (concat ws) vs ->
  (forall pre W post v u, ws = pre ++ W :: post -> In v W -> In u (D v) -> In u (concat pre)) ->
  good_schedule E vertices (from_parts (map sort_nat ws) []).
Proof.
  intros E vertices D vs ws ND Hv Nc HD HP HA.
  set (s := from_parts (map sort_nat ws) []).
  assert (U : map (unit_members s) (units s) = map sort_nat ws).
  { unfold s, from_parts. cbn [units]. rewrite map_map. cbn [unit_members layers]. apply nth_seq_id. }
  assert (W : Permutation (walk s) vs). { unfold walk. rewrite U. rewrite concat_sort_perm. exact HP. }
  assert (Lx : forall i, In (ULayer i) (units s) -> i < length (layers s)).
  { intros i H. unfold s, from_parts in *. cbn [units layers] in *. apply in_map_iff in H. destruct H as (j & [= ->] & H).
    apply in_seq in H. lia. }
  assert (Cx : forall i, ~ In (UCycle i) (units s)).
  { intros i H. unfold s, from_parts in H. cbn [units] in H. apply in_map_iff in H. destruct H as (j & [=] & _). }
  split; [exact Lx|]. split; [intros i H; exfalso; exact (Cx i H)|]. split; [|split; [|split; [|split]]].
  - eapply Permutation_NoDup; [apply Permutation_sym, W|exact ND].
  - intros x. rewrite <- Hv. split; intros H; [eapply Permutation_in; [exact W|exact H]|eapply Permutation_in; [apply Permutation_sym, W|exact H]].
  - intros i x H Hx. apply Nc. apply Hv. eapply Permutation_in; [exact W|]. unfold walk. apply concat_map_in. exists (ULayer i). auto.
  - intros i x y H. exfalso. exact (Cx i H).
  - intros pre u post x y Hs Hx e. left.
    assert (Hm : map sort_nat ws = map (unit_members s) pre ++ unit_members s u :: map (unit_members s) post).
    { rewrite <- U, Hs, map_app. reflexivity. }
    apply map_app_cons_inv in Hm. destruct Hm as (wp & w & wq & Hw & -> & Hu & _). rewrite Hu in Hx. rewrite sort_nat_in in Hx.
    assert (Ix : In x vs). { eapply Permutation_in; [exact HP|]. rewrite Hw, concat_app. apply in_or_app. right. cbn. apply in_or_app. now left. }
    eapply Permutation_in; [apply Permutation_sym, concat_sort_perm|]. eapply HA; eauto.
Qed.

Lemma cnt_filter : forall (p : nat -> bool) l x, p x = true -> cnt (filter p l) x = cnt l x.
Proof.
  intros p l x H. induction l as [|a l IH]; auto. cbn [filter]. destruct (Nat.eq_dec a x) as [->|N].
  - rewrite H. rewrite !count_occ_cons_eq by auto. now f_equal.
  - destruct (p a); [rewrite !count_occ_cons_neq by auto|rewrite count_occ_cons_neq by auto]; auto.
Qed.
Lemma cnt_nodup : forall l x, NoDup l -> cnt l x = if memb x l then 1 else 0.
Proof.
  intros l x N. destruct (memb x l) eqn:M.
  - apply memb_spec in M. now apply NoDup_count_occ'.
  - apply memb_false in M. now apply count_occ_not_In.
Qed.

Lemma dedup_adj_cons : forall x y l, dedup_adj (x :: y :: l) = if Nat.eqb x y then dedup_adj (y :: l) else x :: dedup_adj (y :: l).
Proof. reflexivity. Qed.
Lemma dedup_adj_in : forall l x, In x (dedup_adj l) <-> In x l.
Proof.
  induction l as [|a [|b l] IH]; intros x; [tauto|tauto|]. rewrite dedup_adj_cons. destruct (Nat.eqb_spec a b).
  - subst. rewrite IH. cbn. tauto.
  - cbn [In]. rewrite IH. cbn. tauto.
Qed.
Lemma dedup_adj_nodup : forall l, StronglySorted (fun a b => a <= b) l -> NoDup (dedup_adj l).
Proof.
  induction l as [|a [|b l] IH]; intros S; [constructor|repeat constructor; auto|]. rewrite dedup_adj_cons.
  inversion S as [|? ? S' F]; subst. specialize (IH S'). destruct (Nat.eqb_spec a b); auto. constructor; auto.
  rewrite dedup_adj_in. intros I. inversion S' as [|? ? S'' F']; subst. rewrite Forall_forall in F, F'.
  assert (b <= a). { destruct I as [->|I]; [lia|]. now apply F'. } specialize (F b (or_introl eq_refl)). lia.
Qed.
Lemma filter_perm_in : forall (ho : list nat -> list nat), (forall l, Permutation (ho l) l) -> forall p l x, In x (filter p (ho l)) <-> In x l /\ p x = true.
Proof.
  intros ho H p l x. rewrite filter_In. split; intros [A B]; split; auto.
  - eapply Permutation_in; [apply H|exact A].
  - eapply Permutation_in; [apply Permutation_sym, H|exact A].
Qed.
Lemma filter_perm_nodup : forall (ho : list nat -> list nat), (forall l, Permutation (ho l) l) -> forall p l, NoDup l -> NoDup (filter p (ho l)).
Proof. intros. apply NoDup_filter. eapply Permutation_NoDup; [apply Permutation_sym, H|assumption]. Qed.

Lemma build_layers_ok : forall deps dependents ho acyc (rank : nat -> nat), (forall l, Permutation (ho l) l) ->
  NoDup (concat acyc) -> mirrored deps dependents (concat acyc) ->
  (forall v u, In v (concat acyc) -> In u (concat acyc) -> In u (deps v) -> rank u < rank v) ->
  exists ws, build_layers deps dependents ho acyc = Ok (map sort_nat ws) /\ Permutation (concat ws) (concat acyc) /\
    (forall pre W post v u, ws = pre ++ W :: post -> In v W -> In u (filter (fun d => memb d (concat acyc)) (deps v)) -> In u (concat pre)).
Proof.
  intros deps dependents ho acyc rank Ho ND Mi Hr. unfold build_layers. destruct (concat acyc) as [|a r] eqn:Ev.
  { exists []. split; auto. split; auto. intros [|] W post v u H; discriminate. }
  rewrite <- Ev in *. set (vs := concat acyc) in *. clear a r Ev.
  set (D := fun v => filter (fun d => memb d vs) (deps v)).
  destruct (kahn_top vs ND D) with (R := dependents) (rank := rank) (known := fun v => memb v vs) (sat := false)
    (cur := filter (fun v => length (D v) =? 0) (ho vs)) (deg := fun v => length (D v)) as (ws & E & P & A & _).
  - intros v u _ H. apply filter_In in H. now apply memb_spec.
  - intros u v Hu Hv. unfold D. rewrite cnt_filter by now apply memb_spec. now apply Mi.
  - intros v u Hv H. apply filter_In in H. destruct H as [H H']. apply memb_spec in H'. now apply Hr.
  - intros; apply memb_spec.
  - now apply filter_perm_nodup.
  - intros v. rewrite filter_perm_in by exact Ho. now rewrite Nat.eqb_eq.
  - auto.
  - exists ws. split; [|split; auto]. unfold D in E. rewrite E. cbn [rbind]. unfold finish_layers.
    rewrite (Permutation_length P), Nat.eqb_refl. reflexivity.
Qed.

Lemma build_layers_virtual_ok : forall deps ho vdeps acyc (rank : nat -> nat), (forall l, Permutation (ho l) l) ->
  NoDup (concat acyc) ->
  (forall v u, In v (concat acyc) -> In u (concat acyc) -> In u (deps v ++ vdeps v) -> rank u < rank v) ->
  exists ws, build_layers_with_virtual deps ho acyc vdeps = Ok (map sort_nat ws) /\ Permutation (concat ws) (concat acyc) /\
    (forall pre W post v u, ws = pre ++ W :: post -> In v W -> In u (filter (fun d => memb d (concat acyc)) (deps v ++ vdeps v)) -> In u (concat pre)).
Proof.
  intros deps ho vdeps acyc rank Ho ND Hr. unfold build_layers_with_virtual. destruct (concat acyc) as [|a r] eqn:Ev.
  { exists []. split; auto. split; auto. intros [|] W post v u H; discriminate. }
  rewrite <- Ev in *. set (vs := concat acyc) in *. clear a r Ev.
  set (D := fun v => dedup_adj (sort_nat (filter (fun d => memb d vs) (deps v) ++ filter (fun d => memb d vs) (vdeps v)))).
  assert (Din : forall v u, In u (D v) <-> In u vs /\ In u (deps v ++ vdeps v)).
  { intros v u. unfold D. rewrite dedup_adj_in, sort_nat_in, !in_app_iff, !filter_In, memb_spec. tauto. }
  assert (Dnd : forall v, NoDup (D v)). { intros. apply dedup_adj_nodup. apply sort_by_sorted. }
  destruct (kahn_top vs ND D) with (R := fun d => filter (fun v => memb d (D v)) (ho vs)) (rank := rank) (known := fun v => memb v vs) (sat := true)
    (cur := filter (fun v => length (D v) =? 0) (ho vs)) (deg := fun v => length (D v)) as (ws & E & P & A & _).
  - intros v u _ H. now apply Din in H.
  - intros u v Hu Hv. rewrite cnt_nodup by now apply filter_perm_nodup. rewrite (cnt_nodup (D v)) by apply Dnd.
    destruct (memb u (D v)) eqn:M.
    + replace (memb v _) with true; auto. symmetry. apply memb_spec. apply filter_perm_in; auto.
    + replace (memb v _) with false; auto. symmetry. apply memb_false. rewrite filter_perm_in by exact Ho. intros [_ H]. congruence.
  - intros v u Hv H. apply Din in H. now apply Hr.
  - intros; apply memb_spec.
  - now apply filter_perm_nodup.
  - intros v. rewrite filter_perm_in by exact Ho. now rewrite Nat.eqb_eq.
  - auto.
  - exists ws. split; [|split; auto].
    + unfold D in E. rewrite E. cbn [rbind]. unfold finish_layers. rewrite (Permutation_length P), Nat.eqb_refl. reflexivity.
    + intros pre W post v u Hs Hv Hu. apply filter_In in Hu. rewrite memb_spec in Hu. eapply A; eauto. apply Din. tauto.
Qed.
