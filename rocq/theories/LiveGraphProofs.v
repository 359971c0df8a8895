(** Lemmas about LiveGraphModel. *)
From Coq Require Import Permutation Sorted.
From Verif Require Import Base GraphSpec LiveGraphSpec TarjanModel TarjanProofs TarjanProofs2 ListSort LiveGraphModel.

Lemma reach_trans' : forall E x y z, reach E x y -> reach E y z -> reach E x z.
Proof. intros E x y z H. induction H; auto. intros. econstructor; eauto. Qed.
Lemma strong_sym : forall E x y, strong E x y -> strong E y x.
Proof. unfold strong. tauto. Qed.
Lemma strong_refl : forall E x, strong E x x.
Proof. split; constructor. Qed.
Lemma strong_trans : forall E x y z, strong E x y -> strong E y z -> strong E x z.
Proof. unfold strong. intros E x y z [A B] [C D]. split; eapply reach_trans'; eauto. Qed.
Lemma reach_ext : forall (E F : nat -> nat -> Prop), (forall x y, E x y <-> F x y) -> forall x y, reach E x y <-> reach F x y.
Proof.
  intros E F H x y. split; intros R; induction R; try constructor; apply H in H0; econstructor; eauto.
Qed.

Lemma components_ext : forall (E F : nat -> nat -> Prop) (P Q : nat -> Prop) sccs,
  (forall x y, E x y <-> F x y) -> (forall x, P x <-> Q x) -> components E P sccs -> components F Q sccs.
Proof.
  intros E F P Q sccs HE HP (H1 & H2 & H3 & H4 & H5). split; [|split; [|split; [|split]]]; auto.
  - intros x. rewrite <- HP. apply H1.
  - intros C x y HC Hx. rewrite (H4 C x y HC Hx). unfold strong. now rewrite !(reach_ext _ _ HE).
  - intros pre C post x y Hs Hx HF. apply (H5 pre C post x y Hs Hx). now apply HE.
Qed.

(** Slices of a sorted edge list. *)
Lemma firstn_prefix_filter : forall i (edges : list (nat * nat)),
  StronglySorted (fun a b => fst a <= fst b) edges -> (forall e, In e edges -> i <= fst e) ->
  firstn (length (filter (fun e => fst e <? S i) edges)) edges = filter (fun e => fst e =? i) edges.
Proof.
  intros i edges H. induction H as [|e es H IH F]; intros L; cbn [filter]; auto.
  assert (Li : i <= fst e) by (apply L; now left).
  destruct (Nat.ltb_spec (fst e) (S i)).
  - replace (fst e =? i) with true by (symmetry; apply Nat.eqb_eq; lia). cbn [length firstn]. f_equal.
    apply IH. intros; apply L; now right.
  - replace (fst e =? i) with false by (symmetry; apply Nat.eqb_neq; lia).
    rewrite Forall_forall in F.
    assert (Z : filter (fun e0 => fst e0 <? S i) es = []).
    { clear IH L. induction es as [|e' es IHe]; auto. cbn [filter]. 
      replace (fst e' <? S i) with false. 2:{ symmetry; apply Nat.ltb_ge. specialize (F e' (or_introl eq_refl)). lia. }
      apply IHe. { now inversion H. } intros; apply F; now right. }
    rewrite Z. cbn [length firstn].
    clear IH Z L. induction es as [|e' es IHe]; auto. cbn [filter].
    replace (fst e' =? i) with false. 2:{ symmetry; apply Nat.eqb_neq. specialize (F e' (or_introl eq_refl)). lia. }
    apply IHe. { now inversion H. } intros; apply F; now right.
Qed.
Lemma slice_filter : forall i (edges : list (nat * nat)),
  StronglySorted (fun a b => fst a <= fst b) edges ->
  firstn (adj_start edges (S i) - adj_start edges i) (skipn (adj_start edges i) edges)
  = filter (fun e => fst e =? i) edges.
Proof.
  intros i edges H. unfold adj_start. induction H as [|e es H IH F]; auto. cbn [filter].
  destruct (Nat.ltb_spec (fst e) i).
  - replace (fst e <? S i) with true by (symmetry; apply Nat.ltb_lt; lia).
    replace (fst e =? i) with false by (symmetry; apply Nat.eqb_neq; lia).
    cbn [length skipn Nat.sub]. exact IH.
  - rewrite Forall_forall in F.
    assert (Z : filter (fun e0 => fst e0 <? i) es = []).
    { clear IH. induction es as [|e' es IHe]; auto. cbn [filter].
      replace (fst e' <? i) with false. 2:{ symmetry; apply Nat.ltb_ge. specialize (F e' (or_introl eq_refl)). lia. }
      apply IHe. { now inversion H. } intros; apply F; now right. }
    rewrite Z. cbn [length skipn]. rewrite Nat.sub_0_r.
    assert (S2 : StronglySorted (fun a b : nat * nat => fst a <= fst b) (e :: es)).
    { constructor; auto. now apply Forall_forall. }
    apply (firstn_prefix_filter i (e :: es) S2).
    intros e0 [<-|Q]; auto. specialize (F e0 Q). lia.
Qed.
Lemma live_adj_in : forall edges i w, StronglySorted (fun a b => fst a <= fst b) edges ->
  In w (live_adj edges i) <-> In (i, w) edges.
Proof.
  intros edges i w H. unfold live_adj. rewrite slice_filter by assumption. rewrite in_map_iff. split.
  - intros ((a & b) & E & I). apply filter_In in I. cbn in *. destruct I as [I J]. apply Nat.eqb_eq in J. now subst.
  - intros I. exists (i, w). split; auto. apply filter_In. split; auto. cbn. apply Nat.eqb_refl.
Qed.

Definition cyc (edges : list (nat * nat)) (scc : list nat) : bool :=
  (1 <? length scc) || memb (last scc 0) (live_adj edges (last scc 0)).

Lemma sort_nat_length : forall l, length (sort_nat l) = length l.
Proof. intros. apply Permutation_length, sort_nat_perm. Qed.

Lemma emit_fold : forall edges sccs a,
  let r := fold_left (emit edges) sccs a in
  topo r = topo a ++ concat (map sort_nat sccs) /\
  cycle_count r = cycle_count a + length (filter (cyc edges) sccs) /\
  (forall x, in_cycle r x = true <-> in_cycle a x = true \/ exists C, In C sccs /\ cyc edges C = true /\ In x C).
Proof.
  intros edges. induction sccs as [|C sccs IH]; intros a; cbn [fold_left map concat filter].
  - cbn. rewrite app_nil_r. split; [auto|split; [auto|]]. intros x. split; [auto|]. intros [H|(C & [] & _)]; auto.
  - destruct (IH (emit edges a C)) as (I1 & I2 & I3). cbv zeta.
    rewrite I1, I2. unfold emit in *. fold (sort_nat C) in *. rewrite sort_nat_length in *. unfold cyc in *.
    destruct ((1 <? length C) || memb (last C 0) (live_adj edges (last C 0))) eqn:Ec; cbn [topo cycle_count in_cycle length] in *.
    + split; [now rewrite <- app_assoc|]. split; [lia|]. intros x. rewrite I3. clear I3 I1 I2 IH.
      destruct (memb x (sort_nat C)) eqn:M.
      * apply memb_spec in M. rewrite sort_nat_in in M. split; [intros _|intros _; now left]. right. exists C. split; [now left|]. auto.
      * apply memb_false in M. rewrite sort_nat_in in M. split.
        -- intros [H|(C' & H & H')]; auto. right. exists C'. split; [now right|auto].
        -- intros [H|(C' & [<-|H] & H')]; auto. { tauto. } right. exists C'; auto.
    + split; [now rewrite <- app_assoc|]. split; [lia|]. intros x. rewrite I3. split.
      * intros [H|(C' & H & H')]; auto. right. exists C'. split; [now right|auto].
      * intros [H|(C' & [<-|H] & H1 & H2)]; auto. { congruence. } right. exists C'; auto.
Qed.

(** Facts about components. *)
Lemma in_concat_split : forall (x : nat) ls, In x (concat ls) -> exists pre C post, ls = pre ++ C :: post /\ In x C.
Proof.
  intros x ls H. apply in_concat in H. destruct H as (C & H & I). apply in_split in H. destruct H as (p & q & ->).
  exists p, C, q. auto.
Qed.
Lemma last_in : forall (l : list nat) d, l <> [] -> In (last l d) l.
Proof.
  induction l as [|a l IH]; intros d H; [congruence|]. destruct l as [|b l]; [now left|].
  right. change (last (a :: b :: l) d) with (last (b :: l) d). apply IH. discriminate.
Qed.

Lemma comp_cyclic : forall E P sccs, components E P sccs -> forall C x, In C sccs -> In x C ->
  (on_cycle E x <-> length C > 1 \/ E x x).
Proof.
  intros E P sccs (H1 & H2 & H3 & H4 & H5) C x HC Hx. split.
  - intros (y & Exy & R). assert (St : strong E x y).
    { split; [econstructor; [exact Exy|constructor]|exact R]. }
    apply (proj2 (H4 C x y HC Hx)) in St. destruct C as [|a [|b C]]; [destruct Hx| |cbn; lia].
    destruct Hx as [<-|[]]. destruct St as [->|[]]. now right.
  - intros [L|S]; [|exists x; split; auto; constructor].
    assert (exists y, In y C /\ y <> x) as (y & Hy & N).
    { assert (ND : NoDup C).
      { apply in_split in HC. destruct HC as (p & q & ->). rewrite concat_app in H2. cbn in H2.
        apply NoDup_app_iff in H2. destruct H2 as (_ & H2 & _). apply NoDup_app_iff in H2. tauto. }
      destruct C as [|a [|b C]]; cbn in L; try lia. destruct (Nat.eq_dec a x).
      - subst. exists b. split; [right; now left|]. intros ->. inversion ND; subst. apply H6. now left.
      - exists a. split; [now left|auto]. }
    apply (H4 C x y HC Hx) in Hy. destruct Hy as [Rxy Ryx]. inversion Rxy; subst; [congruence|].
    exists y0. split; auto. eapply reach_trans'; eauto.
Qed.

Lemma comp_cyc_flag : forall edges P sccs, components (reads edges) P sccs ->
  StronglySorted (fun a b => fst a <= fst b) edges ->
  forall C x, In C sccs -> In x C -> (cyc edges C = true <-> on_cycle (reads edges) x).
Proof.
  intros edges P sccs Hc Hs C x HC Hx. rewrite (comp_cyclic _ _ _ Hc C x HC Hx).
  unfold cyc. rewrite orb_true_iff, Nat.ltb_lt, memb_spec, live_adj_in by assumption.
  destruct C as [|a [|b C]]; [destruct Hx| |cbn [length]; split; left; lia].
  destruct Hx as [<-|[]]. cbn. unfold reads. tauto.
Qed.

(** Representatives: the last member of each cyclic component. *)
Lemma comp_reps : forall edges P sccs, components (reads edges) P sccs ->
  StronglySorted (fun a b => fst a <= fst b) edges ->
  cyclic_components (reads edges) P (length (filter (cyc edges) sccs)).
Proof.
  intros edges P sccs Hc Hs. exists (map (fun C => last C 0) (filter (cyc edges) sccs)).
  pose proof Hc as (H1 & H2 & H3 & H4 & H5).
  assert (Sep : forall C C' , In C sccs -> In C' sccs -> forall x, In x C -> In x C' -> C = C').
  { intros C C' HC HC' x Hx Hx'. apply in_split in HC. destruct HC as (p & q & ->).
    apply in_app_iff in HC'. rewrite concat_app in H2. cbn in H2. apply NoDup_app_iff in H2.
    destruct H2 as (_ & H2 & H2'). apply NoDup_app_iff in H2. destruct H2 as (_ & _ & H2).
    destruct HC' as [I|[I|I]]; auto.
    - exfalso. apply (H2' x); [apply in_concat; eauto|]. apply in_or_app. now left.
    - exfalso. apply (H2 x Hx). apply in_concat; eauto. }
  split; [now rewrite map_length|]. split.
  { clear H1 H4 H5 Sep Hc. induction sccs as [|C sccs IH]; [constructor|].
    cbn in H2. apply NoDup_app_iff in H2. destruct H2 as (N1 & N2 & N3).
    assert (IH' : NoDup (map (fun C => last C 0) (filter (cyc edges) sccs))).
    { apply IH; auto. intros; apply H3; now right. }
    cbn [filter]. destruct (cyc edges C); auto. cbn [map]. constructor; auto.
    rewrite in_map_iff. intros (D & E & I). apply filter_In in I. destruct I as [I _].
    apply (N3 (last C 0)). { apply last_in. apply H3; now left. }
    rewrite <- E. apply in_concat. exists D. split; auto. apply last_in. apply H3; now right. }
  split.
  { intros x Hx. apply in_map_iff in Hx. destruct Hx as (C & <- & I). apply filter_In in I. destruct I as [I F].
    assert (L : In (last C 0) C) by (apply last_in; auto). split.
    - apply H1. apply in_concat; eauto.
    - apply (comp_cyc_flag _ _ _ Hc Hs C _ I L). exact F. }
  split.
  { intros x y Hx Hy St. apply in_map_iff in Hx. destruct Hx as (C & <- & I). apply filter_In in I. destruct I as [I _].
    apply in_map_iff in Hy. destruct Hy as (D & <- & J). apply filter_In in J. destruct J as [J _].
    assert (L : In (last C 0) C) by (apply last_in; auto). assert (M : In (last D 0) D) by (apply last_in; auto).
    apply (H4 C _ _ I L) in St. now rewrite (Sep C D I J _ St M). }
  intros x Px Hx. apply H1, in_concat in Px. destruct Px as (C & I & J).
  exists (last C 0). assert (L : In (last C 0) C) by (apply last_in; auto). split.
  - apply in_map_iff. exists C. split; auto. apply filter_In. split; auto. apply (comp_cyc_flag _ _ _ Hc Hs C x I J). exact Hx.
  - apply (H4 C x _ I J). exact L.
Qed.

Lemma concat_sort_perm : forall sccs, Permutation (concat (map sort_nat sccs)) (concat sccs).
Proof.
  induction sccs as [|C sccs IH]; cbn; auto. apply Permutation_app; auto. apply sort_nat_perm.
Qed.

Lemma concat_split : forall A (ls : list (list A)) pre x post, concat ls = pre ++ x :: post ->
  exists lp C lq cp cq, ls = lp ++ C :: lq /\ C = cp ++ x :: cq /\ pre = concat lp ++ cp /\ post = cq ++ concat lq.
Proof.
  intros A. induction ls as [|C ls IH]; intros pre x post H.
  - destruct pre; discriminate.
  - cbn in H. revert pre H. assert (G : forall pre, C ++ concat ls = pre ++ x :: post ->
      (exists cq, C = pre ++ x :: cq /\ post = cq ++ concat ls) \/ (exists q, pre = C ++ q /\ concat ls = q ++ x :: post)).
    { clear IH. induction C as [|c C IHC]; intros pre H.
      - right. exists pre. auto.
      - destruct pre as [|p pre]; cbn in H; injection H as -> H.
        + left. exists C. auto.
        + destruct (IHC _ H) as [(cq & -> & ->)|(q & -> & K)]; [left; exists cq|right; exists q]; auto. }
    intros pre H. destruct (G pre H) as [(cq & -> & ->)|(q & -> & K)].
    + exists [], (pre ++ x :: cq), ls, pre, cq. auto.
    + destruct (IH _ _ _ K) as (lp & D & lq & cp & cq & -> & -> & -> & ->).
      exists (C :: lp), (cp ++ x :: cq), lq, cp, cq. cbn. rewrite app_assoc. auto.
Qed.

Lemma map_app_cons_inv : forall A B (f : A -> B) l p c q, map f l = p ++ c :: q ->
  exists lp x lq, l = lp ++ x :: lq /\ p = map f lp /\ c = f x /\ q = map f lq.
Proof.
  intros A B f l. induction l as [|a l IH]; intros p c q H; [destruct p; discriminate|].
  destruct p as [|b p]; cbn in H; injection H as <- H.
  - exists [], a, l. auto.
  - destruct (IH _ _ _ H) as (lp & x & lq & -> & -> & -> & ->). exists (a :: lp), x, lq. auto.
Qed.

Lemma comp_topo : forall E P sccs, components E P sccs ->
  forall pre x post y, concat (map sort_nat sccs) = pre ++ x :: post -> E x y -> In y pre \/ strong E x y.
Proof.
  intros E P sccs (H1 & H2 & H3 & H4 & H5) pre x post y Hs Exy.
  apply concat_split in Hs. destruct Hs as (lp & C & lq & cp & cq & Hm & HC & -> & ->).
  apply map_app_cons_inv in Hm. destruct Hm as (sp & D & sq & -> & -> & -> & ->).
  assert (ID : In D (sp ++ D :: sq)) by (apply in_or_app; right; now left).
  assert (Hx : In x D). { apply sort_nat_in. rewrite HC. apply in_or_app. right. now left. }
  destruct (H5 _ _ _ x y eq_refl Hx Exy) as [H|H].
  - left. apply in_or_app. left. eapply Permutation_in; [apply Permutation_sym, concat_sort_perm|exact H].
  - right. apply (H4 _ _ _ ID Hx). exact H.
Qed.

Lemma comp_contiguous : forall E P sccs, components E P sccs ->
  forall pre x mid y post, concat (map sort_nat sccs) = pre ++ x :: mid ++ y :: post -> strong E x y ->
  forall z, In z mid -> strong E x z.
Proof.
  intros E P sccs (H1 & H2 & H3 & H4 & H5) pre x mid y post Hs St z Hz.
  assert (ND : NoDup (concat (map sort_nat sccs))).
  { eapply Permutation_NoDup; [apply Permutation_sym, concat_sort_perm|exact H2]. }
  apply concat_split in Hs. destruct Hs as (lp & C & lq & cp & cq & Hm & HC & -> & Hp).
  apply map_app_cons_inv in Hm. destruct Hm as (sp & D & sq & -> & -> & -> & ->).
  assert (ID : In D (sp ++ D :: sq)) by (apply in_or_app; right; now left).
  assert (Hx : In x D). { apply sort_nat_in. rewrite HC. apply in_or_app. right. now left. }
  assert (Hy : In y (sort_nat D)). { apply sort_nat_in. apply (H4 _ _ _ ID Hx). exact St. }
  assert (Hzin : In z cq).
  { rewrite map_app, concat_app in ND. cbn [map concat] in ND. apply NoDup_app_iff in ND. destruct ND as (_ & ND & _).
    apply NoDup_app_iff in ND. destruct ND as (NDD & _ & Sep).
    assert (Nyq : ~ In y (concat (map sort_nat sq))) by (apply Sep; auto).
    assert (G : forall (mid cq : list nat) rest, mid ++ y :: post = cq ++ rest -> ~ In y rest -> incl mid cq).
    { clear. induction mid as [|m mid IH]; intros cq rest H N; [intros ? []|].
      destruct cq as [|c cq]; cbn in H.
      - subst rest. exfalso. apply N. right. apply in_or_app. right. now left.
      - injection H as -> H. intros u [<-|Hu]; [now left|right; eapply IH; eauto]. }
    eapply G; eauto. }
  apply (H4 _ _ _ ID Hx). apply sort_nat_in. rewrite HC. apply in_or_app. right. now right.
Qed.

Theorem analyze_ok : forall n edges, recorded n edges ->
  exists a, analyze_live_graph n edges = Ok a /\
    (forall i, i < n -> (in_cycle a i = true <-> on_cycle (reads edges) i)) /\
    cyclic_components (reads edges) (fun i => i < n) (cycle_count a) /\
    live_topological (reads edges) n (topo a).
Proof.
  intros n edges (Hb & Hs). unfold analyze_live_graph.
  set (adj := fun v => map Some (live_adj edges v)).
  assert (EE : forall x y, E adj x y <-> reads edges x y).
  { intros x y. unfold E, adj, reads. rewrite <- (live_adj_in edges x y Hs). rewrite in_map_iff. split.
    - intros (w & [= ->] & I). exact I.
    - intros I. exists y. auto. }
  destruct (tarjan_ok adj (seq 0 n) (seq_NoDup n 0)) with (roots := seq 0 n) as (sccs & Ht & Hc).
  { intros v w Hv Hw. change (E adj v w) in Hw. apply EE in Hw. apply Hb in Hw. apply in_seq. lia. }
  { intros; tauto. }
  rewrite Ht. cbn [rbind]. eexists. split; [reflexivity|].
  assert (Hc' : components (reads edges) (fun x => x < n) sccs).
  { eapply components_ext; [exact EE| |exact Hc]. intros x. cbn. rewrite in_seq. lia. }
  destruct (emit_fold edges sccs (Analysis (fun _ => false) 0 [])) as (T1 & T2 & T3). cbv zeta in *. cbn [topo cycle_count in_cycle app] in *.
  rewrite T1, T2. split; [|split; [|split; [|split]]].
  - intros i Hi. rewrite T3. apply (proj1 (proj1 Hc' i)) in Hi. apply in_concat in Hi. destruct Hi as (C & IC & Ii). split.
    + intros [H|(D & ID & F & IiD)]; [discriminate|]. apply (comp_cyc_flag _ _ _ Hc' Hs D i ID IiD). exact F.
    + intros H. right. exists C. repeat split; auto. apply (comp_cyc_flag _ _ _ Hc' Hs C i IC Ii). exact H.
  - cbn [Nat.add]. apply comp_reps; auto.
  - rewrite concat_sort_perm. apply NoDup_Permutation; [apply Hc'|apply seq_NoDup|].
    intros x. rewrite <- (proj1 Hc' x). rewrite in_seq. lia.
  - intros. eapply comp_topo; eauto.
  - intros. eapply comp_contiguous; eauto.
Qed.
