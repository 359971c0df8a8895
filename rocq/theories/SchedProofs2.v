(** Components over dense local ids carried back to vertices. *)
From Coq Require Import Permutation.
From Verif Require Import Base GraphSpec SchedSpec TarjanModel TarjanProofs TarjanProofs2 ListSort LiveGraphProofs SchedModel SchedProofs.

Lemma dedup_from_spec : forall l seen, NoDup (dedup_from seen l) /\ (forall x, In x (dedup_from seen l) <-> In x l /\ ~ In x seen).
Proof.
  induction l as [|a l IH]; intros seen; cbn [dedup_from].
  - split; [constructor|]. cbn. tauto.
  - destruct (memb a seen) eqn:M.
    + apply memb_spec in M. destruct (IH seen) as [H1 H2]. split; auto. intros x. rewrite H2. cbn. split; [tauto|].
      intros [[->|H] N]; tauto.
    + apply memb_false in M. destruct (IH (a :: seen)) as [H1 H2]. split.
      * constructor; auto. rewrite H2. cbn. tauto.
      * intros x. cbn [In]. rewrite H2. cbn [In]. split; [intros [->|]; tauto|]. intros [[->|H] N]; auto.
        destruct (Nat.eq_dec a x); auto. right. tauto.
Qed.
Lemma dedup_NoDup : forall l, NoDup (dedup l).
Proof. intros. apply dedup_from_spec. Qed.
Lemma dedup_in : forall l x, In x (dedup l) <-> In x l.
Proof. intros. unfold dedup. rewrite (proj2 (dedup_from_spec l [])). cbn. tauto. Qed.

Lemma local_of_some : forall vol v i, local_of vol v = Some i -> i < length vol /\ nth i vol 0 = v.
Proof.
  induction vol as [|a vol IH]; intros v i H; cbn in H; [discriminate|]. destruct (Nat.eqb_spec a v).
  - injection H as <-. cbn. split; auto. lia.
  - destruct (local_of vol v) as [j|] eqn:E; [|discriminate]. cbn in H. injection H as <-.
    destruct (IH v j E). cbn. split; auto. lia.
Qed.
Lemma local_of_in : forall vol v, In v vol -> exists i, local_of vol v = Some i.
Proof.
  induction vol as [|a vol IH]; intros v H; cbn; [destruct H|]. destruct (Nat.eqb_spec a v); [eauto|].
  destruct H as [H|H]; [congruence|]. destruct (IH v H) as (i & ->). cbn. eauto.
Qed.
Lemma local_of_none : forall vol v, ~ In v vol -> local_of vol v = None.
Proof.
  intros vol v N. destruct (local_of vol v) eqn:E; auto. apply local_of_some in E. exfalso. apply N.
  destruct E as [E <-]. now apply nth_In.
Qed.
Lemma nth_inj : forall vol i j, NoDup vol -> i < length vol -> j < length vol -> nth i vol 0 = nth j vol 0 -> i = j.
Proof. intros vol i j N Hi Hj H. eapply NoDup_nth; eauto. Qed.
Lemma local_of_nth : forall vol i, NoDup vol -> i < length vol -> local_of vol (nth i vol 0) = Some i.
Proof.
  intros vol i N H. destruct (local_of_in vol (nth i vol 0)) as (j & E); [now apply nth_In|].
  rewrite E. f_equal. apply local_of_some in E. destruct E as [Hj Ej]. eapply nth_inj; eauto.
Qed.

Lemma NoDup_map_on : forall A B (f : A -> B) l, (forall x y, In x l -> In y l -> f x = f y -> x = y) -> NoDup l -> NoDup (map f l).
Proof.
  intros A B f l. induction l as [|a l IH]; intros H N; cbn; [constructor|]. inversion N; subst. constructor.
  - rewrite in_map_iff. intros (x & E & I). apply H in E; [|now right|now left]. now subst.
  - apply IH; auto. intros; apply H; auto; now right.
Qed.

Section Transport.
Variable vol : list nat.
Hypothesis VND : NoDup vol.
Let n := length vol.
Let f i := nth i vol 0.
Variables El Er : nat -> nat -> Prop.
Hypothesis Hl : forall i j, i < n -> (El i j <-> j < n /\ Er (f i) (f j)).
Hypothesis Hr : forall x y, Er x y -> In x vol /\ In y vol.

Lemma reach_f : forall i j, reach El i j -> i < n -> j < n /\ reach Er (f i) (f j).
Proof.
  intros i j R. induction R as [i|i k j e R IH]; intros Hi; [split; auto; constructor|].
  apply (Hl i k Hi) in e. destruct e as [Hk e]. destruct (IH Hk) as [Hj R']. split; auto. econstructor; eauto.
Qed.
Lemma reach_f_inv : forall x y, reach Er x y -> forall i, i < n -> f i = x -> exists j, j < n /\ f j = y /\ reach El i j.
Proof.
  intros x y R. induction R as [x|x z y e R IH]; intros i Hi E.
  - exists i. split; auto. split; auto. constructor.
  - destruct (Hr x z e) as [_ Hz]. apply (In_nth _ _ 0) in Hz. destruct Hz as (k & Hk & Ek).
    destruct (IH k Hk Ek) as (j & Hj & Ej & R'). exists j. split; auto. split; auto. econstructor; [|exact R'].
    apply Hl; auto. split; auto. unfold f in *. now rewrite E, Ek.
Qed.
Lemma strong_f : forall i j, i < n -> j < n -> (strong El i j <-> strong Er (f i) (f j)).
Proof.
  assert (G : forall i j, i < n -> j < n -> reach Er (f i) (f j) -> reach El i j).
  { intros i j Hi Hj R. destruct (reach_f_inv _ _ R i Hi eq_refl) as (k & Hk & Ek & R').
    apply (nth_inj vol) in Ek; auto. now subst. }
  intros i j Hi Hj. unfold strong. split; intros [A B]; split; auto; try (now apply reach_f); now apply G.
Qed.

Lemma components_f : forall sccs, components El (fun i => i < n) sccs -> components Er (fun x => In x vol) (map (map f) sccs).
Proof.
  intros sccs (H1 & H2 & H3 & H4 & H5).
  assert (CM : forall l, concat (map (map f) l) = map f (concat l)) by (intros; symmetry; apply concat_map).
  assert (HB : forall C i, In C sccs -> In i C -> i < n). { intros. apply H1. apply in_concat; eauto. }
  split; [|split; [|split; [|split]]].
  - intros x. rewrite CM, in_map_iff. split.
    + intros Hx. apply (In_nth _ _ 0) in Hx. destruct Hx as (i & Hi & E). exists i. split; auto. now apply H1.
    + intros (i & <- & Hi). apply H1 in Hi. now apply nth_In.
  - rewrite CM. apply NoDup_map_on; auto. intros i j Hi Hj. apply H1 in Hi, Hj. now apply nth_inj.
  - intros C HC. apply in_map_iff in HC. destruct HC as (D & <- & HD). apply H3 in HD. now destruct D.
  - intros C x y HC Hx. apply in_map_iff in HC. destruct HC as (D & <- & HD). apply in_map_iff in Hx. destruct Hx as (i & <- & Hi).
    pose proof (HB D i HD Hi) as Li. split.
    + intros Hy. apply in_map_iff in Hy. destruct Hy as (j & <- & Hj). apply strong_f; auto. { eapply HB; eauto. } apply (H4 D i j HD Hi). exact Hj.
    + intros St. destruct St as [A B]. destruct (reach_f_inv _ _ A i Li eq_refl) as (j & Hj & <- & R').
      apply in_map_iff. exists j. split; auto. apply (H4 D i j HD Hi). apply strong_f; auto. split; auto.
  - intros pre C post x y Hs Hx Exy. apply map_app_cons_inv in Hs. destruct Hs as (lp & D & lq & Hs & -> & -> & ->).
    apply in_map_iff in Hx. destruct Hx as (i & <- & Hi).
    assert (HD : In D sccs) by (rewrite Hs; apply in_or_app; right; now left).
    destruct (Hr _ _ Exy) as [_ Hy]. apply (In_nth _ _ 0) in Hy. destruct Hy as (j & Hj & <-).
    rewrite CM. destruct (H5 lp D lq i j Hs Hi) as [H|H].
    + apply Hl; eauto.
    + left. change (nth j vol 0) with (f j). now apply in_map.
    + right. change (nth j vol 0) with (f j). now apply in_map.
Qed.
End Transport.

Lemma needs_in : forall D vs x y, needs D vs x y -> In x vs /\ In y vs.
Proof. unfold needs. tauto. Qed.

Theorem tarjan_scc_ok : forall deps vertices vdeps, exists sccs,
  tarjan_scc deps vertices vdeps = Ok sccs /\
  components (needs (fun v => deps v ++ vdeps v) vertices) (fun x => In x vertices) sccs.
Proof.
  intros deps vertices vdeps. unfold tarjan_scc. set (vol := dedup vertices).
  set (adj := fun i => map (local_of vol) (deps (nth i vol 0) ++ vdeps (nth i vol 0))).
  set (Er := needs (fun v => deps v ++ vdeps v) vertices).
  assert (VND : NoDup vol) by apply dedup_NoDup.
  assert (VIN : forall x, In x vol <-> In x vertices) by (intros; apply dedup_in).
  assert (Hl : forall i j, i < length vol -> (E adj i j <-> j < length vol /\ Er (nth i vol 0) (nth j vol 0))).
  { intros i j Hi. unfold E, adj, Er, needs. rewrite in_map_iff. split.
    - intros (d & Hd & I). apply local_of_some in Hd. destruct Hd as [Hj <-]. split; auto. repeat split; auto; apply VIN; now apply nth_In.
    - intros (Hj & _ & _ & I). exists (nth j vol 0). split; auto. now apply local_of_nth. }
  destruct (tarjan_ok adj (seq 0 (length vol)) (seq_NoDup _ 0)) with (roots := map (fun v => match local_of vol v with Some i => i | None => 0 end) vertices)
    as (sccs & Ht & Hc).
  { intros v w Hv Hw. apply in_seq in Hv. change (E adj v w) in Hw. apply Hl in Hw; [|lia]. apply in_seq. lia. }
  { intros r. rewrite in_map_iff, in_seq. split.
    - intros (v & <- & Iv). apply VIN in Iv. destruct (local_of_in vol v Iv) as (i & Ei). rewrite Ei. apply local_of_some in Ei. lia.
    - intros H. exists (nth r vol 0). rewrite local_of_nth by (auto; lia). split; auto. apply VIN. apply nth_In. lia. }
  rewrite Ht. cbn [lift rbind]. eexists. split; [reflexivity|].
  assert (Hc2 : components (E adj) (fun i => i < length vol) sccs).
  { eapply components_ext; [intros; reflexivity| |exact Hc]. intros x. cbn. rewrite in_seq. lia. }
  eapply components_ext; [intros; reflexivity|exact VIN|].
  apply (components_f vol VND (E adj) Er Hl); auto.
  intros x y H. apply needs_in in H. now rewrite !VIN.
Qed.
