(** Proofs about RcModel.v: running a schedule. *)
From Coq Require Import Permutation.
From Verif Require Import Base ListSort GraphSpec TarjanModel SchedModel SchedSpec SchedProofs2 SchedProofs5
  DirtyModel DirtyProofs RcModel RcSpec RcProofs.

Section P.
Variable V : Type.
Variable circ : V.
Implicit Types b : book V.

Section Units.
Variables (pool : bool) (t : nat) (b0 : book V) (vs : list nat) (s : schedule) (D : nat -> list nat).
Hypothesis G : good_schedule (needs D vs) vs s.
Hypothesis PL : plain_book V b0.
Hypothesis FO : forall v, In v vs -> b_form b0 v <> None.
Hypothesis DE : forall f u, In f vs -> In u vs -> reads b0 f u -> In u (D f).

Definition mem (us : list sunit) : list nat := concat (map (unit_members s) us).
Lemma mem_app : forall a c, mem (a ++ c) = mem a ++ mem c.
Proof. intros. unfold mem. now rewrite map_app, concat_app. Qed.
Lemma mem_walk : forall us post x, units s = us ++ post -> In x (mem us) -> In x vs.
Proof.
  intros us post x E I. destruct G as (_ & _ & _ & W & _). apply W. change (walk s) with (mem (units s)).
  rewrite E, mem_app. apply in_or_app; now left.
Qed.
Lemma reads_before : forall pre u post x y, units s = pre ++ u :: post -> In x (unit_members s u) -> reads b0 x y -> In y vs ->
  In y (mem pre) \/ (In y (unit_members s u) /\ exists i, u = UCycle i).
Proof.
  intros pre u post x y E I R Y. destruct G as (_ & _ & _ & W & _ & _ & L).
  assert (X : In x vs).
  { apply (mem_walk (pre ++ [u]) post); [now rewrite <- app_assoc|]. rewrite mem_app. apply in_or_app; right. unfold mem; cbn. now rewrite app_nil_r. }
  destruct (L pre u post x y E I) as [K|(K & _ & Q)]; [split; auto|now left|right; auto].
Qed.
Lemma reads_closed : forall pre post x y, units s = pre ++ post -> In x (mem pre) -> reads b0 x y -> In y vs -> In y (mem pre).
Proof.
  intros pre post x y E I R Y. unfold mem in I. apply in_concat in I. destruct I as (m & Hm & Hx). apply in_map_iff in Hm.
  destruct Hm as (u & <- & Hu). apply in_split in Hu. destruct Hu as (p1 & p2 & ->). rewrite <- app_assoc in E. cbn in E.
  rewrite mem_app. apply in_or_app. destruct (reads_before _ _ _ _ y E Hx R Y) as [K|[K _]]; [now left|right].
  unfold mem; cbn. apply in_or_app; now left.
Qed.
Lemma disjoint : forall pre us x, units s = pre ++ us -> In x (mem pre) -> In x (mem us) -> False.
Proof.
  intros pre us x E I J. destruct G as (_ & _ & ND & _). change (NoDup (mem (units s))) in ND. rewrite E, mem_app in ND.
  revert ND I J. generalize (mem pre) as a, (mem us) as c. induction a as [|z a IH]; intros c ND I J; [destruct I|].
  cbn in ND. inversion ND as [|? ? N0 N1]; subst. destruct I as [->|I]; [apply N0, in_or_app; now right|eauto].
Qed.
Lemma nodup_unit : forall pre u post, units s = pre ++ u :: post -> NoDup (unit_members s u).
Proof.
  intros pre u post E. destruct G as (_ & _ & ND & _). change (NoDup (mem (units s))) in ND. rewrite E, mem_app in ND.
  unfold mem at 2 in ND. cbn in ND.
  assert (K : forall a c : list nat, NoDup (a ++ c) -> NoDup c /\ NoDup a).
  { induction a as [|z a IH]; intros c H; cbn in H; [split; auto; constructor|]. inversion H; subst.
    destruct (IH c H3). split; auto. constructor; auto. intros Q. apply H2, in_or_app; now left. }
  apply K in ND. destruct ND as [ND _]. apply K in ND. tauto.
Qed.

(** [b] after the units [pre]. *)
Definition midway (pre : list sunit) b : Prop :=
  same_frame V b0 b /\ (forall u, ~ In u (mem pre) -> b_val b u = b_val b0 u) /\
  (forall i x, In (ULayer i) pre -> In x (nth i (layers s) []) -> b_val b x = val_of V t b x) /\
  (forall i x, In (UCycle i) pre -> In x (nth i (cycles s) []) -> b_val b x = circ).

Lemma form_frame : forall b v, same_frame V b0 b -> In v vs -> b_form b v <> None.
Proof. intros b v (_ & E & _) I. rewrite E. now apply FO. Qed.
Lemma reads_frame : forall b, same_frame V b0 b -> forall f u, reads b f u <-> reads b0 f u.
Proof. intros b (_ & E & _) f u. unfold reads. rewrite E. tauto. Qed.
Lemma in_unit_mem : forall pre u x, In u pre -> In x (unit_members s u) -> In x (mem pre).
Proof. intros. unfold mem. apply in_concat. exists (unit_members s u). split; auto. now apply in_map. Qed.

Lemma run_units_ok : forall us pre b, units s = pre ++ us -> midway pre b ->
  exists b', run_units V circ pool t s us b = Some b' /\ midway (units s) b'.
Proof.
  induction us as [|u us IH]; intros pre b E (Fr & Out & La & Cy).
  - rewrite app_nil_r in E. rewrite <- E in *. exists b. split; auto. split; auto.
  - assert (E' : units s = (pre ++ [u]) ++ us) by (now rewrite <- app_assoc).
    assert (Iu : forall x, In x (unit_members s u) -> In x vs).
    { intros x Hx. apply (mem_walk (pre ++ [u]) us x E'). rewrite mem_app. apply in_or_app; right.
      unfold mem; cbn; now rewrite app_nil_r. }
    assert (Dj : forall x, In x (mem pre) -> ~ In x (unit_members s u)).
    { intros x Hx Hy. apply (disjoint pre (u :: us) x E Hx). unfold mem; cbn. apply in_or_app; now left. }
    (* whatever is written only in [u], the finished layers stay right *)
    assert (Keep : forall b1, same_frame V b b1 -> (forall x, ~ In x (unit_members s u) -> b_val b1 x = b_val b x) ->
      (forall i x, In (ULayer i) pre -> In x (nth i (layers s) []) -> b_val b1 x = val_of V t b1 x) /\
      (forall i x, In (UCycle i) pre -> In x (nth i (cycles s) []) -> b_val b1 x = circ)).
    { intros b1 F1 K1. split.
      - intros i x Hi Hx. assert (Mx : In x (mem pre)) by (apply (in_unit_mem pre (ULayer i)); auto).
        rewrite K1 by (now apply Dj). rewrite (La i x Hi Hx). symmetry. apply val_frame; auto.
        + apply form_frame; auto. apply (mem_walk pre (u :: us)); auto.
        + intros y R. apply K1. intros Hy. apply (Dj y); auto. apply (reads_closed pre (u :: us) x); auto.
          now apply (reads_frame b Fr).
      - intros i x Hi Hx. rewrite K1; [eauto|]. apply Dj. apply (in_unit_mem pre (UCycle i)); auto. }
    assert (Step : forall b1, same_frame V b b1 -> (forall x, ~ In x (unit_members s u) -> b_val b1 x = b_val b x) ->
      (forall i x, u = ULayer i -> In x (nth i (layers s) []) -> b_val b1 x = val_of V t b1 x) ->
      (forall i x, u = UCycle i -> In x (nth i (cycles s) []) -> b_val b1 x = circ) ->
      midway (pre ++ [u]) b1).
    { intros b1 F1 K1 L1 C1. destruct (Keep b1 F1 K1) as [L0 C0]. split; [eapply frame_trans; eauto|]. split; [|split].
      - intros x Hx. rewrite K1, Out; auto.
        + intros K. apply Hx. rewrite mem_app. apply in_or_app; now left.
        + intros K. apply Hx. rewrite mem_app. apply in_or_app; right. unfold mem; cbn; now rewrite app_nil_r.
      - intros i x Hi Hx. apply in_app_or in Hi. destruct Hi as [Hi|[Hi|[]]]; eauto.
      - intros i x Hi Hx. apply in_app_or in Hi. destruct Hi as [Hi|[Hi|[]]]; eauto. }
    destruct u as [i|i]; cbn [run_units].
    + destruct (run_layer_ok V pool t (nth i (layers s) []) b) as (b1 & R1 & F1 & V1).
      * eapply frame_plain; eauto.
      * intros v Hv. apply form_frame; auto.
      * intros x y Hx Hy R. apply (reads_frame b Fr) in R.
        destruct (reads_before pre (ULayer i) us x y E Hx R (Iu y Hy)) as [K|[_ (j & Q)]]; [|discriminate].
        apply (Dj y K Hy).
      * apply (nodup_unit pre (ULayer i) us E).
      * rewrite R1. apply (IH (pre ++ [ULayer i]) b1 E'). apply Step; auto.
        -- intros x Hx. rewrite V1. replace (memb x (nth i (layers s) [])) with false; auto. symmetry. now apply memb_false.
        -- intros j x Q Hx. injection Q as <-. rewrite V1. pose proof (proj2 (memb_spec x (nth i (layers s) [])) Hx) as M. rewrite M.
           symmetry. apply val_frame; auto; [apply form_frame; auto|]. intros y R. apply (reads_frame b Fr) in R. rewrite V1.
           replace (memb y (nth i (layers s) [])) with false; auto. symmetry. apply memb_false. intros Hy.
           destruct (reads_before pre (ULayer i) us x y E Hx R (Iu y Hy)) as [K|[_ (j & Q)]]; [|discriminate].
           apply (Dj y K Hy).
        -- intros j x Q. discriminate.
    + destruct (run_cycle_ok V circ (nth i (cycles s) []) b) as [F1 V1].
      apply (IH (pre ++ [UCycle i]) _ E'). apply Step; auto.
      * intros x Hx. rewrite V1. replace (memb x (nth i (cycles s) [])) with false; auto. symmetry. now apply memb_false.
      * intros j x Q. discriminate.
      * intros j x Q Hx. injection Q as <-. rewrite V1. pose proof (proj2 (memb_spec x (nth i (cycles s) [])) Hx) as M. now rewrite M.
Qed.

(** The whole schedule. *)
Lemma run_schedule_ok : exists b', run_units V circ pool t s (units s) b0 = Some b' /\ same_frame V b0 b' /\
  (forall u, ~ In u vs -> b_val b' u = b_val b0 u) /\
  (forall f, In f vs -> (on_cycle (needs D vs) f -> b_val b' f = circ) /\
                        (~ on_cycle (needs D vs) f -> b_val b' f = val_of V t b' f)).
Proof.
  destruct (run_units_ok (units s) [] b0) as (b' & R & Fr & Out & La & Cy); auto.
  - split; [apply frame_refl|]. split; auto. split; intros i x [].
  - exists b'. split; auto. split; auto. destruct G as (_ & _ & _ & W & NL & YC & _). split.
    + intros u N. apply Out. intros K. apply N. apply W, K.
    + intros f I. apply W in I. unfold walk in I. apply in_concat in I. destruct I as (m & Hm & Hf).
      apply in_map_iff in Hm. destruct Hm as ([i|i] & <- & Hu); cbn in Hf.
      * split; [intros C; destruct (NL i f Hu Hf C)|intros _; eauto].
      * split; [eauto|]. intros C. destruct (C (proj1 (YC i f f Hu Hf))).
Qed.
End Units.
End P.
