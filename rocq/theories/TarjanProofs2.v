From Coq Require Import Sorted.
From Verif Require Import Base TarjanModel GraphSpec TarjanProofs.

Section Tarjan.
Variable adj : nat -> list (option nat).
Variable nodes : list nat.
Hypothesis nodes_nodup : NoDup nodes.
Hypothesis nodes_closed : forall v w, In v nodes -> In (Some w) (adj v) -> In w nodes.
Notation E := (E adj).
Notation inv := (inv adj).

(** ** Termination *)
Definition weight (v : nat) : nat := S (S (length (adj v))).
Definition todo (idx : nat -> option nat) (l : list nat) : nat :=
  fold_right (fun v acc => (match idx v with None => weight v | Some _ => 0 end) + acc) 0 l.
Definition fwork (fs : list (nat * list (option nat))) : nat :=
  fold_right (fun f acc => S (length (snd f)) + acc) 0 fs.
Definition mu (st : tstate) : nat := todo (t_index st) nodes + fwork (t_frames st).

Lemma todo_visit : forall idx l w i, NoDup l -> In w l -> idx w = None ->
  todo idx l = todo (fupd idx w (Some i)) l + weight w.
Proof.
  intros idx l w i. induction l as [|a l IH]; intros N H Hw; [destruct H|]. inversion N; subst. cbn [todo fold_right].
  destruct H as [->|H].
  - rewrite fupd_same, Hw. assert (todo idx l = todo (fupd idx w (Some i)) l); [|unfold todo in *; lia].
    clear - H2. induction l as [|b l IH]; cbn; auto. assert (Q : todo idx l = todo (fupd idx w (Some i)) l) by (apply IH; intros Hx; apply H2; now right). unfold todo in Q. rewrite Q.
    rewrite fupd_other; auto. intros ->. apply H2. now left.
  - rewrite fupd_other by (intros ->; contradiction). specialize (IH H3 H Hw). unfold todo in *. lia.
Qed.

Definition inside (st : tstate) : Prop := forall x, visited st x -> In x nodes.

Lemma tstep_mu : forall st st', inv st -> inside st -> t_frames st <> [] -> tstep adj st = Ok st' ->
  inside st' /\ mu st' < mu st /\ (forall x, visited st x -> visited st' x).
Proof.
  intros st st' I Ins NE H. unfold tstep in H. destruct (t_frames st) as [|[v [|o r]] fs] eqn:F; [congruence| |].
  - destruct (t_index st v) as [iv|] eqn:Ev; [|discriminate]. destruct (Nat.eqb (t_low st v) iv).
    + destruct (pop_until v (t_stack st)) as [[scc rest]|]; [|discriminate]. inversion H; subst st'. clear H.
      split; [exact Ins|]. split; [|auto]. unfold mu. rewrite F. cbn [t_index t_frames fwork fold_right snd length]. lia.
    + inversion H; subst st'. clear H.
      split; [exact Ins|]. split; [|auto]. unfold mu. rewrite F. cbn [t_index t_frames fwork fold_right snd length]. lia.
  - assert (Hv : In v nodes). { apply Ins. apply (stack_visited adj); auto. apply (i_fstack adj st I v (o :: r)). rewrite F. now left. }
    destruct o as [w|].
    + destruct (t_index st w) as [iw|] eqn:Ew.
      * inversion H; subst st'. clear H. split; [exact Ins|]. split; [|auto]. unfold mu. rewrite F. cbn [t_index t_frames fwork fold_right snd length]. lia.
      * inversion H; subst st'. clear H.
        assert (Hw : In w nodes).
        { apply (nodes_closed v); auto. destruct (i_fsuffix adj st I v (Some w :: r)) as (d & Hd); [rewrite F; now left|]. rewrite Hd. apply in_or_app; right; now left. }
        split; [|split].
        -- intros x V. destruct (Nat.eq_dec x w) as [->|Hx]; auto. apply Ins. unfold visited, visit in *. cbn [t_index] in V. now rewrite fupd_other in V.
        -- unfold mu. rewrite F, (todo_visit (t_index st) nodes w (t_next st) nodes_nodup Hw Ew).
           unfold visit. cbn [t_index t_frames fwork fold_right snd length]. unfold weight. lia.
        -- intros x V. unfold visited, visit in *. cbn [t_index]. destruct (Nat.eq_dec x w) as [->|Hx]; [rewrite fupd_same; discriminate|now rewrite fupd_other].
    + inversion H; subst st'. clear H. split; [exact Ins|]. split; [|auto]. unfold mu. rewrite F. cbn [t_index t_frames fwork fold_right snd length]. lia.
Qed.

Lemma tloop_ok : forall fuel st, inv st -> inside st -> mu st < fuel ->
  exists st', tloop adj fuel st = Ok st' /\ inv st' /\ inside st' /\ t_frames st' = [] /\
    (forall x, visited st x -> visited st' x).
Proof.
  induction fuel as [|fuel IH]; intros st I Ins L; [lia|].
  cbn [tloop]. destruct (t_frames st) as [|f fs] eqn:F; [exists st; auto|].
  destruct (tstep_inv adj st I) as (st1 & H1 & I1). rewrite H1. cbn [rbind].
  destruct (tstep_mu st st1 I Ins ltac:(congruence) H1) as (Ins1 & L1 & V1).
  destruct (IH st1 I1 Ins1 ltac:(lia)) as (st2 & H2 & I2 & Ins2 & F2 & V2). exists st2. rewrite H2. auto 10.
Qed.

Lemma todo_total : forall idx, todo idx nodes < tfuel adj nodes.
Proof.
  intros idx. unfold tfuel. apply Nat.lt_succ_r. clear. induction nodes as [|a l IH]; [apply Nat.le_refl|].
  cbn [todo fold_right]. unfold todo in IH. unfold weight at 1. destruct (idx a); lia.
Qed.

Lemma troots_ok : forall roots st, inv st -> inside st -> t_frames st = [] -> (forall r, In r roots -> In r nodes) ->
  exists st', troots adj (tfuel adj nodes) roots st = Ok st' /\ inv st' /\ inside st' /\ t_frames st' = [] /\
    (forall x, visited st x -> visited st' x) /\ (forall r, In r roots -> visited st' r).
Proof.
  induction roots as [|r roots IH]; intros st I Ins F R.
  - exists st. cbn. intuition.
  - cbn [troots]. destruct (t_index st r) as [i|] eqn:Er.
    + destruct (IH st I Ins F (fun x Hx => R x (or_intror Hx))) as (st' & H & I' & Ins' & F' & V' & Rv). exists st'. rewrite H.
      split; auto. split; auto. split; auto. split; auto. split; auto. intros x [<-|Hx]; auto. apply V'. unfold visited. congruence.
    + assert (Ir : inv (visit adj r [] st)) by (apply visit_inv; auto).
      assert (Vr : forall x, visited st x -> visited (visit adj r [] st) x).
      { intros x V. unfold visited, visit in *. cbn [t_index]. destruct (Nat.eq_dec x r) as [->|Hx]; [rewrite fupd_same; discriminate|now rewrite fupd_other]. }
      assert (Vrr : visited (visit adj r [] st) r) by (unfold visited, visit; cbn [t_index]; rewrite fupd_same; discriminate).
      assert (Insr : inside (visit adj r [] st)).
      { intros x V. destruct (Nat.eq_dec x r) as [->|Hx]; [apply R; now left|]. apply Ins. unfold visited, visit in *. cbn [t_index] in V. now rewrite fupd_other in V. }
      assert (L : mu (visit adj r [] st) < tfuel adj nodes).
      { pose proof (todo_total (t_index st)). rewrite (todo_visit (t_index st) nodes r (t_next st) nodes_nodup (R r (or_introl eq_refl)) Er) in H.
        unfold mu, visit. cbn [t_index t_frames fwork fold_right snd length]. unfold weight in *. lia. }
      destruct (tloop_ok _ _ Ir Insr L) as (st1 & H1 & I1 & Ins1 & F1 & V1).
      destruct (IH st1 I1 Ins1 F1 (fun x Hx => R x (or_intror Hx))) as (st2 & H2 & I2 & Ins2 & F2 & V2 & Rv).
      exists st2. rewrite H1. cbn [rbind]. rewrite H2. split; auto. split; auto. split; auto. split; auto. split; auto.
      intros x [<-|Hx]; auto.
Qed.

(** ** The emitted lists are the components *)
Lemma prefix_closed : forall st pre post x y, inv st -> t_sccs st = pre ++ post -> In x (concat pre) -> reach E x y -> In y (concat pre).
Proof.
  intros st pre post x y I HS Hx R. induction R as [x|x z y Hxz R IH]; auto. apply IH.
  apply in_concat in Hx as (C & HC & HxC). apply in_split in HC as (p1 & p2 & ->).
  rewrite <- app_assoc in HS. cbn in HS.
  destruct (i_closed adj st I p1 C (p2 ++ post) x z HS HxC Hxz) as [H|H]; rewrite concat_app; apply in_or_app.
  - now left.
  - right. cbn. apply in_or_app. now left.
Qed.

Lemma final_components : forall st, inv st -> t_frames st = [] -> components E (visited st) (t_sccs st).
Proof.
  intros st I F.
  assert (SE : forall x, ~ In x (t_stack st)).
  { intros x Hx. destruct (i_owner adj st I x Hx) as (f & Of & _). apply owner_in in Of as [Of _]. unfold framed in Of. rewrite F in Of. destruct Of. }
  split; [|split; [|split; [|split]]].
  - intros x. rewrite (i_part adj st I). unfold emitted. split; [intros [H|H]; auto; exfalso; eapply SE; eauto|auto].
  - exact (i_nodup adj st I).
  - intros C HC. exact (proj1 (i_strong adj st I C HC)).
  - intros C x y HC Hx. split.
    + intros Hy. destruct (i_strong adj st I C HC) as [_ S0]. split; apply S0; auto.
    + intros [R1 R2]. apply in_split in HC as (pre & post & HS).
      assert (H1 : In y (concat (pre ++ [C]))).
      { apply (prefix_closed st (pre ++ [C]) post x); auto; [now rewrite <- app_assoc|]. rewrite concat_app. apply in_or_app. right. cbn. now rewrite app_nil_r. }
      rewrite concat_app in H1. apply in_app_or in H1 as [H1|H1]; [|cbn in H1; now rewrite app_nil_r in H1].
      exfalso. assert (H2 : In x (concat pre)) by (apply (prefix_closed st pre (C :: post) y); auto).
      pose proof (i_nodup adj st I) as ND. rewrite HS, concat_app in ND. cbn in ND.
      clear - ND H2 Hx. induction (concat pre) as [|a l IH]; [destruct H2|]. inversion ND; subst. destruct H2 as [->|H2].
      * apply H1. apply in_or_app. right. apply in_or_app. now left.
      * now apply IH.
  - exact (i_closed adj st I).
Qed.

Lemma tarjan_ok : forall roots, (forall r, In r roots <-> In r nodes) ->
  exists sccs, tarjan adj nodes roots = Ok sccs /\ components E (fun x => In x nodes) sccs.
Proof.
  intros roots R. unfold tarjan.
  assert (Ins0 : inside tinit) by (intros x V; exfalso; apply V; reflexivity).
  destruct (troots_ok roots tinit (inv_init adj) Ins0 eq_refl (fun r Hr => proj1 (R r) Hr)) as (st & H & I & Ins & F & _ & V).
  exists (t_sccs st). rewrite H. cbn [rbind]. split; auto.
  destruct (final_components st I F) as (C1 & C2 & C3 & C4 & C5).
  split; [|split; [|split; [|split]]]; auto.
  intros x. rewrite <- C1. split; [intros Hx; apply V; now apply R|apply Ins].
Qed.
End Tarjan.
