From Coq Require Import Sorted.
From Verif Require Import Base TarjanModel GraphSpec.

(** ** Generic helpers *)
Lemma fupd_same : forall A (f : nat -> A) x a, fupd f x a x = a.
Proof. intros. unfold fupd. now rewrite Nat.eqb_refl. Qed.
Lemma fupd_other : forall A (f : nat -> A) x a y, y <> x -> fupd f x a y = f y.
Proof. intros. unfold fupd. destruct (Nat.eqb_spec y x); congruence. Qed.

Lemma SSorted_ext : forall A (R R' : A -> A -> Prop) l,
  (forall x y, In x l -> In y l -> R x y -> R' x y) -> StronglySorted R l -> StronglySorted R' l.
Proof.
  intros A R R' l H S0. induction S0 as [|a l S1 IH F]; constructor.
  - apply IH. intros x y Hx Hy. apply H; now right.
  - rewrite Forall_forall in *. intros y Hy. apply H; [now left|now right|now apply F].
Qed.
Lemma SSorted_tail : forall A (R : A -> A -> Prop) a l, StronglySorted R (a :: l) -> StronglySorted R l /\ forall x, In x l -> R a x.
Proof. intros A R a l H. inversion H; subst. split; auto. now apply Forall_forall. Qed.
Lemma SSorted_cons : forall A (R : A -> A -> Prop) a l, StronglySorted R l -> (forall x, In x l -> R a x) -> StronglySorted R (a :: l).
Proof. intros. constructor; auto. now apply Forall_forall. Qed.

Lemma find_ext : forall A (f g : A -> bool) l, (forall x, In x l -> f x = g x) -> find f l = find g l.
Proof.
  intros A f g l. induction l as [|a l IH]; intros H; cbn; auto.
  rewrite (H a) by now left. destruct (g a); auto. apply IH. intros x Hx. apply H. now right.
Qed.

Lemma reach_trans : forall (E : nat -> nat -> Prop) x y z, reach E x y -> reach E y z -> reach E x z.
Proof. intros E x y z H. induction H; auto. intros. eapply r_step; eauto. Qed.
Lemma reach_edge : forall (E : nat -> nat -> Prop) x y, E x y -> reach E x y.
Proof. intros. eapply r_step; eauto. constructor. Qed.

Section Tarjan.
Variable adj : nat -> list (option nat).
Definition E (v w : nat) : Prop := In (Some w) (adj v).

Definition ix (st : tstate) (x : nat) : nat := match t_index st x with Some i => i | None => 0 end.
Definition visited (st : tstate) (x : nat) : Prop := t_index st x <> None.
Definition emitted (st : tstate) (x : nat) : Prop := In x (concat (t_sccs st)).
Definition framed (st : tstate) : list nat := map fst (t_frames st).
Definition owner (st : tstate) (x : nat) : option nat := find (fun f => ix st f <=? ix st x) (framed st).
(** The edge has been looked at. *)
Definition explored (st : tstate) (x y : nat) : Prop :=
  E x y /\ forall r, In (x, r) (t_frames st) -> exists d, adj x = d ++ r /\ In (Some y) d.

Record inv (st : tstate) : Prop := {
  i_lt : forall x i, t_index st x = Some i -> i < t_next st;
  i_inj : forall x y i, t_index st x = Some i -> t_index st y = Some i -> x = y;
  i_on : forall x, t_on st x = true <-> In x (t_stack st);
  i_part : forall x, visited st x <-> In x (t_stack st) \/ emitted st x;
  i_disj : forall x, In x (t_stack st) -> ~ emitted st x;
  i_sorted : StronglySorted (fun x y => ix st y < ix st x) (t_stack st);
  i_nodup : NoDup (concat (t_sccs st));
  i_fsorted : StronglySorted (fun f g => ix st g < ix st f /\ reach E g f) (framed st);
  i_fstack : forall v r, In (v, r) (t_frames st) -> In v (t_stack st);
  i_fsuffix : forall v r, In (v, r) (t_frames st) -> exists d, adj v = d ++ r;
  i_low : forall v r, In (v, r) (t_frames st) ->
    t_low st v <= ix st v /\ exists y, In y (t_stack st) /\ ix st y = t_low st v /\ reach E v y;
  i_expl : forall x y, visited st x -> explored st x y -> visited st y;
  i_owner : forall x, In x (t_stack st) -> exists f, owner st x = Some f /\ reach E f x;
  i_nonframe : forall x, In x (t_stack st) -> ~ In x (framed st) ->
    exists y, In y (t_stack st) /\ ix st y < ix st x /\ reach E x y;
  i_back : forall x y f, In x (t_stack st) -> In y (t_stack st) -> explored st x y ->
    owner st x = Some f -> t_low st f <= ix st y;
  i_closed : forall pre C post x y, t_sccs st = pre ++ C :: post -> In x C -> E x y -> In y (concat pre) \/ In y C;
  i_strong : forall C, In C (t_sccs st) -> C <> [] /\ forall x y, In x C -> In y C -> reach E x y
}.

Lemma in_framed : forall st v, In v (framed st) <-> exists r, In (v, r) (t_frames st).
Proof.
  intros st v. unfold framed. rewrite in_map_iff. split.
  - intros ((v', r) & <- & H). eauto.
  - intros (r & H). exists (v, r). auto.
Qed.

Lemma ix_inj : forall st x y, inv st -> visited st x -> visited st y -> ix st x = ix st y -> x = y.
Proof.
  intros st x y I Vx Vy H. unfold ix, visited in *. destruct (t_index st x) eqn:Ex; [|congruence].
  destruct (t_index st y) eqn:Ey; [|congruence]. subst. eapply i_inj; eauto.
Qed.
Lemma stack_visited : forall st x, inv st -> In x (t_stack st) -> visited st x.
Proof. intros. apply i_part; auto. Qed.
Lemma ix_lt : forall st x, inv st -> visited st x -> ix st x < t_next st.
Proof. intros st x I V. unfold ix, visited in *. destruct (t_index st x) eqn:Ex; [|congruence]. eapply i_lt; eauto. Qed.

(** The owner of a framed node is the node itself. *)
Lemma owner_sorted : forall st l x, StronglySorted (fun f g => ix st g < ix st f /\ reach E g f) l -> In x l ->
  find (fun f => ix st f <=? ix st x) l = Some x.
Proof.
  intros st l x. induction l as [|a l IH]; intros S0 H; [destruct H|]. cbn. apply SSorted_tail in S0 as [S1 F]. destruct H as [->|H].
  - now rewrite Nat.leb_refl.
  - destruct (F x H) as [L _]. destruct (Nat.leb_spec (ix st a) (ix st x)); [lia|]. now apply IH.
Qed.
Lemma owner_framed : forall st x, inv st -> In x (framed st) -> owner st x = Some x.
Proof. intros st x I H. apply owner_sorted; auto. apply i_fsorted; auto. Qed.
Lemma owner_in : forall st x f, owner st x = Some f -> In f (framed st) /\ ix st f <= ix st x.
Proof. intros st x f H. apply find_some in H as [H1 H2]. apply Nat.leb_le in H2. auto. Qed.

(** When [v] is the top frame, whatever lies at or above it on the stack is its own. *)
Lemma owner_top : forall st v r fs x, t_frames st = (v, r) :: fs ->
  ix st v <= ix st x -> owner st x = Some v.
Proof.
  intros st v r fs x F L. unfold owner, framed. rewrite F. cbn [map fst find].
  destruct (Nat.leb_spec (ix st v) (ix st x)); [reflexivity|lia].
Qed.

(** Two frames of the same node are the same frame. *)
Lemma frame_unique : forall st v r r' fs, inv st -> t_frames st = (v, r) :: fs -> In (v, r') fs -> False.
Proof.
  intros st v r r' fs I F H. pose proof (i_fsorted st I) as S0. unfold framed in S0. rewrite F in S0. cbn in S0.
  apply SSorted_tail in S0 as [_ S1]. destruct (S1 v); [|lia]. apply in_map_iff. exists (v, r'). auto.
Qed.

(** ** The initial state *)
Lemma inv_init : inv tinit.
Proof.
  constructor; unfold visited, emitted, explored, framed, tinit; cbn;
    try (intros; contradiction); try (intros; congruence); try constructor; try tauto; try (intros; discriminate).
  destruct pre; discriminate.
Qed.

(** ** Visiting a new node *)
Lemma visit_inv : forall st w fs,
  inv st -> t_index st w = None ->
  (* either a root, or the edge just taken *)
  (t_frames st = [] /\ fs = [] \/
   exists v r fs', t_frames st = (v, Some w :: r) :: fs' /\ fs = (v, r) :: fs') ->
  inv (visit adj w fs st).
Proof.
  intros st w fs I Hw HF.
  set (st' := visit adj w fs st).
  assert (NV : forall x, visited st x -> x <> w) by (intros x V ->; apply V; exact Hw).
  assert (NS : forall x, In x (t_stack st) -> x <> w) by (intros x V; apply NV; now apply stack_visited).
  assert (IXo : forall x, x <> w -> ix st' x = ix st x).
  { intros x Hx. unfold ix, st', visit; cbn [t_index]. now rewrite fupd_other. }
  assert (IXw : ix st' w = t_next st).
  { unfold ix, st', visit; cbn [t_index]. now rewrite fupd_same. }
  assert (Vis : forall x, visited st' x <-> visited st x \/ x = w).
  { intros x. unfold visited, st', visit; cbn [t_index]. destruct (Nat.eq_dec x w) as [->|Hx].
    - rewrite fupd_same. split; [tauto|discriminate].
    - rewrite fupd_other by auto. tauto. }
  assert (FR : framed st' = w :: framed st).
  { unfold framed, st', visit; cbn [t_frames map fst]. f_equal.
    destruct HF as [[F ->]|(v & r & fs' & F & ->)]; rewrite F; reflexivity. }
  assert (FSt : forall v, In v (framed st) -> In v (t_stack st)).
  { intros v Hv. apply in_framed in Hv as (r & Hv). eapply i_fstack; eauto. }
  assert (OW : forall x, In x (t_stack st) -> owner st' x = owner st x).
  { intros x Hx. unfold owner. rewrite FR. cbn [find].
    rewrite IXw, (IXo x) by (now apply NS).
    pose proof (ix_lt st x I (stack_visited st x I Hx)).
    destruct (Nat.leb_spec (t_next st) (ix st x)); [lia|].
    apply find_ext. intros f Hf. rewrite IXo; auto. }
  assert (OWw : owner st' w = Some w).
  { unfold owner. rewrite FR. cbn [find]. now rewrite Nat.leb_refl. }
  assert (FIn : forall v r, In (v, r) (t_frames st') -> (v = w /\ r = adj w) \/
     (v <> w /\ In v (t_stack st) /\ exists r0, In (v, r0) (t_frames st) /\ (r0 = r \/ r0 = Some w :: r))).
  { intros v r Hin. unfold st', visit in Hin; cbn [t_frames] in Hin. destruct Hin as [E0|Hin]; [inversion E0; auto|].
    right. destruct HF as [[F ->]|(v0 & r0 & fs' & F & ->)]; [destruct Hin|].
    destruct Hin as [E0|Hin].
    - inversion E0; subst v0 r0. assert (In (v, Some w :: r) (t_frames st)) by (rewrite F; now left).
      pose proof (i_fstack st I _ _ H). split; [now apply NS|split; auto]. eauto.
    - assert (In (v, r) (t_frames st)) by (rewrite F; now right).
      pose proof (i_fstack st I _ _ H). split; [now apply NS|split; auto]. eauto. }
  assert (EX : forall x y, x <> w -> explored st' x y -> explored st x y \/ (y = w /\ exists r, In (x, Some w :: r) (t_frames st))).
  { intros x y Hx [Hxy Hr]. destruct HF as [[F F']|(v0 & r0 & fs' & F & F')].
    - left. split; auto. intros r Hin. rewrite F in Hin. destruct Hin.
    - destruct (Nat.eq_dec x v0) as [->|Hne].
      + destruct (Hr r0) as (d & Hd & Hin). { unfold st', visit; cbn [t_frames]. rewrite F'. right; now left. }
        destruct (i_fsuffix st I v0 (Some w :: r0)) as (d0 & Hd0). { rewrite F; now left. }
        assert (d = d0 ++ [Some w]).
        { apply app_inv_tail with r0. rewrite <- Hd, Hd0, <- app_assoc. reflexivity. }
        subst d. apply in_app_or in Hin as [Hin|[E0|[]]].
        * left. split; auto. intros r Hin'. rewrite F in Hin'. destruct Hin' as [E0|Hin'].
          -- inversion E0; subst r. eauto.
          -- exfalso. eapply frame_unique; eauto.
        * assert (y = w) by congruence. right. split; auto. exists r0. rewrite F. now left.
      + left. split; auto. intros r Hin. apply Hr. unfold st', visit; cbn [t_frames]. rewrite F'. rewrite F in Hin.
        destruct Hin as [E0|Hin]; [inversion E0; congruence|]. right; now right. }
  assert (EXw : forall y, ~ explored st' w y).
  { intros y [_ Hr]. destruct (Hr (adj w)) as (d & Hd & Hin). { left; reflexivity. }
    assert (d = []). { apply app_inv_tail with (adj w). symmetry. exact Hd. } subst d. destruct Hin. }
  constructor.
  - intros x i. unfold st', visit; cbn [t_index t_next]. destruct (Nat.eq_dec x w) as [->|Hx].
    + rewrite fupd_same. intros H; inversion H. lia.
    + rewrite fupd_other by auto. intros H. apply (i_lt st I) in H. lia.
  - intros x y i. unfold st', visit; cbn [t_index].
    destruct (Nat.eq_dec x w) as [->|Hx], (Nat.eq_dec y w) as [->|Hy]; rewrite ?fupd_same, ?fupd_other by auto; auto.
    + intros H H'. inversion H; subst i. apply (i_lt st I) in H'. lia.
    + intros H' H. inversion H; subst i. apply (i_lt st I) in H'. lia.
    + apply i_inj; auto.
  - intros x. unfold st', visit; cbn [t_on t_stack]. destruct (Nat.eq_dec x w) as [->|Hx].
    + rewrite fupd_same. split; auto. intros; now left.
    + rewrite fupd_other by auto. rewrite (i_on st I). split; [now right|]. intros [->|]; [congruence|auto].
  - intros x. rewrite Vis, (i_part st I). unfold emitted, st', visit; cbn [t_stack t_sccs]. split.
    + intros [[H|H]| ->]; [left; now right|now right|left; now left].
    + intros [[->|H]|H]; tauto.
  - intros x. unfold emitted, st', visit; cbn [t_stack t_sccs]. intros [<-|H].
    + intros H. apply (NV w); auto. apply (i_part st I). now right.
    + now apply (i_disj st I).
  - change (t_stack st') with (w :: t_stack st). apply SSorted_cons.
    + eapply SSorted_ext; [|exact (i_sorted st I)]. intros x y Hx Hy L. cbn beta in *. rewrite !IXo; auto.
    + intros x Hx. rewrite IXw, IXo by auto. apply ix_lt; auto. now apply stack_visited.
  - exact (i_nodup st I).
  - rewrite FR. apply SSorted_cons.
    + eapply SSorted_ext; [|exact (i_fsorted st I)]. cbn beta. intros x y Hx Hy [L R]. rewrite !IXo; auto.
    + intros f Hf. rewrite IXw, IXo by auto. split; [apply ix_lt; auto; apply stack_visited; auto|].
      destruct HF as [[F ->]|(v & r & fs' & F & ->)].
      * unfold framed in Hf. rewrite F in Hf. destruct Hf.
      * assert (Ev : E v w). { destruct (i_fsuffix st I v (Some w :: r)) as (d & Hd); [rewrite F; now left|]. unfold E. rewrite Hd. apply in_or_app; right; now left. }
        pose proof (i_fsorted st I) as S0. unfold framed in S0, Hf. rewrite F in S0, Hf. cbn in S0, Hf. destruct Hf as [<-|Hf].
        -- now apply reach_edge.
        -- apply SSorted_tail in S0 as [_ S1]. destruct (S1 f Hf). eapply reach_trans; eauto. now apply reach_edge.
  - intros v r Hin. apply FIn in Hin as [[-> _]|(_ & H & _)]; unfold st', visit; cbn [t_stack]; [now left|now right].
  - intros v r Hin. apply FIn in Hin as [[-> ->]|(_ & _ & r0 & H & [->| ->])].
    + now exists [].
    + now apply (i_fsuffix st I).
    + apply (i_fsuffix st I) in H as (d & Hd). exists (d ++ [Some w]). rewrite Hd, <- app_assoc. reflexivity.
  - intros v r Hin. apply FIn in Hin as [[-> ->]|(Hne & Hs & r0 & H & _)].
    + rewrite IXw. change (t_low st') with (fupd (t_low st) w (t_next st)). rewrite fupd_same. split; auto.
      exists w. split; [now left|]. rewrite IXw. split; auto. constructor.
    + destruct (i_low st I _ _ H) as [L (y & Hy & Ey & R)]. rewrite IXo by auto.
      change (t_low st') with (fupd (t_low st) w (t_next st)). rewrite fupd_other by auto. split; auto.
      exists y. split; [now right|]. rewrite IXo by auto. auto.
  - intros x y V Ex. apply Vis in V as [V| ->].
    + apply EX in Ex as [Ex|[-> _]]; [|apply Vis; auto|now apply NV]. apply Vis. left. eapply i_expl; eauto.
    + exfalso. eapply EXw; eauto.
  - intros x Hx. unfold st', visit in Hx; cbn [t_stack] in Hx. destruct Hx as [<-|Hx].
    + exists w. split; auto. constructor.
    + rewrite OW by auto. now apply (i_owner st I).
  - intros x Hx NF. rewrite FR in NF. change (t_stack st') with (w :: t_stack st) in *. destruct Hx as [<-|Hx]; [exfalso; apply NF; now left|].
    destruct (i_nonframe st I x Hx) as (y & Hy & L & R). { intros H; apply NF; now right. }
    exists y. split; [now right|]. rewrite !IXo by auto. auto.
  - intros x y f Hx Hy Ex Ow. unfold st', visit in Hx, Hy; cbn [t_stack] in Hx, Hy.
    destruct Hx as [<-|Hx]; [exfalso; eapply EXw; eauto|].
    rewrite OW in Ow by auto. pose proof (owner_in _ _ _ Ow) as [Hf Lf].
    assert (Hfw : f <> w) by auto.
    replace (t_low st' f) with (t_low st f) by (unfold st', visit; cbn [t_low]; now rewrite fupd_other).
    apply EX in Ex as [Ex|[-> (r & Hr)]]; [| |now apply NS].
    + destruct Hy as [<-|Hy].
      * exfalso. apply (NV w); auto. eapply i_expl; eauto. now apply stack_visited.
      * rewrite IXo by auto. exact (i_back st I x y f Hx Hy Ex Ow).
    + rewrite IXw. apply in_framed in Hf as (r' & Hf). destruct (i_low st I _ _ Hf) as [L _].
      pose proof (ix_lt st f I (stack_visited st f I (i_fstack st I _ _ Hf))). lia.
  - exact (i_closed st I).
  - exact (i_strong st I).
Qed.

(** ** An edge to a node already met, or to nothing *)
Lemma edge_inv : forall st v o r fs low,
  inv st -> t_frames st = (v, o :: r) :: fs ->
  (match o with
   | None => low = t_low st
   | Some w => exists iw, t_index st w = Some iw /\
       low = if t_on st w then fupd (t_low st) v (Nat.min (t_low st v) iw) else t_low st
   end) ->
  inv (TState (t_index st) low (t_on st) (t_stack st) (t_next st) (t_sccs st) ((v, r) :: fs)).
Proof.
  intros st v o r fs low I F HL. set (st' := TState _ _ _ _ _ _ _).
  assert (IX : forall x, ix st' x = ix st x) by reflexivity.
  assert (FR : framed st' = framed st) by (unfold framed, st'; rewrite F; reflexivity).
  assert (OW : forall x, owner st' x = owner st x) by (intros x; unfold owner; now rewrite FR).
  assert (FIn : forall u q, In (u, q) (t_frames st') -> exists q0, In (u, q0) (t_frames st) /\ (q0 = q \/ q0 = o :: q)).
  { intros u q Hin. rewrite F. destruct Hin as [E0|Hin]; [inversion E0; subst; exists (o :: q); split; [now left|auto]|].
    exists q. split; [now right|auto]. }
  assert (LowLe : forall u, low u <= t_low st u).
  { intros u. destruct o as [w|]; [|now rewrite HL]. destruct HL as (iw & Hw & ->). destruct (t_on st w); auto.
    destruct (Nat.eq_dec u v) as [->|Hu]; [rewrite fupd_same|rewrite fupd_other by auto]; lia. }
  assert (EX : forall x y, explored st' x y -> explored st x y \/ (x = v /\ o = Some y)).
  { intros x y [Hxy Hr]. destruct (Nat.eq_dec x v) as [->|Hne].
    - destruct (Hr r) as (d & Hd & Hin). { left; reflexivity. }
      destruct (i_fsuffix st I v (o :: r)) as (d0 & Hd0). { rewrite F; now left. }
      assert (d = d0 ++ [o]). { apply app_inv_tail with r. rewrite <- Hd, Hd0, <- app_assoc. reflexivity. }
      subst d. apply in_app_or in Hin as [Hin|[E0|[]]]; auto.
      left. split; auto. intros q Hin'. rewrite F in Hin'. destruct Hin' as [E0|Hin'].
      + inversion E0; subst q. eauto.
      + exfalso. eapply frame_unique; eauto.
    - left. split; auto. intros q Hin. apply Hr. rewrite F in Hin. destruct Hin as [E0|Hin]; [inversion E0; congruence|now right]. }
  assert (Hv : In v (framed st)) by (unfold framed; rewrite F; now left).
  assert (Hvs : In v (t_stack st)) by (eapply (i_fstack st I v (o :: r)); rewrite F; now left).
  assert (VO : forall y, o = Some y -> visited st y).
  { intros y ->. destruct HL as (iw & Hw & _). unfold visited. congruence. }
  constructor; try exact (i_lt st I); try exact (i_inj st I); try exact (i_on st I); try exact (i_part st I);
    try exact (i_disj st I); try exact (i_sorted st I); try exact (i_nodup st I); try exact (i_closed st I); try exact (i_strong st I).
  - rewrite FR. exact (i_fsorted st I).
  - intros u q Hin. apply FIn in Hin as (q0 & Hin & _). exact (i_fstack st I _ _ Hin).
  - intros u q Hin. apply FIn in Hin as (q0 & Hin & [->| ->]); destruct (i_fsuffix st I _ _ Hin) as (d & Hd); [eauto|].
    exists (d ++ [o]). rewrite Hd, <- app_assoc. reflexivity.
  - intros u q Hin. apply FIn in Hin as (q0 & Hin & _). destruct (i_low st I _ _ Hin) as [L (y & Hy & Ey & R)].
    change (ix st' u) with (ix st u). change (t_low st') with low. split; [specialize (LowLe u); lia|].
    destruct o as [w|].
    + destruct HL as (iw & Hw & ->). destruct (t_on st w) eqn:Ew; [|exists y; auto].
      destruct (Nat.eq_dec u v) as [->|Hu]; [rewrite fupd_same|rewrite fupd_other by auto; exists y; auto].
      destruct (Nat.min_spec (t_low st v) iw) as [[_ ->]|[_ ->]]; [exists y; auto|].
      exists w. split; [now apply (i_on st I)|]. split; [unfold ix; cbn [t_index st']; now rewrite Hw|].
      apply reach_edge. destruct (i_fsuffix st I v (Some w :: r)) as (d & Hd); [rewrite F; now left|]. unfold E. rewrite Hd. apply in_or_app; right; now left.
    + subst low. exists y; auto.
  - intros x y V Ex. apply EX in Ex as [Ex|[-> ->]].
    + exact (i_expl st I x y V Ex).
    + now apply VO.
  - intros x Hx. rewrite OW. now apply (i_owner st I).
  - intros x Hx NF. rewrite FR in NF. exact (i_nonframe st I x Hx NF).
  - intros x y f Hx Hy Ex Ow. rewrite OW in Ow. change (t_low st') with low. change (ix st' y) with (ix st y).
    apply EX in Ex as [Ex|[-> ->]].
    + pose proof (i_back st I x y f Hx Hy Ex Ow). specialize (LowLe f). lia.
    + rewrite (owner_framed st v I Hv) in Ow. inversion Ow; subst f.
      destruct HL as (iw & Hw & ->). rewrite (proj2 (i_on st I y) Hy), fupd_same. unfold ix. rewrite Hw. lia.
Qed.

(** ** A node is finished without being a root *)
Lemma finish_inner_inv : forall st v fs low,
  inv st -> t_frames st = (v, []) :: fs -> t_low st v <> ix st v ->
  low = match fs with (p, _) :: _ => fupd (t_low st) p (Nat.min (t_low st p) (t_low st v)) | [] => t_low st end ->
  inv (TState (t_index st) low (t_on st) (t_stack st) (t_next st) (t_sccs st) fs).
Proof.
  intros st v fs low I F HN HL. set (st' := TState _ _ _ _ _ _ _).
  assert (FR : framed st = v :: framed st') by (unfold framed; rewrite F; reflexivity).
  pose proof (i_fsorted st I) as S0. rewrite FR in S0. apply SSorted_tail in S0 as [S1 S2].
  assert (Hvs : In v (t_stack st)) by (eapply (i_fstack st I v []); rewrite F; now left).
  destruct (i_low st I v []) as [Lv (yv & Hyv & Eyv & Rv)]; [rewrite F; now left|].
  assert (NIv : ~ In v (framed st')) by (intros H; destruct (S2 v H); lia).
  (* the parent exists: the lowlink witness has an owner below v *)
  assert (HP : exists p q fs', fs = (p, q) :: fs').
  { destruct (i_owner st I yv Hyv) as (f & Of & _). apply owner_in in Of as [Hf Lf]. rewrite FR in Hf.
    destruct Hf as [<-|Hf]; [lia|]. unfold framed, st' in Hf; cbn [t_frames] in Hf. destruct fs as [|[p q] fs']; [destruct Hf|eauto]. }
  destruct HP as (p & q & fs' & ->).
  assert (Hp : In p (framed st')) by (now left).
  destruct (S2 p Hp) as [Lp Rp].
  assert (OWo : forall x, ix st x < ix st v -> owner st' x = owner st x).
  { intros x L. unfold owner. rewrite FR. cbn [find]. destruct (Nat.leb_spec (ix st v) (ix st x)); [lia|reflexivity]. }
  assert (OWv : forall x, ix st v <= ix st x -> owner st x = Some v /\ owner st' x = Some p).
  { intros x L. split; [eapply owner_top; eauto|]. apply (owner_top st' p q fs'); auto. change (ix st' p) with (ix st p). change (ix st' x) with (ix st x). lia. }
  assert (Fs' : forall u q', In (u, q') (t_frames st') -> In (u, q') (t_frames st)) by (intros u q' H; rewrite F; now right).
  assert (EX : forall x y, explored st' x y -> explored st x y).
  { intros x y [Hxy Hr]. split; auto. intros q' Hin. rewrite F in Hin. destruct Hin as [E0|Hin].
    - inversion E0; subst x q'. exists (adj v). rewrite app_nil_r. auto.
    - apply Hr. exact Hin. }
  assert (LowLe : forall u, low u <= t_low st u).
  { intros u. subst low. destruct (Nat.eq_dec u p) as [->|Hu]; [rewrite fupd_same|rewrite fupd_other by auto]; lia. }
  constructor; try exact (i_lt st I); try exact (i_inj st I); try exact (i_on st I); try exact (i_part st I);
    try exact (i_disj st I); try exact (i_sorted st I); try exact (i_nodup st I); try exact (i_closed st I); try exact (i_strong st I).
  - exact S1.
  - intros u q' Hin. exact (i_fstack st I _ _ (Fs' _ _ Hin)).
  - intros u q' Hin. exact (i_fsuffix st I _ _ (Fs' _ _ Hin)).
  - intros u q' Hin. destruct (i_low st I _ _ (Fs' _ _ Hin)) as [L (y & Hy & Ey & R)].
    change (ix st' u) with (ix st u). change (t_low st') with low. split; [specialize (LowLe u); lia|].
    subst low. destruct (Nat.eq_dec u p) as [->|Hu]; [rewrite fupd_same|rewrite fupd_other by auto; exists y; auto].
    destruct (Nat.min_spec (t_low st p) (t_low st v)) as [[_ ->]|[_ ->]]; [exists y; auto|].
    exists yv. split; [exact Hyv|]. split; [exact Eyv|]. exact (reach_trans E p v yv Rp Rv).
  - intros x y V Ex. exact (i_expl st I x y V (EX _ _ Ex)).
  - intros x Hx. destruct (le_lt_dec (ix st v) (ix st x)) as [L|L].
    + destruct (OWv x L) as [O1 O2]. exists p. split; auto. destruct (i_owner st I x Hx) as (f & Of & Rf). rewrite O1 in Of. inversion Of; subst f. exact (reach_trans E p v x Rp Rf).
    + rewrite (OWo x L). now apply (i_owner st I).
  - intros x Hx NF. destruct (Nat.eq_dec x v) as [->|Hne].
    + exists yv. change (ix st' yv) with (ix st yv). change (ix st' v) with (ix st v). split; [exact Hyv|]. split; [lia|auto].
    + apply (i_nonframe st I x Hx). rewrite FR. intros [->|H]; auto.
  - intros x y f Hx Hy Ex Ow. change (t_low st') with low. change (ix st' y) with (ix st y).
    destruct (le_lt_dec (ix st v) (ix st x)) as [L|L].
    + destruct (OWv x L) as [O1 O2]. rewrite O2 in Ow. inversion Ow; subst f.
      pose proof (i_back st I x y v Hx Hy (EX _ _ Ex) O1). subst low. rewrite fupd_same. lia.
    + rewrite (OWo x L) in Ow. pose proof (i_back st I x y f Hx Hy (EX _ _ Ex) Ow). specialize (LowLe f). lia.
Qed.

(** ** A root is finished: its component is emitted *)
Lemma pop_until_spec : forall st v l, StronglySorted (fun x y => ix st y < ix st x) l -> In v l ->
  exists scc rest, pop_until v l = Some (scc, rest) /\ l = scc ++ rest /\
    (forall x, In x scc -> ix st v <= ix st x) /\ (forall x, In x rest -> ix st x < ix st v) /\ In v scc.
Proof.
  intros st v. induction l as [|w l IH]; intros S0 Hv; [destruct Hv|]. apply SSorted_tail in S0 as [S1 S2]. cbn [pop_until].
  destruct (Nat.eqb_spec w v) as [->|Hne].
  - exists [v], l. split; auto. split; auto. split; [intros x [<-|[]]; auto|]. split; [auto|now left].
  - destruct Hv as [->|Hv]; [congruence|]. destruct (IH S1 Hv) as (scc & rest & -> & -> & A & B & C).
    exists (w :: scc), rest. split; auto. split; auto. split; [|split; [auto|now right]].
    intros x [<-|Hx]; auto. pose proof (S2 v (in_or_app _ _ _ (or_introl C))). lia.
Qed.

Lemma NoDup_sorted : forall st l, StronglySorted (fun x y => ix st y < ix st x) l -> NoDup l.
Proof.
  intros st. induction l as [|a l IH]; intros H; constructor; apply SSorted_tail in H as [H1 H2]; auto.
  intros Hin. specialize (H2 a Hin). lia.
Qed.
Lemma SSorted_app_r : forall A (R : A -> A -> Prop) l m, StronglySorted R (l ++ m) -> StronglySorted R l /\ StronglySorted R m.
Proof.
  intros A R. induction l as [|a l IH]; intros m H; cbn in *; [split; auto; constructor|].
  apply SSorted_tail in H as [H1 H2]. destruct (IH m H1). split; auto. apply SSorted_cons; auto. intros x Hx. apply H2. apply in_or_app; auto.
Qed.
Lemma unmark_spec : forall on scc x, unmark on scc x = true <-> on x = true /\ ~ In x scc.
Proof.
  intros on scc x. unfold unmark. destruct (existsb (Nat.eqb x) scc) eqn:Ex.
  - split; [discriminate|]. intros [_ H]. exfalso. apply H. apply existsb_exists in Ex as (y & Hy & Q). apply Nat.eqb_eq in Q. now subst.
  - split; [|tauto]. intros H. split; auto. intros Hin. assert (existsb (Nat.eqb x) scc = true); [|congruence].
    apply existsb_exists. exists x. split; auto. apply Nat.eqb_refl.
Qed.

Lemma emitted_closed : forall st x y, inv st -> emitted st x -> reach E x y -> emitted st y.
Proof.
  intros st x y I Hx R. induction R as [x|x z y Hxz R IH]; auto. apply IH. unfold emitted in *.
  apply in_concat in Hx as (C & HC & HxC). apply in_split in HC as (pre & post & HC).
  destruct (i_closed st I pre C post x z HC HxC Hxz) as [H|H]; rewrite HC, concat_app; apply in_or_app.
  - now left.
  - right. cbn. apply in_or_app. now left.
Qed.

Lemma finish_root_inv : forall st v fs low scc rest,
  inv st -> t_frames st = (v, []) :: fs -> t_low st v = ix st v ->
  pop_until v (t_stack st) = Some (scc, rest) ->
  low = match fs with (p, _) :: _ => fupd (t_low st) p (Nat.min (t_low st p) (t_low st v)) | [] => t_low st end ->
  inv (TState (t_index st) low (unmark (t_on st) scc) rest (t_next st) (t_sccs st ++ [scc]) fs).
Proof.
  intros st v fs low scc rest I F HR HP HL. set (st' := TState _ _ _ _ _ _ _).
  assert (FR : framed st = v :: framed st') by (unfold framed; rewrite F; reflexivity).
  pose proof (i_fsorted st I) as S0. rewrite FR in S0. apply SSorted_tail in S0 as [S1 S2].
  assert (Hvs : In v (t_stack st)) by (eapply (i_fstack st I v []); rewrite F; now left).
  destruct (pop_until_spec st v (t_stack st) (i_sorted st I) Hvs) as (scc' & rest' & HP' & ES & A & B & Hv).
  rewrite HP in HP'. inversion HP'; subst scc' rest'. clear HP'.
  assert (SccIn : forall x, In x scc <-> In x (t_stack st) /\ ix st v <= ix st x).
  { intros x. rewrite ES. split.
    - intros Hx. split; [apply in_or_app; auto|auto].
    - intros [Hx L]. apply in_app_or in Hx as [Hx|Hx]; auto. specialize (B x Hx). lia. }
  assert (RestIn : forall x, In x rest <-> In x (t_stack st) /\ ix st x < ix st v).
  { intros x. rewrite ES. split.
    - intros Hx. split; [apply in_or_app; auto|auto].
    - intros [Hx L]. apply in_app_or in Hx as [Hx|Hx]; auto. specialize (A x Hx). lia. }
  assert (OWv : forall x, In x scc -> owner st x = Some v) by (intros x Hx; eapply owner_top; eauto).
  assert (NotFr : forall x, In x scc -> ~ In x (framed st')).
  { intros x Hx Hf. destruct (S2 x Hf). specialize (A x Hx). lia. }
  assert (Full : forall x y, In x scc -> E x y -> explored st x y).
  { intros x y Hx Hxy. split; auto. intros q Hin. rewrite F in Hin. destruct Hin as [E0|Hin].
    - inversion E0; subst x q. exists (adj v). rewrite app_nil_r. auto.
    - exfalso. apply (NotFr x Hx). apply in_framed. exists q. exact Hin. }
  (* edges out of the component stay in it or go to emitted nodes *)
  assert (Out : forall x y, In x scc -> E x y -> In y scc \/ emitted st y).
  { intros x y Hx Hxy. pose proof (Full x y Hx Hxy) as Ex. apply SccIn in Hx as Hx'. destruct Hx' as [Hxs Lx].
    pose proof (i_expl st I x y (stack_visited st x I Hxs) Ex) as Vy. apply (i_part st I) in Vy as [Hy|Hy]; auto.
    left. apply SccIn. split; auto. pose proof (i_back st I x y v Hxs Hy Ex (OWv x Hx)). lia. }
  assert (Stay : forall x y, reach E x y -> In x scc -> In y scc \/ emitted st y).
  { intros x y R. induction R as [x|x z y Hxz R IH]; auto. intros Hx. destruct (Out x z Hx Hxz) as [Hz|Hz]; auto.
    right. eapply emitted_closed; eauto. }
  assert (ToV : forall n x, ix st x <= n -> In x scc -> reach E x v).
  { induction n as [|n IH]; intros x Ln Hx.
    - destruct (Nat.eq_dec x v) as [->|Hne]; [constructor|]. exfalso. apply SccIn in Hx as [Hxs Lx].
      apply Hne. apply (ix_inj st); auto; [now apply stack_visited|now apply stack_visited|lia].
    - destruct (Nat.eq_dec x v) as [->|Hne]; [constructor|].
      apply SccIn in Hx as Hx'. destruct Hx' as [Hxs Lx].
      destruct (i_nonframe st I x Hxs) as (y & Hy & Ly & R). { rewrite FR. intros [H|H]; [congruence|]. now apply (NotFr x Hx). }
      destruct (Stay x y R Hx) as [Hy'|Hy']; [|exfalso; eapply (i_disj st I); eauto].
      eapply reach_trans; [exact R|]. apply IH; auto. lia. }
  assert (FromV : forall x, In x scc -> reach E v x).
  { intros x Hx. apply SccIn in Hx as Hx'. destruct (i_owner st I x (proj1 Hx')) as (f & Of & Rf). rewrite (OWv x Hx) in Of. now inversion Of; subst f. }
  assert (LowLe : forall u, low u <= t_low st u).
  { intros u. subst low. destruct fs as [|[p q] fs']; auto. destruct (Nat.eq_dec u p) as [->|Hu]; [rewrite fupd_same|rewrite fupd_other by auto]; lia. }
  assert (LowEq : forall u q, In (u, q) fs -> low u = t_low st u).
  { intros u q Hin. subst low. destruct fs as [|[p q'] fs']; auto.
    destruct (Nat.eq_dec u p) as [->|Hu]; [rewrite fupd_same|now rewrite fupd_other].
    destruct (i_low st I p q') as [L _]; [rewrite F; right; now left|].
    destruct (S2 p) as [Lp _]; [now left|]. lia. }
  assert (Fs' : forall u q', In (u, q') (t_frames st') -> In (u, q') (t_frames st)) by (intros u q' H; rewrite F; now right).
  assert (EX : forall x y, explored st' x y -> explored st x y).
  { intros x y [Hxy Hr]. split; auto. intros q' Hin. rewrite F in Hin. destruct Hin as [E0|Hin].
    - inversion E0; subst x q'. exists (adj v). rewrite app_nil_r. auto.
    - apply Hr. exact Hin. }
  assert (OWo : forall x, ix st x < ix st v -> owner st' x = owner st x).
  { intros x L. unfold owner. rewrite FR. cbn [find]. destruct (Nat.leb_spec (ix st v) (ix st x)); [lia|reflexivity]. }
  assert (EM : forall x, emitted st' x <-> emitted st x \/ In x scc).
  { intros x. unfold emitted, st'; cbn [t_sccs]. rewrite concat_app, in_app_iff. cbn. rewrite app_nil_r. tauto. }
  pose proof (i_sorted st I) as SS. rewrite ES in SS. apply SSorted_app_r in SS as [SSa SSb].
  assert (Fst : forall u q, In (u, q) fs -> In u rest).
  { intros u q Hin. apply RestIn. split; [apply (i_fstack st I u q); rewrite F; now right|].
    destruct (S2 u); auto. apply in_framed. exists q. exact Hin. }
  constructor.
  - exact (i_lt st I).
  - exact (i_inj st I).
  - intros x. change (t_on st') with (unmark (t_on st) scc). change (t_stack st') with rest.
    rewrite unmark_spec, (i_on st I), RestIn, SccIn. split; intros [H1 H2]; split; auto; try lia.
    destruct (le_lt_dec (ix st v) (ix st x)); auto. exfalso; auto.
  - intros x. change (visited st' x) with (visited st x). change (t_stack st') with rest. rewrite (i_part st I), EM, RestIn, SccIn.
    destruct (le_lt_dec (ix st v) (ix st x)); intuition lia.
  - intros x Hx Hem. change (t_stack st') with rest in Hx. apply RestIn in Hx as [Hx L]. apply EM in Hem as [H|H].
    + now apply (i_disj st I x).
    + apply SccIn in H. lia.
  - exact SSb.
  - change (t_sccs st') with (t_sccs st ++ [scc]). rewrite concat_app. cbn. rewrite app_nil_r.
    assert (ND : NoDup scc) by (eapply NoDup_sorted; eauto).
    clear - I ND SccIn. pose proof (i_nodup st I) as N1.
    assert (D : forall x, In x (concat (t_sccs st)) -> ~ In x scc).
    { intros x H1 H2. apply SccIn in H2 as [H2 _]. exact (i_disj st I x H2 H1). }
    induction (concat (t_sccs st)) as [|a l IH]; cbn; auto. inversion N1; subst. constructor.
    + rewrite in_app_iff. intros [H|H]; auto. apply (D a); auto. now left.
    + apply IH; auto. intros x Hx. apply D. now right.
  - exact S1.
  - intros u q Hin. exact (Fst u q Hin).
  - intros u q Hin. exact (i_fsuffix st I _ _ (Fs' _ _ Hin)).
  - intros u q Hin. destruct (i_low st I _ _ (Fs' _ _ Hin)) as [L (y & Hy & Ey & R)].
    change (ix st' u) with (ix st u). change (t_low st') with low. rewrite (LowEq u q Hin). split; auto.
    exists y. split; [|auto]. change (t_stack st') with rest. apply RestIn. split; auto.
    pose proof (proj2 (proj1 (RestIn u) (Fst u q Hin))). lia.
  - intros x y V Ex. exact (i_expl st I x y V (EX _ _ Ex)).
  - intros x Hx. change (t_stack st') with rest in Hx. apply RestIn in Hx as [Hx L]. rewrite (OWo x L). now apply (i_owner st I).
  - intros x Hx NF. change (t_stack st') with rest in *. apply RestIn in Hx as [Hx L].
    destruct (i_nonframe st I x Hx) as (y & Hy & Ly & R). { rewrite FR. intros [->|H]; auto. lia. }
    exists y. change (ix st' y) with (ix st y). change (ix st' x) with (ix st x). split; [apply RestIn; split; auto; lia|auto].
  - intros x y f Hx Hy Ex Ow. change (t_stack st') with rest in *. apply RestIn in Hx as [Hx Lx]. apply RestIn in Hy as [Hy Ly].
    rewrite (OWo x Lx) in Ow. change (t_low st') with low. change (ix st' y) with (ix st y).
    pose proof (i_back st I x y f Hx Hy (EX _ _ Ex) Ow). specialize (LowLe f). lia.
  - intros pre C post x y HS Hx Hxy. change (t_sccs st') with (t_sccs st ++ [scc]) in HS.
    destruct post as [|c post] using rev_ind.
    + apply app_inj_tail in HS as [HS1 HS2]. subst C. destruct (Out x y Hx Hxy) as [H|H]; auto.
      left. unfold emitted in H. now rewrite HS1 in H.
    + clear IHpost. rewrite app_comm_cons, app_assoc in HS. apply app_inj_tail in HS as [HS1 HS2].
      eapply (i_closed st I); eauto.
  - intros C HC. change (t_sccs st') with (t_sccs st ++ [scc]) in HC. apply in_app_or in HC as [HC|[<-|[]]].
    + now apply (i_strong st I).
    + split; [intros ->; destruct Hv|]. intros x y Hx Hy. eapply reach_trans; [eapply ToV; eauto|auto].
Qed.

(** ** One round keeps the invariant and never panics *)
Lemma tstep_inv : forall st, inv st -> exists st', tstep adj st = Ok st' /\ inv st'.
Proof.
  intros st I. unfold tstep. destruct (t_frames st) as [|[v [|o r]] fs] eqn:F.
  - eauto.
  - destruct (t_index st v) as [iv|] eqn:Ev.
    2: { exfalso. apply (stack_visited st v I); [|exact Ev]. apply (i_fstack st I v []). rewrite F. now left. }
    assert (Xv : ix st v = iv) by (unfold ix; now rewrite Ev).
    destruct (Nat.eqb_spec (t_low st v) iv) as [Q|Q].
    + destruct (pop_until_spec st v (t_stack st) (i_sorted st I)) as (scc & rest & HP & _).
      { apply (i_fstack st I v []). rewrite F. now left. }
      rewrite HP. eexists. split; [reflexivity|]. eapply finish_root_inv; eauto. lia.
    + eexists. split; [reflexivity|]. eapply finish_inner_inv; eauto. lia.
  - destruct o as [w|].
    + destruct (t_index st w) as [iw|] eqn:Ew.
      * eexists. split; [reflexivity|]. eapply edge_inv; eauto. cbn. eauto.
      * eexists. split; [reflexivity|]. apply visit_inv; auto. right. eauto 6.
    + eexists. split; [reflexivity|]. eapply edge_inv; eauto. reflexivity.
Qed.
End Tarjan.
