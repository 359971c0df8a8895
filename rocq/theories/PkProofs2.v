(** try_add_edge: the search and the splice. *)
From Coq Require Import Permutation.
From Verif Require Import Base Maps ListSort SchedProofs2 LeaseProofs2 EdgeProofs EdgeProofs2 PkModel PkSpec PkProofs.

Section Search.
Variable g : view.
Variable budget px x y : nat.
Variable o : list nat.

(** A way along edges through nodes placed no later than [px]. *)
Definition low (n : nat) : Prop := exists p, place n o = Some p /\ p <= px.

Record sinv (stack visited : list nat) (parent : list (nat * nat)) : Prop := {
  s_low : forall n, In n visited \/ In n stack -> low n;
  s_lead : forall n, In n visited \/ In n stack -> leads (succs g) y n;
  s_x : ~ In x visited;
  s_nd : NoDup visited;
  s_y : In y visited \/ In y stack;
  s_closed : forall u v, In u visited -> In v (succs g u) -> low v -> In v visited \/ In v stack;
  s_par : forall n, In n stack -> ~ In n visited -> n <> y ->
          exists u, mget Nat.eqb parent n = Some u /\ In u visited /\ In n (succs g u);
  s_chain : forall a b n, visited = a ++ n :: b -> n <> y ->
          exists u, mget Nat.eqb parent n = Some u /\ In u b /\ In n (succs g u);
  s_first : forall n, In n visited -> In y visited
}.

Lemma mput_all : forall next (u : nat) parent n,
  mget Nat.eqb (fold_left (fun p s => mput Nat.eqb p s u) next parent) n =
  if memb n next then Some u else mget Nat.eqb parent n.
Proof.
  induction next as [|s next IH]; intros u parent n; auto. cbn [fold_left]. rewrite IH.
  cbn [memb existsb]. fold (memb n next). destruct (memb n next); [now rewrite orb_true_r|].
  rewrite orb_false_r. destruct (Nat.eqb_spec n s) as [->|H].
  - now rewrite (mget_put_same Nat.eqb nat_eqb_spec).
  - now rewrite (mget_put_other Nat.eqb nat_eqb_spec) by congruence.
Qed.

Definition next_of (u : nat) (visited : list nat) : list nat :=
  filter (fun s => match place s o with
                   | Some ps => (ps <=? px) && negb (memb s (u :: visited))
                   | None => false
                   end) (succs g u).
Lemma next_of_in : forall u visited s, In s (next_of u visited) <-> In s (succs g u) /\ low s /\ ~ In s (u :: visited).
Proof.
  intros. unfold next_of, low. rewrite filter_In. destruct (place s o) as [ps|].
  - rewrite andb_true_iff, Nat.leb_le, negb_true_iff, memb_false. split.
    + intros (H & H1 & H2). split; auto. split; auto. exists ps. auto.
    + intros (H & (p & E & Hp) & H2). injection E as ->. auto.
  - split; [intros [_ H]; discriminate|intros (_ & (p & E & _) & _); discriminate].
Qed.

Lemma sinv_skip : forall u stack visited parent, sinv (u :: stack) visited parent -> In u visited -> sinv stack visited parent.
Proof.
  intros u stack visited parent I Hu. constructor; try apply I.
  - intros n H. apply I. cbn. tauto.
  - intros n H. apply I. cbn. tauto.
  - left. apply (s_first _ _ _ I u Hu).
  - intros a b Ha Hb Hl. destruct (s_closed _ _ _ I a b Ha Hb Hl) as [H|[<-|H]]; auto.
  - intros n Hn Hv Hy. apply (s_par _ _ _ I n); cbn; auto.
Qed.
Lemma sinv_step : forall u stack visited parent, sinv (u :: stack) visited parent -> ~ In u visited -> u <> x ->
  (visited = [] -> u = y) ->
  sinv (rev (next_of u visited) ++ stack) (u :: visited)
       (fold_left (fun p s => mput Nat.eqb p s u) (next_of u visited) parent).
Proof.
  intros u stack visited parent I Hu Hx H0.
  assert (IN : forall n, In n (rev (next_of u visited) ++ stack) <->
     (In n (succs g u) /\ low n /\ ~ In n (u :: visited)) \/ In n stack).
  { intros n. rewrite in_app_iff, <- in_rev, next_of_in. tauto. }
  assert (FY : In y (u :: visited)).
  { destruct visited as [|w l]; [left; now apply H0|]. right. apply (s_first _ _ _ I w). now left. }
  assert (PO : forall n, In n (u :: visited) -> memb n (next_of u visited) = false).
  { intros n Hn. apply memb_false. rewrite next_of_in. tauto. }
  constructor.
  - intros n [[<-|H]|H]; [apply I; right; now left|apply I; now left|]. apply IN in H. destruct H as [(_ & H & _)|H]; auto.
    apply I. right; now right.
  - intros n [[<-|H]|H]; [apply I; right; now left|apply I; now left|]. apply IN in H. destruct H as [(H & _)|H].
    + eapply leads_step; [|exact H]. apply I. right; now left.
    + apply I. right; now right.
  - intros [H|H]; [congruence|]. now apply (s_x _ _ _ I).
  - constructor; auto. apply I.
  - left. exact FY.
  - intros a b [<-|Ha] Hb Hl.
    + destruct (in_dec_nat b (u :: visited)); auto. right. apply IN. left. auto.
    + destruct (s_closed _ _ _ I a b Ha Hb Hl) as [H|[<-|H]]; [left; now right|left; now left|right].
      apply IN. now right.
  - intros n Hn Hv Hy. rewrite mput_all. destruct (memb n (next_of u visited)) eqn:M.
    + apply memb_spec in M. apply next_of_in in M. exists u. split; auto. split; [now left|tauto].
    + apply memb_false in M. rewrite next_of_in in M. apply IN in Hn. destruct Hn as [Hn|Hn]; [tauto|].
      destruct (s_par _ _ _ I n) as (w & E & Hw & Hs); [now right|intros F; apply Hv; now right|auto|].
      exists w. split; auto. split; auto. now right.
  - intros a b n E Hy. destruct a as [|a0 a]; cbn in E.
    + injection E as <- <-. rewrite mput_all, PO by now left.
      apply (s_par _ _ _ I u); auto. now left.
    + injection E as <- E. rewrite mput_all, PO by (right; rewrite E; apply in_elt).
      apply (s_chain _ _ _ I a b n); auto.
  - intros n _. exact FY.
Qed.

(** Following parents gives a walk from y. *)
Lemma walk_snoc : forall succ l u v, walk succ (l ++ [u]) -> In v (succ u) -> walk succ ((l ++ [u]) ++ [v]).
Proof.
  intros succ l u v. induction l as [|a l IH]; cbn; intros H Hv; auto.
  destruct l as [|b l]; cbn in *; [intuition|]. destruct H as [H1 H2]. split; auto. exact (IH H2 Hv).
Qed.
Lemma chain_path : forall visited parent, (forall a b n, visited = a ++ n :: b -> n <> y ->
    exists u, mget Nat.eqb parent n = Some u /\ In u b /\ In n (succs g u)) ->
  forall k b n, length b <= k -> (exists a, visited = a ++ n :: b) ->
  exists l, path_to k parent y n = Some (l ++ [n]) /\ walk (succs g) (l ++ [n]) /\ hd_error (l ++ [n]) = Some y.
Proof.
  intros visited parent C. induction k as [|k IH]; intros b n Hb (a & E).
  - destruct (Nat.eqb_spec n y) as [->|Hn].
    + exists []. cbn. rewrite Nat.eqb_refl. auto.
    + destruct (C a b n E Hn) as (u & _ & Hu & _). destruct b; [destruct Hu|cbn in Hb; lia].
  - cbn [path_to]. destruct (Nat.eqb_spec n y) as [->|Hn]; [exists []; cbn; auto|].
    destruct (C a b n E Hn) as (u & Eu & Hu & Hs). rewrite Eu.
    apply in_split in Hu. destruct Hu as (b1 & b2 & ->).
    destruct (IH b2 u) as (l & E1 & W & HH).
    + rewrite app_length in Hb. cbn in Hb. lia.
    + exists (a ++ n :: b1). rewrite E, <- app_assoc. reflexivity.
    + exists (l ++ [u]). rewrite E1. cbn [option_map]. split; auto. split; [now apply walk_snoc|].
      destruct l; cbn in *; auto.
Qed.

Lemma search_sound : forall fuel stack visited parent, sinv stack visited parent -> (visited = [] -> stack = [y]) -> x <> y ->
  match search fuel g budget px x y o stack visited parent with
  | DFinished affected =>
      NoDup affected /\ In y affected /\ ~ In x affected /\
      (forall n, In n affected -> low n /\ leads (succs g) y n) /\
      (forall u v, In u affected -> In v (succs g u) -> low v -> In v affected)
  | DCycle path => exists p l, path = Some p /\ p = l ++ [x] /\ hd_error p = Some y /\ walk (succs g) p
  | DOver | DFuel => True
  end.
Proof.
  induction fuel as [|fuel IH]; intros stack visited parent I H0 Hxy.
  - destruct stack as [|u stack]; cbn; auto.
    assert (visited <> []) by (intros F; apply H0 in F; discriminate).
    split; [apply NoDup_rev, I|]. rewrite <- !in_rev.
    split; [destruct (s_y _ _ _ I) as [|[]]; auto|]. split; [apply I|]. split.
    + intros n Hn. rewrite <- in_rev in Hn. split; apply I; auto.
    + intros a b Ha Hb Hl. rewrite <- in_rev in *. destruct (s_closed _ _ _ I a b Ha Hb Hl) as [|[]]; auto.
  - destruct stack as [|u stack].
    { cbn. split; [apply NoDup_rev, I|]. rewrite <- !in_rev.
      split; [destruct (s_y _ _ _ I) as [|[]]; auto|]. split; [apply I|]. split.
      + intros n Hn. rewrite <- in_rev in Hn. split; apply I; auto.
      + intros a b Ha Hb Hl. rewrite <- in_rev in *. destruct (s_closed _ _ _ I a b Ha Hb Hl) as [|[]]; auto. }
    cbn [search]. destruct (memb u visited) eqn:M.
    + apply memb_spec in M. apply IH; auto; [now apply (sinv_skip u)|]. intros ->. destruct M.
    + apply memb_false in M. destruct (budget <? S (length visited)); auto.
      destruct (Nat.eqb_spec u x) as [->|Hx].
      * destruct (s_par _ _ _ I x) as (w & E & Hw & Hs); [now left|auto|auto|].
        assert (exists l, path_to (length visited) parent y x = Some (l ++ [x]) /\ walk (succs g) (l ++ [x]) /\ hd_error (l ++ [x]) = Some y) as (l & E1 & W & HH).
        { apply in_split in Hw. destruct Hw as (b1 & b2 & ->). rewrite app_length. cbn [length]. rewrite Nat.add_succ_r. cbn [path_to].
          destruct (Nat.eqb_spec x y); [contradiction|]. rewrite E.
          destruct (chain_path (b1 ++ w :: b2) parent (s_chain _ _ _ I) (length b1 + length b2) b2 w) as (l & E1 & W & HH); [lia|now exists b1|].
          exists (l ++ [w]). rewrite E1. cbn [option_map]. split; auto. split; [now apply walk_snoc|]. destruct l; cbn in *; auto. }
        exists (l ++ [x]), l. auto.
      * apply IH; auto; [|intros F; discriminate]. apply sinv_step; auto.
        intros Hv. apply H0 in Hv. injection Hv; auto.
Qed.

Lemma search_start : low y -> x <> y -> sinv [y] [] [].
Proof.
  intros L H. constructor; cbn; auto; try tauto.
  - intros n [[]|[<-|[]]]; auto.
  - intros n [[]|[<-|[]]]. constructor.
  - constructor.
  - intros n [<-|[]] _ F. congruence.
  - intros a b n E. destruct a; discriminate.
Qed.
End Search.

(** Lists *)
Lemma before_In : forall o a b, before o a b -> In a o /\ In b o.
Proof. intros o a b (i & j & _ & H1 & H2). split; eapply nth_error_In; eauto. Qed.
Lemma nth_filter : forall (f : nat -> bool) o i a, nth_error o i = Some a -> f a = true ->
  nth_error (filter f o) (length (filter f (firstn i o))) = Some a.
Proof.
  intros f. induction o as [|b o IH]; intros i a H Hf; [destruct i; discriminate|].
  destruct i as [|i]; cbn in *.
  - injection H as ->. rewrite Hf. reflexivity.
  - destruct (f b); cbn; auto.
Qed.
Lemma filter_mono : forall (f : nat -> bool) o i j, i <= j -> length (filter f (firstn i o)) <= length (filter f (firstn j o)).
Proof.
  intros f. induction o as [|a o IH]; intros [|i] [|j] H; cbn; try lia.
  destruct (f a); cbn; [apply le_n_S|]; apply IH; lia.
Qed.
Lemma filter_strict : forall (f : nat -> bool) o i j a, i < j -> nth_error o i = Some a -> f a = true ->
  length (filter f (firstn i o)) < length (filter f (firstn j o)).
Proof.
  intros f. induction o as [|b o IH]; intros i j a H E F; [destruct i; discriminate|].
  destruct j as [|j]; [lia|]. destruct i as [|i]; cbn in *.
  - injection E as ->. rewrite F. cbn. lia.
  - destruct (f b); cbn; [apply (proj1 (Nat.succ_lt_mono _ _))|]; apply (IH i j a); auto; lia.
Qed.
Lemma before_filter : forall (f : nat -> bool) o a b, before o a b -> f a = true -> f b = true -> before (filter f o) a b.
Proof.
  intros f o a b (i & j & H & Ea & Eb) Fa Fb.
  exists (length (filter f (firstn i o))), (length (filter f (firstn j o))). split; [|split; now apply nth_filter].
  eapply filter_strict; eauto.
Qed.
Lemma before_insert : forall l1 l2 blk a b, before (l1 ++ l2) a b -> before (l1 ++ blk ++ l2) a b.
Proof.
  intros l1 l2 blk a b (i & j & H & Ea & Eb).
  set (sh := fun k => if k <? length l1 then k else k + length blk).
  assert (Z : forall k c, nth_error (l1 ++ l2) k = Some c -> nth_error (l1 ++ blk ++ l2) (sh k) = Some c).
  { intros k c E. unfold sh. destruct (Nat.ltb_spec k (length l1)) as [L|L].
    - rewrite nth_error_app1 in * by auto. exact E.
    - rewrite nth_error_app2 in E by auto. rewrite nth_error_app2 by lia. rewrite nth_error_app2 by lia.
      replace (k + length blk - length l1 - length blk) with (k - length l1) by lia. exact E. }
  exists (sh i), (sh j). split; [|split; apply Z; auto]. unfold sh.
  destruct (Nat.ltb_spec i (length l1)), (Nat.ltb_spec j (length l1)); lia.
Qed.
Lemma before_parts : forall l1 l2 a b, In a l1 -> In b l2 -> before (l1 ++ l2) a b.
Proof.
  intros l1 l2 a b Ha Hb. apply In_nth_error in Ha, Hb. destruct Ha as (i & Ha), Hb as (j & Hb).
  assert (i < length l1) by (apply nth_error_Some; congruence).
  exists i, (length l1 + j). split; [lia|]. split; [rewrite nth_error_app1; auto|].
  rewrite nth_error_app2 by lia. now replace (length l1 + j - length l1) with j by lia.
Qed.
Lemma before_mid : forall l1 blk l2 a b, before blk a b -> before (l1 ++ blk ++ l2) a b.
Proof.
  intros l1 blk l2 a b (i & j & H & Ea & Eb).
  assert (i < length blk) by (apply nth_error_Some; congruence).
  assert (j < length blk) by (apply nth_error_Some; congruence).
  exists (length l1 + i), (length l1 + j). split; [lia|].
  split; rewrite nth_error_app2 by lia; rewrite nth_error_app1 by lia;
    match goal with |- nth_error _ (?a + ?b - ?a) = _ => replace (a + b - a) with b by lia end; auto.
Qed.
Lemma firstn_nth_in : forall A (l : list A) k i a, nth_error l i = Some a -> i < k -> In a (firstn k l).
Proof.
  intros A. induction l as [|b l IH]; intros k i a H L; [destruct i; discriminate|].
  destruct k as [|k]; [lia|]. destruct i; cbn in *; [injection H; auto|right; apply (IH k i); auto; lia].
Qed.
Lemma skipn_nth_in : forall A (l : list A) k i a, nth_error l i = Some a -> k <= i -> In a (skipn k l).
Proof.
  intros A. induction l as [|b l IH]; intros k i a H L; [destruct i; discriminate|].
  destruct k as [|k]; cbn [skipn]; [eapply nth_error_In; eauto|]. destruct i; [lia|]. apply (IH k i); auto; lia.
Qed.

Lemma splice_perm : forall px affected o, Permutation (splice_after px affected o) o.
Proof.
  intros. unfold splice_after. set (f := fun n => memb n affected).
  assert (H : forall l, Permutation (filter f l ++ filter (fun n => negb (f n)) l) l).
  { induction l as [|a l IH]; cbn; auto. destruct (f a); cbn; [now constructor|].
    rewrite <- Permutation_middle. now constructor. }
  eapply Permutation_trans; [|apply (H o)].
  change (fun n => negb (memb n affected)) with (fun n => negb (f n)).
  change (fun n => memb n affected) with f.
  set (L := filter (fun n => negb (f n)) o). rewrite <- (firstn_skipn (S px) L) at 3.
  rewrite !app_assoc. apply Permutation_app_tail. apply Permutation_app_comm.
Qed.

Section Splice.
Variable o affected : list nat.
Variable px : nat.
Hypothesis ND : NoDup o.
Let f := fun n => memb n affected.
Let nf := fun n => negb (memb n affected).
Lemma left_early : forall a p, nth_error o p = Some a -> p <= px -> ~ In a affected -> In a (firstn (S px) (filter nf o)).
Proof.
  intros a p E L H. apply firstn_nth_in with (i := length (filter nf (firstn p o))).
  - apply nth_filter; auto. unfold nf. apply negb_true_iff. now apply memb_false.
  - assert (length (filter nf (firstn p o)) <= length (firstn p o)) by apply filter_len.
    rewrite firstn_length in H0. lia.
Qed.
Lemma split_len : forall l, length l = length (filter f l) + length (filter nf l).
Proof. induction l as [|a l IH]; cbn; auto. unfold f, nf in *. destruct (memb a affected); cbn; lia. Qed.
Lemma left_late : forall a p k, nth_error o p = Some a -> length (filter f o) <= k -> px + k < p -> ~ In a affected ->
  In a (skipn (S px) (filter nf o)).
Proof.
  intros a p k E Hk L H. apply skipn_nth_in with (i := length (filter nf (firstn p o))).
  - apply nth_filter; auto. unfold nf. apply negb_true_iff. now apply memb_false.
  - pose proof (split_len (firstn p o)) as Q.
    assert (length (filter f (firstn p o)) <= length (filter f o)).
    { rewrite <- (firstn_all o) at 2. assert (p < length o) by (apply nth_error_Some; congruence).
      apply filter_mono. lia. }
    rewrite firstn_length in Q. assert (p < length o) by (apply nth_error_Some; congruence). lia.
Qed.
Lemma splice_before : forall a b pa, nth_error o pa = Some a -> pa <= px -> ~ In a affected -> In b affected -> In b o ->
  before (splice_after px affected o) a b.
Proof.
  intros a b pa E L Ha Hb Hbo. unfold splice_after. apply before_parts.
  - now apply left_early with (p := pa).
  - apply in_or_app. left. apply filter_In. split; auto. now apply memb_spec.
Qed.
Lemma splice_keeps : forall u v pv, before o u v -> nth_error o pv = Some v ->
  (In v affected -> pv <= px) ->
  (In u affected -> ~ In v affected -> px + length (filter f o) < pv) ->
  before (splice_after px affected o) u v.
Proof.
  intros u v pv B Ev Hv Huv. destruct (in_dec_nat u affected) as [Hu|Hu], (in_dec_nat v affected) as [Hw|Hw].
  - unfold splice_after. apply before_mid. apply before_filter; auto; now apply memb_spec.
  - unfold splice_after. rewrite app_assoc. apply before_parts.
    + apply in_or_app. right. apply filter_In. split; [apply before_In in B; tauto|now apply memb_spec].
    + eapply left_late; [exact Ev|apply le_n| |auto]. auto.
  - destruct B as (i & j & Hij & Ei & Ej).
    assert (j = pv).
    { eapply NoDup_nth_error; [exact ND|apply nth_error_Some; congruence|congruence]. }
    subst j. apply (splice_before u v i); auto; [specialize (Hv Hw); lia|eapply nth_error_In; eauto].
  - unfold splice_after. apply before_insert. rewrite firstn_skipn.
    apply before_filter; auto; apply negb_true_iff; now apply memb_false.
Qed.
End Splice.

Lemma ensure_in : forall n o m, In m (ensure n o) <-> m = n \/ In m o.
Proof.
  intros. unfold ensure. destruct (place n o) eqn:E.
  - split; auto. intros [->|]; auto. apply place_nth in E. eapply nth_error_In; eauto.
  - rewrite in_app_iff. cbn. intuition.
Qed.
Lemma ensure_nodup : forall n o, NoDup o -> NoDup (ensure n o).
Proof.
  intros. unfold ensure. destruct (place n o) eqn:E; auto. apply place_none in E.
  apply NoDup_app_iff. split; auto. split; [constructor; [intros []|constructor]|]. intros m Hm [<-|[]]; auto.
Qed.
Lemma before_app_l : forall o l a b, before o a b -> before (o ++ l) a b.
Proof.
  intros o l a b (i & j & H & Ea & Eb). exists i, j. split; auto.
  split; rewrite nth_error_app1; auto; apply nth_error_Some; congruence.
Qed.
Lemma respects_ensure : forall succ o n, respects succ o -> ~ In n (succ n) ->
  (~ In n o -> forall v, In v (succ n) -> ~ In v o) -> respects succ (ensure n o).
Proof.
  intros succ o n R HI H u v Hv Hu Hw. unfold ensure in *. destruct (place n o) eqn:E; [now apply R|].
  apply place_none in E. apply in_app_or in Hu, Hw. destruct Hu as [Hu|[<-|[]]], Hw as [Hw|[<-|[]]].
  - apply before_app_l. now apply R.
  - apply before_parts; auto. now left.
  - exfalso. now apply (H E v).
  - contradiction.
Qed.
Lemma place_app : forall o l n p, place n o = Some p -> place n (o ++ l) = Some p.
Proof.
  induction o as [|a o IH]; cbn; intros l n p H; [discriminate|]. destruct (n =? a); auto.
  destruct (place n o) eqn:E; [|discriminate]. now rewrite (IH l n _ E).
Qed.

(** The two nodes are placed once they are registered. *)
Lemma places : forall x y o, NoDup o -> exists px py, place x (ensure y (ensure x o)) = Some px /\
  place y (ensure y (ensure x o)) = Some py.
Proof.
  intros x y o ND.
  assert (forall n, In n (ensure y (ensure x o)) -> exists p, place n (ensure y (ensure x o)) = Some p).
  { intros n H. destruct (place n _) eqn:E; eauto. apply place_none in E. contradiction. }
  destruct (H x) as (px & E1); [rewrite !ensure_in; auto|].
  destruct (H y) as (py & E2); [rewrite !ensure_in; auto|]. eauto.
Qed.

Lemma try_ok : forall fuel g budget x y o, NoDup o -> agree g -> forall o', try_add fuel g budget x y o = PkOk o' ->
  NoDup o' /\ before o' x y /\ (forall n, In n o' -> n = x \/ n = y \/ In n o) /\
  (forall n, In n o -> there g n = true -> In n o').
Proof.
  induction fuel as [|fuel IH]; intros g budget x y o ND AG o'; cbn [try_add];
    (destruct (Nat.eqb_spec x y) as [|Hxy]; [discriminate|]);
    destruct (places x y o ND) as (px & py & E1 & E2);
    assert (ND2 : NoDup (ensure y (ensure x o))) by (now apply ensure_nodup, ensure_nodup);
    pose proof (ensure_in y (ensure x o)) as IN1; pose proof (ensure_in x o) as IN2;
    cbv zeta; set (o2 := ensure y (ensure x o)) in *; rewrite E1, E2;
    (destruct (Nat.ltb_spec px py) as [L|L];
     [intros Q; injection Q as <-; repeat split; auto;
        [exists px, py; split; auto; split; now apply place_nth
        |intros n Hn; apply IN1 in Hn; rewrite IN2 in Hn; tauto|intros n Hn _; apply IN1; rewrite IN2; tauto]|]).
  - cbn [search]. discriminate.
  - assert (LY : low px o2 y) by (exists py; auto).
    pose proof (search_sound g budget px x y o2 (S fuel) [y] [] [] (search_start g px x y o2 LY Hxy) (fun _ => eq_refl) Hxy) as SS.
    destruct (search (S fuel) g budget px x y o2 [y] [] []) as [aff| | |] eqn:ES; try discriminate.
    + intros Q. injection Q as <-. destruct SS as (S1 & S2 & S3 & S4 & S5).
      split; [eapply Permutation_NoDup; [apply Permutation_sym, splice_perm|exact ND2]|].
      split; [apply (splice_before o2 aff px x y px); auto; [now apply place_nth|]; apply place_nth in E2; eapply nth_error_In; eauto|].
      split.
      * intros n Hn. apply (Permutation_in _ (splice_perm px aff o2)) in Hn. apply IN1 in Hn. rewrite IN2 in Hn. tauto.
      * intros n Hn _. apply (Permutation_in _ (Permutation_sym (splice_perm px aff o2))). apply IN1. rewrite IN2. tauto.
    + destruct (rebuild_full (length o2) g o2) as [o3| | |] eqn:ER; try discriminate. intros Q.
      assert (R3 : NoDup o3 /\ forall n, In n o3 <-> In n o2 /\ there g n = true).
      { destruct (rebuild_ok g o2 (length o2) ND2 AG (le_n _)) as (o4 & E4 & P4 & _).
        rewrite E4 in ER. injection ER as <-. split.
        - eapply Permutation_NoDup; [apply Permutation_sym, P4|]. now apply NoDup_filter.
        - intros n. rewrite <- filter_In. split; apply Permutation_in; [|apply Permutation_sym]; exact P4. }
      destruct R3 as [R3 R4]. destruct (IH g budget x y o3 R3 AG o' Q) as (A1 & A2 & A3 & A4).
      split; auto. split; auto. split.
      * intros n Hn. apply A3 in Hn. destruct Hn as [|[|Hn]]; auto. apply R4 in Hn. destruct Hn as [Hn _].
        apply IN1 in Hn. rewrite IN2 in Hn. tauto.
      * intros n Hn Ht. apply A4; auto. apply R4. split; auto. apply IN1. rewrite IN2. tauto.
Qed.

(** A refused edge comes with a real path from y to x. *)
Lemma try_cycle : forall fuel g budget x y o, NoDup o -> agree g -> forall path, x <> y ->
  try_add fuel g budget x y o = PkCycle path ->
  exists p l, path = Some p /\ p = l ++ [x] /\ hd_error p = Some y /\ walk (succs g) p.
Proof.
  induction fuel as [|fuel IH]; intros g budget x y o ND AG path Hxy; cbn [try_add];
    (destruct (Nat.eqb_spec x y) as [|_]; [contradiction|]);
    destruct (places x y o ND) as (px & py & E1 & E2);
    assert (ND2 : NoDup (ensure y (ensure x o))) by (now apply ensure_nodup, ensure_nodup);
    cbv zeta; set (o2 := ensure y (ensure x o)) in *; rewrite E1, E2;
    (destruct (Nat.ltb_spec px py) as [L|L]; [discriminate|]).
  - cbn [search]. discriminate.
  - assert (LY : low px o2 y) by (exists py; auto).
    pose proof (search_sound g budget px x y o2 (S fuel) [y] [] [] (search_start g px x y o2 LY Hxy) (fun _ => eq_refl) Hxy) as SS.
    destruct (search (S fuel) g budget px x y o2 [y] [] []) as [aff|p| |] eqn:ES; try discriminate.
    + intros Q. injection Q as <-. exact SS.
    + destruct (rebuild_full (length o2) g o2) as [o3| | |] eqn:ER; try discriminate. intros Q.
      apply (IH g budget x y o3); auto.
      destruct (rebuild_ok g o2 (length o2) ND2 AG (le_n _)) as (o4 & E4 & P4 & _).
      rewrite E4 in ER. injection ER as <-.
      eapply Permutation_NoDup; [apply Permutation_sym, P4|]. now apply NoDup_filter.
Qed.
(** With both view directions in agreement the in-degree counters never go below zero. *)
Lemma try_no_underflow : forall fuel g budget x y o, NoDup o -> agree g -> try_add fuel g budget x y o <> PkUnderflow.
Proof.
  induction fuel as [|fuel IH]; intros g budget x y o ND AG; cbn [try_add];
    (destruct (Nat.eqb_spec x y) as [|Hxy]; [discriminate|]);
    destruct (places x y o ND) as (px & py & E1 & E2);
    assert (ND2 : NoDup (ensure y (ensure x o))) by (now apply ensure_nodup, ensure_nodup);
    cbv zeta; set (o2 := ensure y (ensure x o)) in *; rewrite E1, E2;
    (destruct (Nat.ltb_spec px py) as [L|L]; [discriminate|]).
  - cbn [search]. discriminate.
  - destruct (search (S fuel) g budget px x y o2 [y] [] []) as [aff|p| |]; try discriminate.
    destruct (rebuild_ok g o2 (length o2) ND2 AG (le_n _)) as (o4 & E4 & P4 & _). rewrite E4.
    apply IH; auto. eapply Permutation_NoDup; [apply Permutation_sym, P4|]. now apply NoDup_filter.
Qed.

(** Within the visit budget an accepted edge keeps every other edge when no node reached
    from y has a successor in the window right behind x. *)
Lemma leads_before : forall succ o u v, NoDup o -> respects succ o -> (forall a b, In b (succ a) -> In a o -> In b o) ->
  leads succ u v -> In u o -> forall pu pv, place u o = Some pu -> place v o = Some pv -> pu <= pv.
Proof.
  intros succ o u v ND R CL H Hu. induction H as [u|u v w H IH Hw]; intros pu pv Eu Ev; [rewrite Eu in Ev; injection Ev as <-; auto|].
  assert (Hv : In v o).
  { clear - CL H Hu. induction H as [|u v w H IH Hw]; auto. apply (CL v); auto. }
  destruct (place v o) as [pm|] eqn:Em; [|apply place_none in Em; contradiction].
  specialize (IH Hu pu pm Eu eq_refl).
  assert (Hwo : In w o) by (apply place_nth in Ev; eapply nth_error_In; eauto).
  destruct (R v w Hw Hv Hwo) as (i & j & Hij & Ei & Ej).
  apply (nth_place _ _ _ ND) in Ei. apply (nth_place _ _ _ ND) in Ej. rewrite Em in Ei. rewrite Ev in Ej.
  injection Ei as <-. injection Ej as <-. lia.
Qed.
