From Verif Require Import Base ListSort SchedModel SchedProofs2 LeaseModel LeaseSpec.
From Coq Require Import ZifyN ZifyNat ZifyBool.

Definition unleased (d : dst) : list event := skipn (match act d with Some a => a_prefix a | None => 0 end) (events d).

Definition seen_ok (d : dst) : Prop :=
  (forall r, In r (seen_r d) -> In (Region r) (unleased d)) /\
  (forall s r, In (s, r) (seen_sr d) -> In (SpanRegion s r) (unleased d)) /\
  (forall s, In s (seen_s d) -> In (WholeSpan s) (unleased d)).

Definition W (c : nat) (w : world) : Prop :=
  let (d, ls) := w in
  gen d = N.of_nat c /\
  (forall l, In l ls -> (l_gen l <= gen d)%N /\ l_prefix l = length (l_events l)) /\
  (forall a, act d = Some a -> a_gen a = gen d /\ a_prefix a <= length (events d) /\
     forall l, In l ls -> l_gen l = gen d -> l_prefix l <= a_prefix a /\ l_events l = firstn (l_prefix l) (events d)) /\
  seen_ok d.

Lemma pmem_spec : forall p l, pmem p l = true <-> In p l.
Proof.
  intros [a b] l. unfold pmem. rewrite existsb_exists. split.
  - intros ([a' b'] & H & E). cbn in E. apply andb_true_iff in E. destruct E as [E1 E2]. apply Nat.eqb_eq in E1, E2. now subst.
  - intros H. exists (a, b). split; auto. cbn. now rewrite !Nat.eqb_refl.
Qed.
Lemma rebuild_seen : forall d, act d = None -> seen_ok (rebuild d).
Proof.
  intros d H. unfold seen_ok, unleased. cbn [rebuild act events seen_r seen_sr seen_s]. rewrite H. cbn [skipn]. repeat split.
  - intros r I. unfold regions_of in I. apply in_flat_map in I. destruct I as ([r'| |] & I & J); cbn in J; try tauto. destruct J as [<-|[]]. auto.
  - intros s r I. unfold span_regions_of in I. apply in_flat_map in I. destruct I as ([|s' r'|] & I & J); cbn in J; try tauto. destruct J as [[= <- <-]|[]]. auto.
  - intros s I. unfold spans_of in I. apply in_flat_map in I. destruct I as ([| |s'] & I & J); cbn in J; try tauto. destruct J as [<-|[]]. auto.
Qed.
Lemma clear_seen_ok : forall d, seen_ok (clear_seen d).
Proof. intros d. repeat split; cbn; tauto. Qed.

(** Adding one event at the end. *)
Definition push (e : event) (d : dst) (sr : list nat) (ssr : list (nat * nat)) (ss : list nat) : dst :=
  Dst (events d ++ [e]) sr ssr ss (gen d) (act d).
Lemma unleased_push : forall c d ls e sr ssr ss, W c (d, ls) -> unleased (push e d sr ssr ss) = unleased d ++ [e].
Proof.
  intros c d ls e sr ssr ss (_ & _ & A & _). unfold unleased, push. cbn. destruct (act d) as [a|] eqn:E; auto.
  destruct (A a eq_refl) as (_ & L & _). rewrite skipn_app. f_equal. replace (a_prefix a - length (events d)) with 0 by lia. reflexivity.
Qed.
Lemma W_push : forall c d ls e sr ssr ss, W c (d, ls) -> seen_ok (push e d sr ssr ss) -> W c (push e d sr ssr ss, ls).
Proof.
  intros c d ls e sr ssr ss (G & H & A & _) S. cbn. split; auto. split; auto. split; auto.
  intros a Ea. destruct (A a Ea) as (A1 & A2 & A3). split; auto. split; [rewrite app_length; lia|].
  intros l Hl Gl. destruct (A3 l Hl Gl) as [B1 B2]. split; auto. rewrite firstn_app. replace (l_prefix l - length (events d)) with 0 by lia.
  cbn. now rewrite app_nil_r.
Qed.

(** Each record step: unchanged and already waiting unleased, or one more event. *)
Inductive rec1 (e : event) (d : dst) : dst -> Prop :=
| rec_seen : In e (unleased d) -> rec1 e d d
| rec_new : forall sr ssr ss, seen_ok (push e d sr ssr ss) -> rec1 e d (push e d sr ssr ss).

Lemma rec_region : forall c d ls r, W c (d, ls) -> rec1 (Region r) d (record_region r d).
Proof.
  intros c d ls r H. unfold record_region. destruct (memb r (seen_r d)) eqn:E.
  - constructor. apply memb_spec in E. destruct H as (_ & _ & _ & S & _). auto.
  - apply rec_new. pose proof (unleased_push c d ls (Region r) (r :: seen_r d) (seen_sr d) (seen_s d) H) as U.
    destruct H as (_ & _ & _ & S1 & S2 & S3). unfold seen_ok. rewrite U. cbn. repeat split; intros; rewrite in_app_iff; auto.
    destruct H as [<-|H]; [right; now left|auto].
Qed.
Lemma rec_span_region : forall c d ls s r, W c (d, ls) -> rec1 (SpanRegion s r) d (record_span_region s r d).
Proof.
  intros c d ls s r H. unfold record_span_region. destruct (pmem (s, r) (seen_sr d)) eqn:E.
  - constructor. apply pmem_spec in E. destruct H as (_ & _ & _ & _ & S & _). auto.
  - apply rec_new. pose proof (unleased_push c d ls (SpanRegion s r) (seen_r d) ((s, r) :: seen_sr d) (seen_s d) H) as U.
    destruct H as (_ & _ & _ & S1 & S2 & S3). unfold seen_ok. rewrite U. cbn. repeat split; intros; rewrite in_app_iff; auto.
    destruct H as [[= <- <-]|H]; [right; now left|auto].
Qed.
Definition record_span (s : nat) (d : dst) : dst :=
  if memb s (seen_s d) then d
  else Dst (events d ++ [WholeSpan s]) (seen_r d) (seen_sr d) (s :: seen_s d) (gen d) (act d).
Lemma rec_span : forall c d ls s, W c (d, ls) -> rec1 (WholeSpan s) d (record_span s d).
Proof.
  intros c d ls s H. unfold record_span. destruct (memb s (seen_s d)) eqn:E.
  - constructor. apply memb_spec in E. destruct H as (_ & _ & _ & _ & _ & S). auto.
  - apply rec_new. pose proof (unleased_push c d ls (WholeSpan s) (seen_r d) (seen_sr d) (s :: seen_s d) H) as U.
    destruct H as (_ & _ & _ & S1 & S2 & S3). unfold seen_ok. rewrite U. cbn. repeat split; intros; rewrite in_app_iff; auto.
    destruct H as [<-|H]; [right; now left|auto].
Qed.
Lemma rec1_W : forall c d ls e d', W c (d, ls) -> rec1 e d d' -> W c (d', ls).
Proof. intros c d ls e d' H R. destruct R; auto. now apply W_push. Qed.
Lemma whole_spans_fold : forall l d, record_whole_spans l d = fold_left (fun d s => record_span s d) l d.
Proof. induction l; intros; cbn; auto. Qed.

(** What any sequence of records leaves alone. *)
Definition grown (d d' : dst) : Prop := gen d' = gen d /\ act d' = act d /\ exists l, events d' = events d ++ l.
Lemma grown_refl : forall d, grown d d.
Proof. intros d. repeat split; auto. exists []. now rewrite app_nil_r. Qed.
Lemma grown_trans : forall a b c, grown a b -> grown b c -> grown a c.
Proof. intros a b c (A1 & A2 & l & A3) (B1 & B2 & l' & B3). repeat split; try congruence. exists (l ++ l'). rewrite B3, A3. now rewrite app_assoc. Qed.
Lemma rec1_grown : forall e d d', rec1 e d d' -> grown d d'.
Proof. intros e d d' [H|sr ssr ss H]; [apply grown_refl|]. repeat split. exists [e]. reflexivity. Qed.
Lemma rec1_waits : forall c ls e d d', W c (d, ls) -> rec1 e d d' -> In e (unleased d').
Proof. intros c ls e d d' H [R|sr ssr ss R]; auto. erewrite unleased_push; eauto. apply in_or_app. right. now left. Qed.
Lemma rec1_in : forall e d d' x, rec1 e d d' -> In x (events d') -> In x (events d) \/ x = e.
Proof. intros e d d' x [R|sr ssr ss R] H; auto. cbn in H. apply in_app_iff in H. destruct H as [H|[<-|[]]]; auto. Qed.
Lemma grown_unleased : forall c ls e d d', W c (d, ls) -> grown d d' -> In e (unleased d) -> In e (unleased d').
Proof.
  intros c ls e d d' H (_ & A & l & E) I. unfold unleased in *. rewrite A, E, skipn_app. apply in_or_app. now left.
Qed.

(** The record operations together. *)
Definition is_record (o : op) : bool := match o with ORegion _ | OSpanRegion _ _ | OSpans _ => true | _ => false end.
Lemma spans_step : forall l c d ls, W c (d, ls) ->
  W c (record_whole_spans l d, ls) /\ grown d (record_whole_spans l d) /\
  (forall s, In s l -> In (WholeSpan s) (unleased (record_whole_spans l d))) /\
  (forall e, In e (events (record_whole_spans l d)) -> In e (events d) \/ exists s, e = WholeSpan s /\ In s l).
Proof.
  induction l as [|s l IH]; intros c d ls H.
  - cbn. split; auto. split; [apply grown_refl|]. split; [tauto|auto].
  - cbn [record_whole_spans]. fold (record_span s d). pose proof (rec_span c d ls s H) as R.
    pose proof (rec1_W c d ls _ _ H R) as H1. destruct (IH c (record_span s d) ls H1) as (I1 & I2 & I3 & I4).
    split; auto. split; [eapply grown_trans; [eapply rec1_grown; eauto|auto]|]. split.
    + intros s' [<-|Hs]; auto. eapply grown_unleased; [exact H1|exact I2|]. exact (rec1_waits c ls _ d _ H R).
    + intros e He. destruct (I4 e He) as [He'|(s' & -> & Hs')]; [|right; exists s'; split; auto; now right].
      destruct (rec1_in _ _ _ _ R He') as [Q| ->]; auto. right. exists s. split; auto. now left.
Qed.
Lemma record_step : forall c o d ls, is_record o = true -> W c (d, ls) ->
  exists d', step o (d, ls) = (d', ls) /\ W c (d', ls) /\ grown d d' /\ (forall e, records o e -> In e (unleased d')) /\
    (forall e, In e (events d') -> In e (events d) \/ records o e).
Proof.
  intros c o d ls Ho H. destruct o as [r|s r|l| | | | |]; try discriminate; cbn [step].
  - exists (record_region r d). pose proof (rec_region c d ls r H) as R. split; auto.
    split; [eapply rec1_W; eauto|]. split; [eapply rec1_grown; eauto|]. split.
    + intros [r'| |] E; cbn in E; try tauto. subst r'. eapply rec1_waits; eauto.
    + intros e He. destruct (rec1_in _ _ _ _ R He) as [Q| ->]; cbn; auto.
  - exists (record_span_region s r d). pose proof (rec_span_region c d ls s r H) as R. split; auto.
    split; [eapply rec1_W; eauto|]. split; [eapply rec1_grown; eauto|]. split.
    + intros [|s' r'|] E; cbn in E; try tauto. destruct E as [<- <-]. eapply rec1_waits; eauto.
    + intros e He. destruct (rec1_in _ _ _ _ R He) as [Q| ->]; cbn; auto.
  - exists (record_whole_spans l d). destruct (spans_step l c d ls H) as (I1 & I2 & I3 & I4). split; auto. split; auto. split; auto. split.
    + intros [| |s] E; cbn in E; try tauto. auto.
    + intros e He. destruct (I4 e He) as [Q|(s & -> & Q)]; cbn; auto.
Qed.

(** Accepting a lease. *)
Definition accepted (d : dst) (g : N) (k : nat) : Prop := exists a, act d = Some a /\ a_gen a = g /\ a_prefix a = k.
Lemma accept_dec : forall a g k, negb (a_gen a =? g)%N || negb (a_prefix a =? k) = false <-> a_gen a = g /\ a_prefix a = k.
Proof.
  intros a g k. destruct (N.eqb_spec (a_gen a) g), (Nat.eqb_spec (a_prefix a) k); cbn; split; intros; try tauto; try discriminate; intuition congruence.
Qed.
Lemma ack_cases : forall s d, 
  (accepted d (s_gen s) (s_prefix s) /\
   ack_sublease s d = (rebuild (Dst (keep_from 0 (Nat.min (s_prefix s) (length (events d))) (s_owned s) (events d)) (seen_r d) (seen_sr d) (seen_s d) (gen d) None), true)) \/
  (~ accepted d (s_gen s) (s_prefix s) /\ ack_sublease s d = (d, false)).
Proof.
  intros s d. unfold ack_sublease. destruct (act d) as [a|] eqn:E.
  - destruct (negb (a_gen a =? s_gen s)%N || negb (a_prefix a =? s_prefix s)) eqn:Q.
    + right. split; auto. intros (a' & E' & G). rewrite E in E'. injection E' as <-. apply accept_dec in G. congruence.
    + left. split; auto. exists a. split; auto. now apply accept_dec.
  - right. split; auto. intros (a' & E' & _). congruence.
Qed.
Lemma release_cases : forall l d,
  (accepted d (l_gen l) (l_prefix l) /\ do_release l d = (rebuild (set_act None d), true)) \/
  (~ accepted d (l_gen l) (l_prefix l) /\ do_release l d = (d, false)).
Proof.
  intros l d. unfold do_release. destruct (act d) as [a|] eqn:E.
  - destruct (negb (a_gen a =? l_gen l)%N || negb (a_prefix a =? l_prefix l)) eqn:Q.
    + right. split; auto. intros (a' & E' & G). rewrite E in E'. injection E' as <-. apply accept_dec in G. congruence.
    + left. split; auto. exists a. split; auto. now apply accept_dec.
  - right. split; auto. intros (a' & E' & _). congruence.
Qed.
Lemma extend_cases : forall l d,
  (accepted d (l_gen l) (l_prefix l) /\ do_extend l d =
    (clear_seen (set_act (Some (Active (l_gen l) (length (events d)) true)) d), Some (Lease (l_gen l) (length (events d)) (events d)))) \/
  do_extend l d = (d, None).
Proof.
  intros l d. unfold do_extend. destruct (act d) as [a|] eqn:E; auto.
  destruct (negb (a_gen a =? l_gen l)%N || negb (a_prefix a =? l_prefix l)) eqn:Q; cbn [orb]; auto.
  apply accept_dec in Q. destruct Q as [Q1 Q2]. destruct (a_ext a); auto. left. split; [exists a; auto|]. rewrite Q1, firstn_all. reflexivity.
Qed.

Lemma W_closed : forall c d ls evs sr ssr ss, W c (d, ls) -> W c (rebuild (Dst evs sr ssr ss (gen d) None), ls).
Proof.
  intros c d ls evs sr ssr ss (G & H & _ & _). cbn. split; auto. split; auto. split; [discriminate|]. now apply rebuild_seen.
Qed.
Lemma W_lease : forall c d ls, W c (d, ls) -> (N.of_nat (S c) < 2 ^ 64)%N -> W (S c) (step OLease (d, ls)).
Proof.
  intros c d ls (G & H & _ & _) L. cbn. assert (E : wrap1 (gen d) = N.of_nat (S c)).
  { unfold wrap1. rewrite G. rewrite N.mod_small; lia. }
  split; auto. split; [|split].
  - intros l Hl. apply in_app_iff in Hl. destruct Hl as [Hl|[<-|[]]]; cbn; [|split; [lia|auto]].
    destruct (H l Hl). split; auto. rewrite E. lia.
  - intros a [= <-]. cbn. split; auto. split; auto. intros l Hl Gl. apply in_app_iff in Hl. destruct Hl as [Hl|[<-|[]]].
    + destruct (H l Hl). exfalso. lia.
    + cbn. split; auto. now rewrite firstn_all.
  - apply (clear_seen_ok (Dst _ [] [] [] _ _)).
Qed.
Lemma W_step : forall c o w, W c w -> (is_lease o = true -> (N.of_nat (S c) < 2 ^ 64)%N) -> W (if is_lease o then S c else c) (step o w).
Proof.
  intros c o [d ls] H L. destruct o as [r|s r|l| |h|h|h owned|h]; cbn [is_lease].
  1-3: match goal with |- W _ (step ?o _) => destruct (record_step c o d ls eq_refl H) as (d' & -> & H' & _); exact H' end.
  - apply W_lease; auto.
  - cbn [step]. destruct (nth_error ls h) as [l|] eqn:E; auto. apply nth_error_In in E.
    destruct (extend_cases l d) as [[(a & A1 & A2 & A3) ->]| ->]; auto.
    destruct H as (G & H & A & S). destruct (A a A1) as (B1 & B2 & B3). cbn. split; auto. split; [|split].
    + intros l' Hl. apply in_app_iff in Hl. destruct Hl as [Hl|[<-|[]]]; auto. cbn. split; [lia|auto].
    + intros a' [= <-]. cbn. split; [congruence|]. split; auto. intros l' Hl Gl. apply in_app_iff in Hl. destruct Hl as [Hl|[<-|[]]].
      * destruct (B3 l' Hl Gl) as [C1 C2]. split; auto. lia.
      * cbn. split; auto. now rewrite firstn_all.
    + apply (clear_seen_ok (Dst _ [] [] [] _ _)).
  - cbn [step]. destruct (nth_error ls h) as [l|] eqn:E; auto. unfold do_ack.
    destruct (ack_cases (do_sublease l (seq 0 (l_prefix l))) d) as [[_ ->]|[_ ->]]; cbn [fst]; auto. eapply W_closed; eauto.
  - cbn [step]. destruct (nth_error ls h) as [l|] eqn:E; auto.
    destruct (ack_cases (do_sublease l owned) d) as [[_ ->]|[_ ->]]; cbn [fst]; auto. eapply W_closed; eauto.
  - cbn [step]. destruct (nth_error ls h) as [l|] eqn:E; auto.
    destruct (release_cases l d) as [[_ ->]|[_ ->]]; cbn [fst]; auto. exact (W_closed c d ls (events d) (seen_r d) (seen_sr d) (seen_s d) H).
Qed.
Lemma W_start : W 0 start.
Proof.
  cbn. split; auto. split; [tauto|]. split; [discriminate|]. repeat split; cbn; tauto.
Qed.
Lemma leases_cons : forall o ops, leases (o :: ops) = (if is_lease o then 1 else 0) + leases ops.
Proof. intros. unfold leases. cbn. destruct (is_lease o); reflexivity. Qed.
Lemma leases_app : forall a b, leases (a ++ b) = leases a + leases b.
Proof. intros. unfold leases. now rewrite filter_app, app_length. Qed.
Lemma W_run : forall ops c w, W c w -> (N.of_nat (c + leases ops) < 2 ^ 64)%N -> W (c + leases ops) (run ops w).
Proof.
  induction ops as [|o ops IH]; intros c w H L.
  - now rewrite Nat.add_0_r.
  - rewrite leases_cons in *. cbn [run fold_left]. change (fold_left (fun w o => step o w) ops (step o w)) with (run ops (step o w)).
    replace (c + ((if is_lease o then 1 else 0) + leases ops)) with ((if is_lease o then S c else c) + leases ops) by (destruct (is_lease o); lia).
    apply IH; [apply W_step; auto; intros E; rewrite E in L; lia|destruct (is_lease o); lia].
Qed.
