From Verif Require Import Base ListSort SchedModel SchedProofs2 LeaseModel LeaseSpec LeaseProofs.
From Coq Require Import ZifyN ZifyNat ZifyBool.

Lemma nth_firstn : forall {A} k (l : list A) p, p < k -> nth_error (firstn k l) p = nth_error l p.
Proof. intros A. induction k as [|k IH]; intros l p H; [lia|]. destruct l as [|a l]; cbn; [now destruct p|]. destruct p; cbn; auto. apply IH. lia. Qed.
Lemma nth_skipn : forall {A} k (l : list A) p, nth_error (skipn k l) p = nth_error l (k + p).
Proof. intros A. induction k as [|k IH]; intros l p; cbn; auto. destruct l as [|a l]; cbn; auto. now destruct p. Qed.

Lemma sub_owned : forall l owned i, In i (s_owned (do_sublease l owned)) <-> In i owned /\ i < l_prefix l.
Proof.
  intros. unfold do_sublease. cbn [s_owned]. rewrite dedup_in, sort_nat_in, filter_In. rewrite Nat.ltb_lt. tauto.
Qed.
Lemma keep_in : forall k owned l i p e, nth_error l p = Some e -> ~ (i + p < k /\ In (i + p) owned) -> In e (keep_from i k owned l).
Proof.
  intros k owned. induction l as [|x l IH]; intros i p e H N; [now destruct p|]. cbn. destruct p as [|p]; cbn in H.
  - injection H as ->. rewrite Nat.add_0_r in N. destruct (Nat.leb_spec k i); cbn; [now left|]. destruct (memb i owned) eqn:M; cbn; [|now left].
    apply memb_spec in M. tauto.
  - assert (I : In e (keep_from (S i) k owned l)). { apply (IH (S i) p); auto. replace (S i + p) with (i + S p) by lia. auto. }
    destruct ((k <=? i) || negb (memb i owned)); [now right|auto].
Qed.
Lemma keep_sub : forall k owned l i e, In e (keep_from i k owned l) -> In e l.
Proof.
  intros k owned. induction l as [|x l IH]; intros i e H; cbn in *; auto.
  destruct ((k <=? i) || negb (memb i owned)); [destruct H as [<-|H]; [now left|]|]; right; eauto.
Qed.
Lemma keep_late : forall k owned l i, k <= i -> keep_from i k owned l = l.
Proof. intros k owned. induction l as [|x l IH]; intros i H; cbn; auto. destruct (Nat.leb_spec k i); [|lia]. cbn. f_equal. apply IH. lia. Qed.
Lemma keep_select : forall owned a i b, keep_from i (i + length a) owned (a ++ b) = select (fun j => negb (memb j owned)) i a ++ b.
Proof.
  intros owned. induction a as [|x a IH]; intros i b; cbn [app length].
  - cbn. apply keep_late. lia.
  - cbn [keep_from select]. destruct (Nat.leb_spec (i + S (length a)) i); [lia|]. cbn [orb].
    replace (i + S (length a)) with (S i + length a) by lia. rewrite IH. destruct (negb (memb i owned)); reflexivity.
Qed.
Lemma select_ext : forall {A} (p q : nat -> bool) (l : list A) i, (forall j, i <= j < i + length l -> p j = q j) -> select p i l = select q i l.
Proof.
  intros A p q. induction l as [|a l IH]; intros i H; cbn; auto. rewrite (H i) by (cbn; lia). rewrite (IH (S i)); auto.
  intros j Hj. apply H. cbn. lia.
Qed.

(** A successful acknowledgement. *)
Lemma ack_step : forall c w o h l owned, W c w -> acknowledges w o h l owned ->
  accepted (fst w) (l_gen l) (l_prefix l) /\ snd (step o w) = snd w /\ act (fst (step o w)) = None /\
  exists later, pending w = l_events l ++ later /\ pending (step o w) = select (fun i => negb (memb i owned)) 0 (l_events l) ++ later.
Proof.
  intros c [d ls] o h l owned H (Hl & Ho). cbn [fst snd] in *.
  assert (G : forall ow, snd (ack_sublease (do_sublease l ow) d) = true ->
    accepted d (l_gen l) (l_prefix l) /\ act (fst (ack_sublease (do_sublease l ow) d)) = None /\
    exists later, events d = l_events l ++ later /\ events (fst (ack_sublease (do_sublease l ow) d)) = select (fun i => negb (memb i ow)) 0 (l_events l) ++ later).
  { intros ow Hs. destruct (ack_cases (do_sublease l ow) d) as [[A E]|[_ E]]; rewrite E in *; [|discriminate]. cbn [fst].
    split; auto. split; [reflexivity|]. destruct A as (a & A1 & A2 & A3). cbn [do_sublease s_gen s_prefix] in A2, A3.
    destruct H as (_ & H & A & _). destruct (A a A1) as (B1 & B2 & B3). destruct (B3 l) as [_ B4]; [eapply nth_error_In; eauto|congruence|].
    destruct (H l) as [_ Hp]; [eapply nth_error_In; eauto|].
    exists (skipn (l_prefix l) (events d)). assert (Ev : events d = l_events l ++ skipn (l_prefix l) (events d)).
    { rewrite B4 at 1. now rewrite firstn_skipn. }
    split; auto. cbn [rebuild events]. rewrite Nat.min_l by (cbn; lia). set (later := skipn _ _) in *. clearbody later. rewrite Ev.
    change (s_prefix (do_sublease l ow)) with (l_prefix l). rewrite Hp. rewrite (keep_select _ (l_events l) 0 later). f_equal. apply select_ext. intros j Hj. f_equal.
    destruct (memb j ow) eqn:M.
    - apply memb_spec. apply sub_owned. apply memb_spec in M. split; auto. lia.
    - apply memb_false. apply memb_false in M. rewrite sub_owned. tauto. }
  destruct o; try contradiction; destruct Ho as (-> & Hs & ->).
  - unfold pending. cbn [step]. rewrite Hl. cbn [fst snd]. unfold do_ack in *. destruct (G _ Hs) as (G1 & G2 & G3).
    repeat (split; auto). assert (Hp : l_prefix l = length (l_events l)). { destruct H as (_ & H & _). apply H. eapply nth_error_In; eauto. }
    rewrite <- Hp. exact G3.
  - unfold pending. cbn [step]. rewrite Hl. cbn [fst snd]. destruct (G _ Hs) as (G1 & G2 & G3). auto.
Qed.

(** A step that is not a record, a lease or a successful use changes nothing. *)
Inductive use_case (w : world) (o : op) : Prop :=
| u_same : step o w = w -> use_case w o
| u_ack : forall h l owned, acknowledges w o h l owned -> use_case w o
| u_release : forall h l, o = ORelease h -> nth_error (snd w) h = Some l -> accepted (fst w) (l_gen l) (l_prefix l) -> snd (do_release l (fst w)) = true ->
    step o w = (rebuild (set_act None (fst w)), snd w) -> use_case w o
| u_extend : forall h l, o = OExtend h -> nth_error (snd w) h = Some l -> accepted (fst w) (l_gen l) (l_prefix l) ->
    step o w = (clear_seen (set_act (Some (Active (l_gen l) (length (events (fst w))) true)) (fst w)), snd w ++ [Lease (l_gen l) (length (events (fst w))) (events (fst w))]) -> use_case w o.
Lemma use_cases : forall c w o, W c w -> is_record o = false -> is_lease o = false -> use_case w o.
Proof.
  intros c [d ls] o H R L. destruct o as [r|s r|l| |h|h|h owned|h]; try discriminate.
  - destruct (nth_error ls h) as [l|] eqn:E; [|apply u_same; cbn; now rewrite E].
    destruct (extend_cases l d) as [[A E']|E'].
    + eapply (u_extend _ _ h l); auto. cbn. rewrite E, E'. reflexivity.
    + apply u_same. cbn. rewrite E, E'. reflexivity.
  - destruct (nth_error ls h) as [l|] eqn:E; [|apply u_same; cbn; now rewrite E].
    destruct (snd (do_ack l d)) eqn:S.
    + apply (u_ack _ _ h l (seq 0 (length (l_events l)))). split; auto.
    + apply u_same. cbn. rewrite E. unfold do_ack in *. destruct (ack_cases (do_sublease l (seq 0 (l_prefix l))) d) as [[_ E']|[_ E']]; rewrite E' in *; [discriminate|reflexivity].
  - destruct (nth_error ls h) as [l|] eqn:E; [|apply u_same; cbn; now rewrite E].
    destruct (snd (ack_sublease (do_sublease l owned) d)) eqn:S.
    + apply (u_ack _ _ h l owned). split; auto.
    + apply u_same. cbn. rewrite E. destruct (ack_cases (do_sublease l owned) d) as [[_ E']|[_ E']]; rewrite E' in *; [discriminate|reflexivity].
  - destruct (nth_error ls h) as [l|] eqn:E; [|apply u_same; cbn; now rewrite E].
    destruct (release_cases l d) as [[A E']|[_ E']].
    + eapply (u_release _ _ h l); auto; cbn; rewrite ?E, ?E'; reflexivity.
    + apply u_same. cbn. rewrite E, E'. reflexivity.
Qed.

(** Where a notice waits. *)
Definition waits (base : nat) (e : event) (w : world) : Prop :=
  exists p, nth_error (pending w) p = Some e /\
    (act (fst w) = None \/ forall h l, h < base -> nth_error (snd w) h = Some l -> l_gen l = gen (fst w) -> l_prefix l <= p).

Lemma waits_step : forall c w o base e, W c w -> (is_lease o = true -> (N.of_nat (S c) < 2 ^ 64)%N) -> base <= length (snd w) -> waits base e w ->
  (waits base e (step o w) /\ base <= length (snd (step o w))) \/
  exists h l owned idx, acknowledges w o h l owned /\ base <= h /\ nth_error (l_events l) idx = Some e /\ In idx owned.
Proof.
  intros c [d ls] o base e H Lc Hb (p & Hp & Hw). unfold pending in Hp. cbn [fst snd] in *.
  destruct (is_record o) eqn:R; [|destruct (is_lease o) eqn:L].
  - left. destruct (record_step c o d ls R H) as (d' & -> & _ & (G1 & G2 & t & G3) & _). cbn [fst snd]. split; auto.
    exists p. unfold pending. cbn [fst snd]. rewrite G2, G1, G3. split; auto. rewrite nth_error_app1; auto. apply nth_error_Some. congruence.
  - left. destruct o; try discriminate. split; [|cbn; rewrite app_length; lia].
    exists p. split; [exact Hp|]. right. intros h l Hh Hl Gl. exfalso. pose proof (W_lease c d ls H (Lc eq_refl)) as (G & _).
    cbn in Hl, Gl, G. rewrite nth_error_app1 in Hl by lia. destruct H as (G0 & H & _). destruct (H l) as [H1 _]; [eapply nth_error_In; eauto|]. lia.
  - destruct (use_cases c (d, ls) o H R L) as [E|h l owned A|h l -> Hl A Hs E|h l -> Hl A E].
    + left. rewrite E. split; auto. exists p. auto.
    + destruct (ack_step c (d, ls) o h l owned H A) as (Ac & Es & Ea & later & E1 & E2). unfold pending in E1. cbn [fst snd] in *.
      assert (Hpx : l_prefix l = length (l_events l)). { destruct H as (_ & H & _). apply H. destruct A as [A _]. eapply nth_error_In; eauto. }
      destruct (Nat.lt_ge_cases p (length (l_events l))) as [Lp|Lp].
      * assert (Hp' : nth_error (l_events l) p = Some e) by (rewrite E1, nth_error_app1 in Hp; auto).
        destruct (in_dec_nat p owned) as [I|N].
        -- right. exists h, l, owned, p. repeat (split; auto).
           destruct (Nat.le_gt_cases base h) as [B|B]; auto. exfalso. destruct Ac as (a & A1 & A2 & A3). destruct Hw as [Hw|Hw]; [congruence|].
           destruct A as [A _]. destruct H as (_ & _ & HA & _). destruct (HA a A1) as (B1 & _). specialize (Hw h l B A). lia.
        -- left. rewrite Es. split; auto. assert (I : In e (pending (step o (d, ls)))).
           { rewrite E2. apply in_or_app. left. clear - Hp' N. assert (G : forall i, ~ In (i + p) owned -> In e (select (fun i => negb (memb i owned)) i (l_events l))); [|apply (G 0); auto].
             clear N. revert p Hp'. induction (l_events l) as [|x r IH]; intros p Hp' i N; [now destruct p|]. cbn. destruct p as [|p]; cbn in Hp'.
             - injection Hp' as ->. rewrite Nat.add_0_r in N. apply memb_false in N. rewrite N. now left.
             - assert (I : In e (select (fun i => negb (memb i owned)) (S i) r)) by (apply (IH p); auto; replace (S i + p) with (i + S p) by lia; auto).
               destruct (negb (memb i owned)); [now right|auto]. }
           apply In_nth_error in I. destruct I as (q & Q). exists q. auto.
      * left. rewrite Es. split; auto. rewrite E1, nth_error_app2 in Hp by auto.
        assert (I : In e (pending (step o (d, ls)))). { rewrite E2. apply in_or_app. right. eapply nth_error_In; eauto. }
        apply In_nth_error in I. destruct I as (q & Q). exists q. auto.
    + left. rewrite E. cbn [fst snd]. split; auto. exists p. split; auto.
    + left. rewrite E. cbn [fst snd]. rewrite app_length. split; [|lia]. exists p. split; auto. right.
      intros h' l' Hh Hl' Gl. cbn [fst snd] in *. rewrite nth_error_app1 in Hl' by lia. destruct A as (a & A1 & _). destruct Hw as [Hw|Hw]; [cbn in A1; congruence|]. eauto.
Qed.

Lemma waits_run : forall ops c w base e, W c w -> (N.of_nat (c + leases ops) < 2 ^ 64)%N -> base <= length (snd w) -> waits base e w ->
  In e (pending (run ops w)) \/
  exists a o b h l owned idx, ops = a ++ o :: b /\ acknowledges (run a w) o h l owned /\ base <= h /\ nth_error (l_events l) idx = Some e /\ In idx owned.
Proof.
  induction ops as [|o ops IH]; intros c w base e H L Hb Hw.
  - left. destruct Hw as (p & Hp & _). cbn. eapply nth_error_In; eauto.
  - rewrite leases_cons in L. assert (Lo : is_lease o = true -> (N.of_nat (S c) < 2 ^ 64)%N) by (intros E; rewrite E in L; lia).
    destruct (waits_step c w o base e H Lo Hb Hw) as [[Hw' Hb']|(h & l & owned & idx & Q)].
    + destruct (IH (if is_lease o then S c else c) (step o w) base e) as [I|(a & o' & b & h & l & owned & idx & -> & Q)]; auto.
      * apply W_step; auto.
      * destruct (is_lease o); lia.
      * right. exists (o :: a), o', b, h, l, owned, idx. split; auto.
    + right. exists [], o, ops, h, l, owned, idx. split; auto.
Qed.

Lemma waits_record : forall c d ls o e, W c (d, ls) -> is_record o = true -> records o e -> waits (length ls) e (step o (d, ls)).
Proof.
  intros c d ls o e H R Re. destruct (record_step c o d ls R H) as (d' & -> & H' & _ & G & _). specialize (G e Re).
  unfold unleased in G. apply In_nth_error in G. destruct G as (q & Q). rewrite nth_skipn in Q.
  eexists. split; [exact Q|]. cbn [fst snd]. destruct (act d') as [a|] eqn:E; auto. right. intros h l Hh Hl Gl.
  destruct H' as (_ & _ & A & _). destruct (A a E) as (_ & _ & B). destruct (B l) as [B1 _]; auto; [eapply nth_error_In; eauto|]. lia.
Qed.
Lemma records_is_record : forall o e, records o e -> is_record o = true.
Proof. intros [| | | | | | |] e H; auto; destruct e; contradiction. Qed.

Lemma run_app : forall a b w, run (a ++ b) w = run b (run a w).
Proof. intros. unfold run. apply fold_left_app. Qed.
Lemma not_lost : forall ops1 o ops2 e, (N.of_nat (leases (ops1 ++ o :: ops2)) < 2 ^ 64)%N -> records o e ->
  let w1 := run ops1 start in
  In e (pending (run ops2 (step o w1))) \/
  exists a o' b h l owned idx, ops2 = a ++ o' :: b /\ acknowledges (run a (step o w1)) o' h l owned /\
    length (snd w1) <= h /\ nth_error (l_events l) idx = Some e /\ In idx owned.
Proof.
  intros ops1 o ops2 e L Re w1. rewrite leases_app, leases_cons in L.
  pose proof (records_is_record o e Re) as R. assert (Il : is_lease o = false) by (destruct o; auto; discriminate). rewrite Il in L.
  assert (H1 : W (leases ops1) w1). { apply (W_run ops1 0 start W_start). lia. }
  destruct w1 as [d ls] eqn:E. eapply (waits_run ops2 (leases ops1)).
  - pose proof (W_step _ o _ H1) as Q. rewrite Il in Q. apply Q. discriminate.
  - lia.
  - destruct (record_step _ o d ls R H1) as (d' & -> & _). auto.
  - eapply waits_record; eauto.
Qed.

(** Leases that are over. *)
Definition dead (base : nat) (w : world) : Prop :=
  base <= length (snd w) /\ (act (fst w) = None \/ forall h l, h < base -> nth_error (snd w) h = Some l -> l_gen l <> gen (fst w)).
Lemma dead_not_accepted : forall c base w h l, W c w -> dead base w -> h < base -> nth_error (snd w) h = Some l -> ~ accepted (fst w) (l_gen l) (l_prefix l).
Proof.
  intros c base [d ls] h l (_ & _ & A & _) [_ [D|D]] Hh Hl (a & A1 & A2 & _); cbn [fst snd] in *; [congruence|].
  destruct (A a A1) as (B1 & _). apply (D h l Hh Hl). congruence.
Qed.
Lemma dead_step : forall c w o base, W c w -> (is_lease o = true -> (N.of_nat (S c) < 2 ^ 64)%N) -> dead base w -> dead base (step o w).
Proof.
  intros c [d ls] o base H Lc [Hb D]. cbn [fst snd] in *.
  destruct (is_record o) eqn:R; [|destruct (is_lease o) eqn:L].
  - destruct (record_step c o d ls R H) as (d' & -> & _ & (G1 & G2 & _) & _). split; auto. cbn [fst snd]. rewrite G1, G2. auto.
  - destruct o; try discriminate. pose proof (W_lease c d ls H (Lc eq_refl)) as (G & _). split; [cbn; rewrite app_length; lia|].
    right. intros h l Hh Hl Gl. cbn in Hl, Gl, G. rewrite nth_error_app1 in Hl by lia. destruct H as (G0 & H & _).
    destruct (H l) as [H1 _]; [eapply nth_error_In; eauto|]. lia.
  - destruct (use_cases c (d, ls) o H R L) as [E|h l owned A|h l -> Hl A Hs E|h l -> Hl A E].
    + rewrite E. split; auto.
    + destruct (ack_step c (d, ls) o h l owned H A) as (_ & Es & Ea & _). split; [rewrite Es; auto|]. auto.
    + rewrite E. split; auto.
    + rewrite E. split; [cbn; rewrite app_length; lia|]. right. cbn [fst snd]. intros h' l' Hh Hl'. rewrite nth_error_app1 in Hl' by lia.
      destruct D as [D|D]; [destruct A as (a & A1 & _); cbn in A1; congruence|]. exact (D h' l' Hh Hl').
Qed.
Lemma dead_run : forall ops c w base, W c w -> (N.of_nat (c + leases ops) < 2 ^ 64)%N -> dead base w -> dead base (run ops w).
Proof.
  induction ops as [|o ops IH]; intros c w base H L D; auto. rewrite leases_cons in L.
  assert (Lo : is_lease o = true -> (N.of_nat (S c) < 2 ^ 64)%N) by (intros E; rewrite E in L; lia).
  cbn [run fold_left]. apply (IH (if is_lease o then S c else c)); [apply W_step; auto|destruct (is_lease o); lia|]. now apply (dead_step c).
Qed.
Lemma dead_use : forall c w o base h, W c w -> dead base w -> uses o h -> h < base -> step o w = w.
Proof.
  intros c w o base h H D U Hh. assert (R : is_record o = false) by (destruct o; auto; contradiction).
  assert (L : is_lease o = false) by (destruct o; auto; contradiction).
  destruct (use_cases c w o H R L) as [E|h' l owned A|h' l -> Hl A Hs E|h' l -> Hl A E]; auto; exfalso.
  - destruct (ack_step c w o h' l owned H A) as (Ac & _). destruct A as [Hl Ho].
    assert (h' = h). { destruct o; try contradiction; cbn in U; destruct Ho as (-> & _); auto. } subst h'.
    eapply dead_not_accepted; eauto.
  - cbn in U. subst h'. eapply dead_not_accepted; eauto.
  - cbn in U. subst h'. eapply dead_not_accepted; eauto.
Qed.
Lemma closed : forall ops1 o ops2 o' h, (N.of_nat (leases (ops1 ++ o :: ops2)) < 2 ^ 64)%N ->
  let w1 := run ops1 start in
  (o = OLease \/ (exists h' l owned, acknowledges w1 o h' l owned) \/ releases w1 o) ->
  uses o' h -> h < length (snd w1) -> step o' (run ops2 (step o w1)) = run ops2 (step o w1).
Proof.
  intros ops1 o ops2 o' h L w1 Hc U Hh. rewrite leases_app, leases_cons in L.
  assert (H1 : W (leases ops1) w1). { apply (W_run ops1 0 start W_start). lia. }
  assert (Lo : is_lease o = true -> (N.of_nat (S (leases ops1)) < 2 ^ 64)%N) by (intros E; rewrite E in L; lia).
  assert (H2 : W (if is_lease o then S (leases ops1) else leases ops1) (step o w1)) by (apply W_step; auto).
  assert (D : dead (length (snd w1)) (step o w1)).
  { destruct w1 as [d ls] eqn:Ew. destruct Hc as [->|[(h' & l & owned & A)|Re]].
    - split; [cbn; rewrite app_length; lia|]. right. intros h' l Hh' Hl Gl. pose proof (W_lease _ d ls H1 (Lo eq_refl)) as (G & _).
      cbn in Hl, Gl, G. rewrite nth_error_app1 in Hl by (cbn in *; lia). destruct H1 as (G0 & H1 & _).
      destruct (H1 l) as [H3 _]; [eapply nth_error_In; eauto|]. lia.
    - destruct (ack_step _ (d, ls) o h' l owned H1 A) as (_ & Es & Ea & _). split; [rewrite Es; auto|auto].
    - destruct o; try contradiction. destruct Re as (l & Hl & Hs). cbn [fst snd] in Hl, Hs. cbn [step]. rewrite Hl.
      destruct (release_cases l d) as [[_ E]|[_ E]]; rewrite E in *; [|discriminate]. split; cbn; auto. }
  eapply dead_use; [| |exact U|exact Hh].
  - apply W_run; [exact H2|]. destruct (is_lease o); lia.
  - apply (dead_run ops2 _ _ _ H2); auto. destruct (is_lease o); lia.
Qed.

(** Nothing is invented. *)
Lemma step_in : forall c w o e, W c w -> (is_lease o = true -> (N.of_nat (S c) < 2 ^ 64)%N) -> In e (pending (step o w)) -> In e (pending w) \/ records o e.
Proof.
  intros c [d ls] o e H Lc I. destruct (is_record o) eqn:R; [|destruct (is_lease o) eqn:L].
  - destruct (record_step c o d ls R H) as (d' & E & _ & _ & _ & G). rewrite E in I. apply G. exact I.
  - destruct o; try discriminate. left. exact I.
  - left. destruct (use_cases c (d, ls) o H R L) as [E|h l owned A|h l -> Hl A Hs E|h l -> Hl A E].
    + now rewrite E in I.
    + destruct (ack_step c (d, ls) o h l owned H A) as (_ & _ & _ & later & E1 & E2). rewrite E2 in I. rewrite E1.
      apply in_app_iff in I. apply in_or_app. destruct I as [I|I]; auto. left. clear - I. revert I. generalize 0.
      induction (l_events l) as [|x r IH]; intros i I; cbn in *; auto. destruct (negb (memb i owned)); [destruct I as [<-|I]; [now left|]|]; right; eauto.
    + rewrite E in I. exact I.
    + rewrite E in I. exact I.
Qed.
Lemma run_in : forall ops e, (N.of_nat (leases ops) < 2 ^ 64)%N -> In e (pending (run ops start)) -> exists o, In o ops /\ records o e.
Proof.
  induction ops as [|o ops IH] using rev_ind; intros e L I; [destruct I|].
  rewrite leases_app, leases_cons in L. rewrite run_app in I. cbn in I.
  assert (H1 : W (leases ops) (run ops start)). { apply (W_run ops 0 start W_start). lia. }
  destruct (step_in _ _ o e H1) as [I'|Re]; auto.
  - intros E. rewrite E in L. cbn in L. lia.
  - destruct (IH e) as (o' & Io & Ro); [lia|auto|]. exists o'. split; auto. apply in_or_app. now left.
  - exists o. split; auto. apply in_or_app. right. now left.
Qed.
