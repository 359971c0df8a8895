(** C33: pending change notices are never lost. *)
From Verif Require Import Base ListSort LeaseModel LeaseSpec LeaseProofs LeaseProofs2.

(** After a notice is recorded it stays pending until a lease issued after the record
    that contains it is acknowledged for its position.  The bound on the number of
    leases is where the generation counter would wrap. *)
Theorem C33_not_lost : forall ops1 o ops2 e, (N.of_nat (leases (ops1 ++ o :: ops2)) < 2 ^ 64)%N -> records o e ->
  let w1 := run ops1 start in
  In e (pending (run ops2 (step o w1))) \/
  exists a o' b h l owned idx, ops2 = a ++ o' :: b /\ acknowledges (run a (step o w1)) o' h l owned /\
    length (snd w1) <= h /\ nth_error (l_events l) idx = Some e /\ In idx owned.
Proof. exact not_lost. Qed.
Print Assumptions C33_not_lost.

(** A successful acknowledgement removes exactly the owned positions of the lease and
    keeps everything recorded later, in order. *)
Theorem C33_ack_exact : forall ops o h l owned, (N.of_nat (leases ops) < 2 ^ 64)%N -> acknowledges (run ops start) o h l owned ->
  exists later, pending (run ops start) = l_events l ++ later /\
    pending (step o (run ops start)) = select (fun i => negb (memb i owned)) 0 (l_events l) ++ later.
Proof.
  intros ops o h l owned L A. destruct (ack_step (leases ops) (run ops start) o h l owned) as (_ & _ & _ & Q); auto.
  apply (W_run ops 0 start W_start). exact L.
Qed.
Print Assumptions C33_ack_exact.

(** Once a newer lease is issued, or a lease is acknowledged or released, the leases
    issued before have no effect any more, whatever happens later. *)
Theorem C33_stale_lease : forall ops1 o ops2 o' h, (N.of_nat (leases (ops1 ++ o :: ops2)) < 2 ^ 64)%N ->
  let w1 := run ops1 start in
  (o = OLease \/ (exists h' l owned, acknowledges w1 o h' l owned) \/ releases w1 o) ->
  uses o' h -> h < length (snd w1) -> step o' (run ops2 (step o w1)) = run ops2 (step o w1).
Proof. exact closed. Qed.
Print Assumptions C33_stale_lease.

(** A lease contains everything pending. *)
Theorem C33_lease_all : forall w, exists l, step OLease w = (fst (step OLease w), snd w ++ [l]) /\ l_events l = pending w /\ pending (step OLease w) = pending w.
Proof. intros [d ls]. eexists. split; [reflexivity|]. split; reflexivity. Qed.
Print Assumptions C33_lease_all.

(** Nothing is pending that was not recorded. *)
Theorem C33_nothing_invented : forall ops e, (N.of_nat (leases ops) < 2 ^ 64)%N -> In e (pending (run ops start)) -> exists o, In o ops /\ records o e.
Proof. exact run_in. Qed.
Print Assumptions C33_nothing_invented.

(** A history with a notice recorded twice, before and after a lease: the second stays. *)
Example lease_example :
  let w := run [ORegion 7; OSpans [1; 2]; OLease; ORegion 7; ORegion 7; OExtend 0; ORegion 7; OAck 0; OAck 1] start in
  pending w = [Region 7] /\ map l_events (snd w) = [[Region 7; WholeSpan 1; WholeSpan 2]; [Region 7; WholeSpan 1; WholeSpan 2; Region 7]].
Proof. vm_compute. auto. Qed.
(** The hypotheses of the theorems are met: a partial acknowledgement that succeeds. *)
Example lease_ack_example : exists l, acknowledges (run [ORegion 7; OSpanRegion 1 2; OLease; ORegion 8] start) (OAckSub 0 [1; 5]) 0 l [1; 5] /\
  pending (step (OAckSub 0 [1; 5]) (run [ORegion 7; OSpanRegion 1 2; OLease; ORegion 8] start)) = [Region 7; Region 8].
Proof. eexists. split; [split; [reflexivity|cbn; auto]|]. vm_compute. reflexivity. Qed.
