(** Evaluating a cyclic component: exact results, missed and phantom cycles, budgets. *)
From Verif Require Import Base GraphSpec LiveGraphSpec LiveGraphModel SccModel SccSpec SccProofs SccProofs2 SccProofs3.

(** The start: members marked in [e0] keep the value they have. *)
Definition start {V} (e0 : nat -> bool) (v0 : nat -> V) : nat -> option V := fun j => if e0 j then Some (v0 j) else None.

(** C58.  A component reported as settled satisfies its formulas, and each value is
    the demand-driven one: no formula ran into itself. *)
Theorem C58_exact : forall V veq (veq_eq : forall a b : V, veq a b = true <-> a = b) arr circ conv n f (f_ok : forall i, prog_ok n (f i))
    pol v0 e0 st p, evaluate_scc V veq arr circ conv n f pol v0 e0 = Ok (Exact, st, p) ->
  fixpoint n f st /\ (forall i, i < n -> demands f (start (excl st) (vals st)) i (vals st i)).
Proof. intros V veq veq_eq arr circ conv n f f_ok pol v0 e0 st p. exact (scc_exact V veq veq_eq arr circ conv n f f_ok pol v0 e0 st p). Qed.
Print Assumptions C58_exact.

(** If no member returns an array: the values are the demand-driven values from the
    start, whatever the values left by earlier recalculations. *)
Theorem C58_history_free : forall V veq (veq_eq : forall a b : V, veq a b = true <-> a = b) arr circ conv n f (f_ok : forall i, prog_ok n (f i))
    (noarr : forall i v, arr i v = false) v0 e0 pol st p, evaluate_scc V veq arr circ conv n f pol v0 e0 = Ok (Exact, st, p) ->
  forall i, i < n -> demands f (start e0 v0) i (vals st i).
Proof. intros V veq veq_eq arr circ conv n f f_ok noarr v0 e0 pol st p. exact (scc_exact_demand V veq veq_eq arr circ conv n f f_ok noarr v0 e0 pol st p). Qed.
Print Assumptions C58_history_free.

(** C59.  The pass budget "members + 2" is never what stops the loop. *)
Theorem C59_budget : forall V veq (veq_eq : forall a b : V, veq a b = true <-> a = b) arr circ conv n f (f_ok : forall i, prog_ok n (f i))
    (noarr : forall i v, arr i v = false) v0 e0 pol st p, evaluate_scc V veq arr circ conv n f pol v0 e0 <> Ok (CappedSettle, st, p).
Proof. intros V veq veq_eq arr circ conv n f f_ok noarr v0 e0 pol st p E. exact (scc_budget V veq veq_eq arr circ conv n f f_ok noarr v0 e0 pol st p E). Qed.
Print Assumptions C59_budget.

(** C60.  A formula that runs into itself is never reported settled ... *)
Theorem C60_no_missed_cycle : forall V veq (veq_eq : forall a b : V, veq a b = true <-> a = b) arr circ conv n f (f_ok : forall i, prog_ok n (f i))
    (noarr : forall i v, arr i v = false) v0 e0 pol o st p i,
  i < n -> (forall d, demand f (start e0 v0) d i = None) -> evaluate_scc V veq arr circ conv n f pol v0 e0 = Ok (o, st, p) -> o <> Exact.
Proof.
  intros V veq veq_eq arr circ conv n f f_ok noarr v0 e0 pol o st p i Hi D E ->.
  destruct (C58_history_free V veq veq_eq arr circ conv n f f_ok noarr v0 e0 pol st p E i Hi) as (d & Q). rewrite D in Q. discriminate.
Qed.
Print Assumptions C60_no_missed_cycle.

(** ... but the converse is false: reads made in one pass before and after a switch
    cell changed combine to a cycle nobody runs into.
    a = IF(c, b, 1); c = 0 (was TRUE); b = IF(c, 2, a). *)
Definition phantom : nat -> prog nat := fun i =>
  match i with
  | 0 => Read 1 (fun c => if c =? 0 then Done 1 else Read 2 (fun b => Done b))
  | 1 => Done 0
  | _ => Read 1 (fun c => if c =? 0 then Read 0 (fun a => Done a) else Done 2)
  end.
Lemma phantom_ok : forall i, prog_ok 3 (phantom i).
Proof.
  intros [|[|i]]; cbn; [|constructor|]; (constructor; [lia|]; intros v; destruct (v =? 0)); repeat constructor.
Qed.
Theorem C60_phantom_cycle_refuted : exists st p,
  (forall i, prog_ok 3 (phantom i)) /\
  evaluate_scc nat Nat.eqb (fun _ _ => false) 99 Nat.eqb 3 phantom PError (fun i => if i =? 1 then 1 else 0) (fun _ => false) = Ok (StampedCycle, st, p) /\
  vals st 0 = 99 /\ vals st 2 = 99 /\
  demand phantom (fun _ => None) 3 0 = Some 1 /\ demand phantom (fun _ => None) 3 1 = Some 0 /\ demand phantom (fun _ => None) 3 2 = Some 1 /\
  (* from another history the same formulas settle *)
  exists st' p', evaluate_scc nat Nat.eqb (fun _ _ => false) 99 Nat.eqb 3 phantom PError (fun _ => 0) (fun _ => false) = Ok (Exact, st', p') /\
    vals st' 0 = 1 /\ vals st' 2 = 1.
Proof. do 2 eexists. split; [exact phantom_ok|]. split; [vm_compute; reflexivity|]. repeat (split; [reflexivity|]). do 2 eexists. split; [vm_compute; reflexivity|]. auto. Qed.
Print Assumptions C60_phantom_cycle_refuted.

(** And an array seen only because of an old value stamps the member for good:
    a = IF(c, array, 1); c = 0 (was TRUE), here 50 stands for the array. *)
Definition transient : nat -> prog nat := fun i =>
  match i with 0 => Read 1 (fun c => if c =? 0 then Done 1 else Done 50) | _ => Done 0 end.
Theorem C60_transient_array_refuted : exists st p,
  (forall i, prog_ok 2 (transient i)) /\
  evaluate_scc nat Nat.eqb (fun _ v => v =? 50) 99 Nat.eqb 2 transient PError (fun i => i) (fun _ => false) = Ok (Exact, st, p) /\
  vals st 0 = 99 /\ vals st 1 = 0 /\ fst (run_prog (transient 0) (vals st)) = 1.
Proof.
  do 2 eexists. split.
  - intros [|i]; cbn; [constructor; [lia|]; intros v; destruct (v =? 0)|]; constructor.
  - split; [vm_compute; reflexivity|]. auto.
Qed.
Print Assumptions C60_transient_array_refuted.

(** C61.  Error policy: with formulas whose reads do not depend on values, exactly the
    members on a cycle of reads get the error, and the rest satisfy their formulas. *)
Theorem C61_error_partial : forall V veq (veq_eq : forall a b : V, veq a b = true <-> a = b) arr circ conv n f (f_ok : forall i, prog_ok n (f i))
    (noarr : forall i v, arr i v = false) v0 e0 st p,
  (forall i rho rho', snd (run_prog (f i) rho) = snd (run_prog (f i) rho')) ->
  evaluate_scc V veq arr circ conv n f PError v0 e0 = Ok (StampedCycle, st, p) ->
  let E := fun i j => i < n /\ e0 i = false /\ In j (snd (run_prog (f i) v0)) in
  (forall i, i < n -> (excl st i = true <-> e0 i = true \/ on_cycle E i)) /\
  (forall i, i < n -> e0 i = false -> on_cycle E i -> vals st i = circ) /\
  (forall i, i < n -> e0 i = true -> vals st i = v0 i) /\
  fixpoint n f st.
Proof. intros V veq veq_eq arr circ conv n f f_ok noarr v0 e0 st p. exact (scc_error V veq veq_eq arr circ conv n f f_ok noarr v0 e0 st p). Qed.
Print Assumptions C61_error_partial.

(** Without that restriction the rest need not satisfy their formulas:
    a = b + 1; b = a + 1; x = IFERROR(a, y); y = IFERROR(b, 5); y was 2. *)
Definition survivors : nat -> prog nat := fun i =>
  match i with
  | 0 => Read 1 (fun b => Done (b + 1))
  | 1 => Read 0 (fun a => Done (a + 1))
  | 2 => Read 0 (fun a => if a =? 99 then Read 3 (fun y => Done y) else Done a)
  | _ => Read 1 (fun b => if b =? 99 then Done 5 else Done b)
  end.
Lemma survivors_ok : forall i, prog_ok 4 (survivors i).
Proof.
  intros [|[|[|i]]]; cbn; (constructor; [lia|]); intros v; try (destruct (v =? 99)); repeat constructor; lia.
Qed.
Theorem C61_survivors_refuted : exists st p,
  (forall i, prog_ok 4 (survivors i)) /\
  evaluate_scc nat Nat.eqb (fun _ _ => false) 99 Nat.eqb 4 survivors PError (fun _ => 0) (fun _ => false) = Ok (StampedCycle, st, p) /\
  excl st 2 = false /\ vals st 2 = 2 /\ vals st 3 = 5 /\ fst (run_prog (survivors 2) (vals st)) = 5.
Proof. do 2 eexists. split; [exact survivors_ok|]. split; [vm_compute; reflexivity|]. auto. Qed.
Print Assumptions C61_survivors_refuted.

(** C62.  The task always ends with an outcome; the number of passes is bounded; a
    convergence verdict compares a whole pass with the values before it; giving up
    uses at least the configured number of passes. *)
Theorem C62_ends : forall V veq (veq_eq : forall a b : V, veq a b = true <-> a = b) arr circ conv n f (f_ok : forall i, prog_ok n (f i)) pol v0 e0,
  exists o st p, evaluate_scc V veq arr circ conv n f pol v0 e0 = Ok (o, st, p) /\ 1 <= p.
Proof. exact scc_total. Qed.
Print Assumptions C62_ends.
Theorem C62_passes : forall V veq (veq_eq : forall a b : V, veq a b = true <-> a = b) arr circ conv n f (f_ok : forall i, prog_ok n (f i)) m v0 e0 o st p,
  evaluate_scc V veq arr circ conv n f (PIterate m) v0 e0 = Ok (o, st, p) -> p <= Nat.max 1 m + (n + 1) /\ (o = CappedIter -> m <= p).
Proof. exact scc_passes. Qed.
Print Assumptions C62_passes.
Theorem C62_converged : forall V veq arr circ conv n f pol v0 e0 st p,
  evaluate_scc V veq arr circ conv n f pol v0 e0 = Ok (Converged, st, p) ->
  exists st0, st = full_pass V veq arr circ n f st0 /\ forall i, i < n -> excl st i = false -> conv (vals st0 i) (vals st i) = true.
Proof. exact scc_converged. Qed.
Print Assumptions C62_converged.
(** With enough iterations a component no formula of which runs into itself never
    ends as "did not converge". *)
Theorem C62_enough : forall V veq (veq_eq : forall a b : V, veq a b = true <-> a = b) arr circ conv n f (f_ok : forall i, prog_ok n (f i))
    (noarr : forall i v, arr i v = false) v0 e0 m o st p,
  evaluate_scc V veq arr circ conv n f (PIterate m) v0 e0 = Ok (o, st, p) -> n + 1 <= m ->
  (forall i, i < n -> exists v, demands f (start e0 v0) i v) -> o = Exact \/ o = Converged.
Proof. intros V veq veq_eq arr circ conv n f f_ok noarr v0 e0 m o st p. exact (scc_iterate_enough V veq veq_eq arr circ conv n f f_ok noarr v0 e0 m o st p). Qed.
Print Assumptions C62_enough.

(** Concrete instances.  A component settling exactly after a settle pass:
    a = IF(c, b, 1); b = IF(c, 2, 7); c = 0, c was 0 but b was stale. *)
Definition switch : nat -> prog nat := fun i =>
  match i with
  | 0 => Read 2 (fun c => if c =? 0 then Done 1 else Read 1 (fun b => Done b))
  | 1 => Read 2 (fun c => if c =? 0 then Read 0 (fun a => Done (a + 10)) else Done 2)
  | _ => Done 1
  end.
Example switch_ok : forall i, prog_ok 3 (switch i).
Proof. intros [|[|i]]; cbn; [| |constructor]; (constructor; [lia|]); intros v; destruct (v =? 0); repeat constructor; lia. Qed.
Example switch_settles : exists st p,
  evaluate_scc nat Nat.eqb (fun _ _ => false) 99 Nat.eqb 3 switch PError (fun _ => 0) (fun _ => false) = Ok (Exact, st, p) /\
  p = 3 /\ vals st 0 = 2 /\ vals st 1 = 2.
Proof. do 2 eexists. split; [vm_compute; reflexivity|]. auto. Qed.
(** A genuine cycle, under both policies: a = b, b = min(a + 1, 4). *)
Definition grow : nat -> prog nat := fun i =>
  match i with 0 => Read 1 (fun b => Done b) | _ => Read 0 (fun a => Done (Nat.min (a + 1) 4)) end.
Example grow_straight : forall i rho rho', snd (run_prog (grow i) rho) = snd (run_prog (grow i) rho').
Proof. intros [|i] rho rho'; reflexivity. Qed.
Example grow_error : exists st p,
  evaluate_scc nat Nat.eqb (fun _ _ => false) 99 Nat.eqb 2 grow PError (fun _ => 0) (fun _ => false) = Ok (StampedCycle, st, p) /\ vals st 0 = 99.
Proof. do 2 eexists. split; [vm_compute; reflexivity|]. auto. Qed.
Example grow_iterates : exists st p,
  evaluate_scc nat Nat.eqb (fun _ _ => false) 99 Nat.eqb 2 grow (PIterate 100) (fun _ => 0) (fun _ => false) = Ok (Converged, st, p) /\
  p = 6 /\ vals st 0 = 4.
Proof. do 2 eexists. split; [vm_compute; reflexivity|]. auto. Qed.
Example grow_gives_up : exists st p,
  evaluate_scc nat Nat.eqb (fun _ _ => false) 99 Nat.eqb 2 grow (PIterate 3) (fun _ => 0) (fun _ => false) = Ok (CappedIter, st, p) /\ p = 3.
Proof. do 2 eexists. split; [vm_compute; reflexivity|]. auto. Qed.
(** More passes than the configured maximum can run: pass 1 has no cycle, the settle
    pass creates one.  a = IF(c, b, 1); b = IF(c, a, 2); c = 1, c was 0. *)
Definition late_cycle : nat -> prog nat := fun i =>
  match i with
  | 0 => Read 2 (fun c => if c =? 0 then Done 1 else Read 1 (fun b => Done b))
  | 1 => Read 2 (fun c => if c =? 0 then Done 2 else Read 0 (fun a => Done a))
  | _ => Done 1
  end.
Theorem C62_over_max_refuted : exists st p,
  evaluate_scc nat Nat.eqb (fun _ _ => false) 99 Nat.eqb 3 late_cycle (PIterate 1) (fun _ => 0) (fun _ => false) = Ok (CappedIter, st, p) /\ 1 < p.
Proof. do 2 eexists. split; [vm_compute; reflexivity|]. auto. Qed.
Print Assumptions C62_over_max_refuted.
