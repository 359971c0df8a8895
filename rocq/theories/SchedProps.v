(** Claims about the scheduler (C12, C13, C14). *)
From Coq Require Import Permutation.
From Verif Require Import Base GraphSpec SchedSpec TarjanModel ListSort LiveGraphProofs SchedModel SchedProofs2 SchedProofs3 SchedProofs5.

(** C12: the emitted components are exactly the classes of mutually dependent cells
    among the requested ones, dependencies first. *)
Theorem C12_components : forall deps vertices vdeps, exists sccs,
  tarjan_scc deps vertices vdeps = Ok sccs /\
  components (needs (fun v => deps v ++ vdeps v) vertices) (fun x => In x vertices) sccs.
Proof. exact tarjan_scc_ok. Qed.
Print Assumptions C12_components.

(** C12: a cell is in a reported cycle exactly if it depends on itself, directly or
    through requested cells; two cells share one exactly if each depends on the other. *)
Theorem C12_circular : forall deps vertices, exists sccs,
  tarjan_scc deps vertices (fun _ => []) = Ok sccs /\
  forall x y, In x vertices ->
    ((exists C, In C (fst (separate_cycles deps sccs)) /\ In x C) <-> on_cycle (needs deps vertices) x) /\
    (In y vertices -> x <> y ->
      ((exists C, In C (fst (separate_cycles deps sccs)) /\ In x C /\ In y C) <-> strong (needs deps vertices) x y)).
Proof.
  intros deps vertices. destruct (tarjan_scc_ok deps vertices (fun _ => [])) as (sccs & T & HC). exists sccs. split; auto.
  assert (NE : forall x y, needs (fun v => deps v ++ []) vertices x y <-> needs deps vertices x y).
  { intros. unfold needs. now rewrite app_nil_r. }
  pose proof HC as HC'.
  apply (components_ext _ _ _ (fun x => In x vertices) _ NE (fun x => iff_refl (In x vertices))) in HC.
  assert (ns : forall v, In v vertices -> In v ((fun _ : nat => @nil nat) v) -> In v (deps v)) by (intros v _ []).
  intros x y Hx. cbn [fst separate_cycles]. split.
  - rewrite <- in_concat, (in_cycles deps (fun _ => []) vertices ns sccs HC' x).
    unfold on_cycle. split.
    + intros (_ & z & e & R). exists z. split; [now apply NE|]. now apply (reach_ext _ _ NE).
    + intros (z & e & R). split; auto. exists z. split; [now apply NE|]. now apply (reach_ext _ _ NE).
  - intros Hy Ne. split.
    + intros (C & IC & Ix & Iy). apply filter_In in IC. destruct HC as (_ & _ & _ & H4 & _). apply (H4 C); tauto.
    + intros St. pose proof HC as (H1 & _ & _ & H4 & _). pose proof (proj1 (H1 x) Hx) as Hc. apply in_concat in Hc.
      destruct Hc as (C & IC & Ix). pose proof (proj2 (H4 C x y IC Ix) St) as Iy. exists C. split; auto.
      apply filter_In. split; auto. unfold is_cycle. apply orb_true_iff. left. apply Nat.ltb_lt.
      destruct C as [|a [|b C]]; [destruct Ix| |cbn; lia]. destruct Ix as [<-|[]], Iy as [<-|[]]. congruence.
Qed.
Print Assumptions C12_circular.

(** C13 and C14: for every dependency graph whose reverse edges mirror its forward
    edges, building a schedule succeeds, and the schedule holds every requested cell
    once, after everything it needs.  [ho] is any hash-map order. *)
Theorem C13_schedule : forall deps dependents ho vertices, (forall l, Permutation (ho l) l) ->
  mirrored deps dependents vertices ->
  exists s, create_schedule deps dependents ho vertices = Ok s /\ good_schedule (needs deps vertices) vertices s.
Proof. exact create_schedule_ok. Qed.
Print Assumptions C13_schedule.

(** The same with the extra dependencies of one evaluation pass, which need no mirror. *)
Theorem C13_schedule_virtual : forall deps ho vertices vdeps, (forall l, Permutation (ho l) l) ->
  (forall v, In v vertices -> In v (vdeps v) -> In v (deps v)) ->
  exists s, create_schedule_with_virtual deps ho vertices vdeps = Ok s /\
    good_schedule (needs (fun v => deps v ++ vdeps v) vertices) vertices s.
Proof. exact create_schedule_virtual_ok. Qed.
Print Assumptions C13_schedule_virtual.

Theorem C14_never_fails : forall deps dependents ho vertices vdeps, (forall l, Permutation (ho l) l) ->
  mirrored deps dependents vertices -> (forall v, In v vertices -> In v (vdeps v) -> In v (deps v)) ->
  (exists s, create_schedule deps dependents ho vertices = Ok s) /\
  (exists s, create_schedule_with_virtual deps ho vertices vdeps = Ok s).
Proof.
  intros deps dependents ho vertices vdeps Ho Mi ns. split.
  - destruct (create_schedule_ok deps dependents ho vertices Ho Mi) as (s & H & _). eauto.
  - destruct (create_schedule_virtual_ok deps ho vertices vdeps Ho ns) as (s & H & _). eauto.
Qed.
Print Assumptions C14_never_fails.

(** The condition on virtual dependencies is needed: the cycle test looks for self
    loops among graph edges only, so a virtual self-dependency is left to the layering,
    which gives up with the circular-reference error.  (VirtualDepBuilder drops such
    edges, virtual_deps.rs, so the engine does not produce them.) *)
Theorem C14_virtual_self_refuted : exists deps ho vertices vdeps, (forall l, Permutation (ho l) l) /\
  create_schedule_with_virtual deps ho vertices vdeps = Err Circ.
Proof.
  exists (fun _ => []), (fun l => l), [1; 2], (fun v => if Nat.eqb v 1 then [1] else []).
  split; [reflexivity|]. vm_compute. reflexivity.
Qed.
Print Assumptions C14_virtual_self_refuted.

(** Without mirrored edges the layering can panic or give up: the precondition is
    the edge store's (C17). *)
Theorem C14_unmirrored_refuted : exists deps dependents ho vertices, (forall l, Permutation (ho l) l) /\
  create_schedule deps dependents ho vertices = Err Circ.
Proof.
  exists (fun v => if Nat.eqb v 2 then [1] else []), (fun _ => []), (fun l => l), [1; 2].
  split; [reflexivity|]. vm_compute. reflexivity.
Qed.
Print Assumptions C14_unmirrored_refuted.

(** A concrete graph: 1 <-> 2, 3 reads 1, 4 reads 3 and itself, 5 reads 4 and 9
    (not requested); 6 feeds the cycle. *)
Definition ex_deps (v : nat) : list nat :=
  match v with 1 => [2; 6] | 2 => [1] | 3 => [1] | 4 => [3; 4] | 5 => [4; 9] | _ => [] end.
Definition ex_dependents (v : nat) : list nat :=
  match v with 1 => [2; 3] | 2 => [1] | 3 => [4] | 4 => [4; 5] | 6 => [1] | 9 => [5] | _ => [] end.
Example ex_mirrored : mirrored ex_deps ex_dependents [5; 4; 3; 2; 1; 6; 4].
Proof.
  intros u v Hu Hv. cbn [In] in Hu, Hv.
  repeat (destruct Hu as [<-|Hu]; [repeat (destruct Hv as [<-|Hv]; [reflexivity|]); destruct Hv|]). destruct Hu.
Qed.
Example ex_schedule : create_schedule ex_deps ex_dependents (fun l => rev l) [5; 4; 3; 2; 1; 6; 4]
  = Ok (Schedule [ULayer 0; UCycle 0; ULayer 1; UCycle 1; ULayer 2] [[2; 1]; [4]] [[6]; [3]; [5]]).
Proof. vm_compute. reflexivity. Qed.
