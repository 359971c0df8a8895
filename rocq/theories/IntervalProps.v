(** C19, C20, C21 and C71: the interval index, the sheet index, region locks, and ranges
    looked up after structural edits. *)
From Coq Require Import ZifyN ZifyNat ZifyBool.
From Verif Require Import Base Maps IntervalModel IntervalSpec IntervalProofs IntervalProofs2 IntervalProofs3 IntervalProofs4.
From Verif Require Import GridIndexModel GridIndexProofs.

Theorem C19_query_exact : forall os ql qh lo hi v, Forall proper_op os -> (ql <= qh)%N ->
  (reported (it_query ql qh (irun os it_empty)) lo hi v <-> ispec os lo hi v /\ share ql qh lo hi).
Proof. exact interval_query. Qed.
Print Assumptions C19_query_exact.

(** Removal says whether the value was there; what it leaves is in [ispec], above. *)
Theorem C19_remove_tells : forall os lo hi v,
  snd (it_remove lo hi v (irun os it_empty)) = true <-> ispec os lo hi v.
Proof. exact interval_remove. Qed.
Print Assumptions C19_remove_tells.

Theorem C19_no_interval_twice : forall os ql qh, NoDup (map fst (it_query ql qh (irun os it_empty))).
Proof. exact query_once. Qed.
Print Assumptions C19_no_interval_twice.

(** The reported size is the number of distinct intervals held. *)
Theorem C19_size : forall os, Forall filled_op os ->
  exists l, NoDup l /\ isize (irun os it_empty) = N.of_nat (length l)
            /\ forall lo hi, In (lo, hi) l <-> exists v, ispec os lo hi v.
Proof. exact interval_size. Qed.
Print Assumptions C19_size.

Definition some_intervals : list iop :=
  [IInsert 1 5 10; IInsert 1 9 11; IEntry 4 4 12; IRemove 1 5 10; IBulk [(6, [13; 14])%N; (9, [15])%N]; IInsert 1 9 16]%N.
Example C19_example : Forall proper_op some_intervals /\ Forall filled_op some_intervals
  /\ it_query 5 6 (irun some_intervals it_empty) = [(1, 9, [16; 11]); (6, 6, [14; 13])]%N
  /\ isize (irun some_intervals it_empty) = 4%N.
Proof.
  split; [|split; [|split]].
  - repeat constructor; cbn; lia.
  - repeat constructor; cbn; auto.
    + destruct H as [E|[E|[]]]; inversion E; discriminate.
    + destruct H as [E|[E|[]]]; inversion E; subst; repeat constructor; cbn; intuition discriminate.
  - vm_compute. reflexivity.
  - reflexivity.
Qed.

Theorem C20_index_exact : forall os, all_named os (fun _ => None) ->
  (forall a b, lists (in_rows a b (srun os si_empty)) (fun v => exists r c, sspec os v = Some (r, c) /\ (a <= r <= b)%N))
  /\ (forall a b, lists (in_cols a b (srun os si_empty)) (fun v => exists r c, sspec os v = Some (r, c) /\ (a <= c <= b)%N))
  /\ (forall r0 r1 c0 c1, lists (in_rect r0 r1 c0 c1 (srun os si_empty)) (within r0 r1 c0 c1 (sspec os))).
Proof. exact index_exact. Qed.
Print Assumptions C20_index_exact.

Definition some_cells : list sop :=
  [SAdd (3, 4) 1; SBatch [((3, 5), 2); ((7, 7), 3); ((3, 5), 2)]; SMove (3, 4) (8, 2) 1; SRemove (7, 7) 3; SAdd (8, 3) 4]%N.
Example C20_example : all_named some_cells (fun _ => None)
  /\ in_rect 8 8 2 2 (srun some_cells si_empty) = [1%N] /\ length (in_rect 0 9 2 4 (srun some_cells si_empty)) = 2%nat
  /\ in_rows 7 7 (srun some_cells si_empty) = [].
Proof. cbn [some_cells all_named named]. repeat split; auto; vm_compute; auto. Qed.

(** No two reservations held at the same moment overlap, whoever holds them. *)
Theorem C21_never_overlap : forall os, (reserves os < MAX64 - 1)%N ->
  forall i j a b v w, holds (lrun os locks_new) i a v -> holds (lrun os locks_new) j b w -> i <> j -> ~ collide a b.
Proof. exact locks_apart. Qed.
Print Assumptions C21_never_overlap.

(** Refused exactly if it overlaps a held region; of any owner, which is not what the
    property asks. *)
Theorem C21_refused_exactly_partial : forall os, (reserves os < MAX64 - 1)%N ->
  forall r w, sound r ->
  (snd (reserve r w (lrun os locks_new)) = None <-> exists id a v, holds (lrun os locks_new) id a v /\ collide r a).
Proof. exact refused_iff. Qed.
Print Assumptions C21_refused_exactly_partial.

Theorem C21_granted_holds : forall os, (reserves os < MAX64 - 1)%N ->
  forall r w id, sound r -> snd (reserve r w (lrun os locks_new)) = Some id ->
  (id <> 0)%N /\ (forall a v, ~ holds (lrun os locks_new) id a v) /\
  forall i a v, holds (fst (reserve r w (lrun os locks_new))) i a v
                <-> (i = id /\ a = r /\ v = w) \/ holds (lrun os locks_new) i a v.
Proof. exact granted_holds. Qed.
Print Assumptions C21_granted_holds.

Theorem C21_refused_changes_nothing : forall os r w i a v, snd (reserve r w (lrun os locks_new)) = None ->
  (holds (fst (reserve r w (lrun os locks_new))) i a v <-> holds (lrun os locks_new) i a v).
Proof. exact refused_same. Qed.
Print Assumptions C21_refused_changes_nothing.

Theorem C21_release_exact : forall os, (reserves os < MAX64 - 1)%N ->
  forall id i a v, holds (release id (lrun os locks_new)) i a v <-> holds (lrun os locks_new) i a v /\ i <> id.
Proof. exact released_exactly. Qed.
Print Assumptions C21_release_exact.

(** An owner whose own region overlaps is refused, though no other owner holds anything. *)
Theorem C21_own_region_refuted : exists os r w, (reserves os < MAX64 - 1)%N /\ sound r /\
  (forall id a v, holds (lrun os locks_new) id a v -> v = w) /\ snd (reserve r w (lrun os locks_new)) = None.
Proof. exact own_refused. Qed.
Print Assumptions C21_own_region_refuted.

Definition some_locks : list lop :=
  [LReserve (Region 1 0 2 0 2) 7; LReserve (Region 1 2 4 2 4) 8; LReserve (Region 2 2 4 2 4) 8; LReserve (Region 1 3 4 0 4) 9; LRelease 1]%N.
Example C21_example : (reserves some_locks < MAX64 - 1)%N
  /\ holds (lrun some_locks locks_new) 2 (Region 2 2 4 2 4) 8 /\ holds (lrun some_locks locks_new) 3 (Region 1 3 4 0 4) 9
  /\ snd (reserve (Region 1 0 3 3 3) 5 (lrun some_locks locks_new)) = None
  /\ snd (reserve (Region 1 0 2 0 2) 5 (lrun some_locks locks_new)) = Some 4%N.
Proof.
  split; [reflexivity|]. split; [|split; [|split; reflexivity]]; eexists; (split; [reflexivity|split; reflexivity]).
Qed.

(** While only rows are inserted and deleted, the formulas found for a range are exactly
    the dirty ones now inside it. *)
Theorem C71_rows_partial : forall os dirty self r0 r1 c0 c1, Forall row_op os -> fresh_ids os [] ->
  lists (virtual_deps dirty self r0 r1 c0 c1 (grun os g_empty)) (inside dirty self r0 r1 c0 c1 (grun os g_empty)).
Proof. exact rows_only_exact. Qed.
Print Assumptions C71_rows_partial.

(** One inserted column, and the formula is missed where it is and found where it was. *)
Theorem C71_columns_refuted : exists os dirty self r0 r1 c0 c1 u, fresh_ids os [] /\
  inside dirty self r0 r1 c0 c1 (grun os g_empty) u /\ ~ In u (virtual_deps dirty self r0 r1 c0 c1 (grun os g_empty)).
Proof.
  exists [GNew (5, 0)%N 1%N; GInsertCols 0 1], (fun _ => true), 9%N, 0%N, 100%N, 1%N, 1%N, 1%N.
  destruct column_lost as (A & B & _). split; [cbn; tauto|]. split; [exact A|]. rewrite B. auto.
Qed.
Print Assumptions C71_columns_refuted.

Example C71_example : let os := [GNew (5, 0) 1; GNew (2, 0) 2; GNew (9, 3) 3; GInsertRows 3 4; GDeleteRows 0 1]%N in
  Forall row_op os /\ fresh_ids os [] /\ virtual_deps (fun _ => true) 9 8 8 0 5 (grun os g_empty) = [1%N].
Proof.
  cbn zeta. split; [repeat constructor|]. split; [cbn; repeat split; auto; intuition discriminate|]. reflexivity.
Qed.
