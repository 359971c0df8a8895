(** Theorems about the range index (properties C36, C72). *)
From Verif Require Import Base Maps IntervalModel StripeModel StripeSpec StripeProofs.

(** C36.  After any history of formulas being given ranges and losing them, the formulas
    found from a changed rectangle are exactly those with a range meeting it, each once;
    with block indexing on or off. *)
Theorem C36_found_exactly : forall blocks os sheet r0 c0 r1 c1,
  (forall d r, In r (rspec os d) -> two_sided r /\ forward r) ->
  (r0 <= r1)%N -> (c0 <= c1)%N -> fits r1 -> fits c1 ->
  NoDup (collect blocks sheet r0 c0 r1 c1 (rrun blocks os rindex_new)) /\
  forall d, In d (collect blocks sheet r0 c0 r1 c1 (rrun blocks os rindex_new)) <->
    exists r row col, In r (rspec os d) /\ (r0 <= row <= r1)%N /\ (c0 <= col <= c1)%N /\ covers r sheet row col.
Proof. exact collect_exact. Qed.
Print Assumptions C36_found_exactly.

(** A formula whose ranges do not contain the cell is never reported, whatever their shape. *)
Theorem C36_never_without_reason : forall blocks os sheet row col d,
  fits row -> fits col -> (forall r, In r (rspec os d) -> forward r) ->
  In d (collect blocks sheet row col row col (rrun blocks os rindex_new)) ->
  exists r, In r (rspec os d) /\ covers r sheet row col.
Proof. exact collect_sound. Qed.
Print Assumptions C36_never_without_reason.

(** A block (A1:Z300), whole columns (A:C), an open column (A2:A), whole rows (1:3);
    formula 7 is given other ranges later, formula 9 loses its own. *)
Definition ex_ranges : list rop :=
  [ RAdd 7 [Rng 0 (Some 0) (Some 299) (Some 0) (Some 25)];
    RAdd 8 [Rng 0 None None (Some 0) (Some 2); Rng 1 (Some 1) None (Some 0) (Some 0)];
    RAdd 9 [Rng 0 (Some 0) (Some 2) None None];
    RRemove 9;
    RAdd 10 [Rng 0 (Some 270) (Some 280) (Some 2) (Some 9)];
    RAdd 7 [Rng 0 (Some 0) (Some 2) None None] ]%N.
Example C36_example_hyp : forall d r, In r (rspec ex_ranges d) -> two_sided r /\ forward r.
Proof.
  intros d r H. unfold rspec, ex_ranges in H; cbn [fold_left rspec_step] in H.
  destruct (N.eqb d 7), (N.eqb d 10), (N.eqb d 9), (N.eqb d 8); cbn in H;
    repeat (destruct H as [<-|H]); try contradiction;
    (split; [unfold two_sided; cbn; first [left; split; discriminate | right; split; discriminate]
            | split; intros x y E1 E2; cbn in E1, E2; try discriminate;
              injection E1 as <-; injection E2 as <-; apply N.leb_le; reflexivity]).
Qed.
Example C36_example :
  collect true 0 1 2 1 2 (rrun true ex_ranges rindex_new) = [8; 7]%N /\
  collect true 0 275 2 275 2 (rrun true ex_ranges rindex_new) = [8; 10]%N /\
  collect true 0 275 20 275 20 (rrun true ex_ranges rindex_new) = [] /\
  collect true 1 1 0 1 0 (rrun true ex_ranges rindex_new) = [8]%N /\
  collect true 1 0 0 0 0 (rrun true ex_ranges rindex_new) = [].
Proof. vm_compute. auto. Qed.

(** The parser also takes a column and a row (A:3), which Excel refuses; such a range has
    neither both rows nor both columns, and C2 does not find it. *)
Example C36_mixed_shape :
  covers (Rng 0 None (Some 2) (Some 0) None)%N 0 1 2 /\
  collect true 0 1 2 1 2 (rrun true [RAdd 7 [Rng 0 None (Some 2) (Some 0) None]]%N rindex_new) = [].
Proof.
  split; [|vm_compute; reflexivity].
  unfold covers, below, above; cbn. repeat split; intros ? E; inversion E; subst; discriminate.
Qed.

(** C72 (false of the code).  Two or more whole columns read by a formula loaded in bulk
    are filed under the first row only, so no cell below it finds the formula, while the
    same formula entered by hand is found from each of their cells. *)
Theorem C72_whole_columns_refuted : forall blocks s a b d row col,
  (a < b)%N -> (0 < row)%N ->
  ~ In d (collect blocks s row col row col
            (rrun blocks [RAdd d (bulk_ranges [Rng s None None (Some a) (Some b)])] rindex_new)).
Proof. exact bulk_columns_missed. Qed.
Print Assumptions C72_whole_columns_refuted.

Theorem C72_bulk_refuted : exists blocks r row col,
  two_sided r /\ forward r /\ covers r 0 row col /\
  collect blocks 0 row col row col (rrun blocks [RAdd 7 [r]] rindex_new) = [7%N] /\
  collect blocks 0 row col row col (rrun blocks [RAdd 7 (bulk_ranges [r])] rindex_new) = [].
Proof.
  exists false, (Rng 0 (Some 1) None (Some 0) (Some 0))%N, 9%N, 0%N.
  split; [right; split; discriminate|]. split; [split; intros x y E1 E2; cbn in E1, E2; try discriminate; injection E1 as <-; injection E2 as <-; discriminate|].
  split.
  - unfold covers, below, above; cbn. repeat split; intros ? E; inversion E; subst; discriminate.
  - split; vm_compute; reflexivity.
Qed.
Print Assumptions C72_bulk_refuted.

(** Closed ranges, one whole column and one whole row keep their bounds. *)
Theorem C72_bulk_partial : forall rs, Forall (fun r => one_line r /\ forward r) rs -> bulk_ranges rs = rs.
Proof. exact bulk_same. Qed.
Print Assumptions C72_bulk_partial.
Example C72_example :
  bulk_ranges [Rng 0 (Some 0) (Some 299) (Some 0) (Some 25); Rng 0 None None (Some 3) (Some 3)]%N
  = [Rng 0 (Some 0) (Some 299) (Some 0) (Some 25); Rng 0 None None (Some 3) (Some 3)]%N.
Proof. reflexivity. Qed.
