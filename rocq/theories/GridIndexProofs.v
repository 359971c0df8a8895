(** Ranges after structural edits. *)
From Coq Require Import ZifyN ZifyNat ZifyBool.
From Verif Require Import Base Maps ListSort IntervalModel IntervalSpec IntervalProofs IntervalProofs2 IntervalProofs3 GridIndexModel.

(** What should be found: the other dirty formulas whose current cell is in the range. *)
Definition inside (dirty : N -> bool) (self r0 r1 c0 c1 : N) (g : gsheet) (u : N) : Prop :=
  exists r c, mget N.eqb (gat g) u = Some (r, c) /\ (r0 <= r <= r1)%N /\ (c0 <= c <= c1)%N /\ dirty u = true /\ u <> self.

Definition row_op (o : gop) : Prop := match o with GInsertCols _ _ | GDeleteCols _ _ => False | _ => True end.
(** New ids are new. *)
Fixpoint fresh_ids (os : list gop) (used : list N) : Prop :=
  match os with
  | [] => True
  | GNew _ v :: os' => ~ In v used /\ fresh_ids os' (v :: used)
  | _ :: os' => fresh_ids os' used
  end.

(** The index knows the column of every live vertex. *)
Record ginv (g : gsheet) (used : list N) : Prop := GInv {
  g_index : exists f, sinv (gidx g) f /\ (forall v, f v <> None -> In v used)
            /\ (forall v p, mget N.eqb (gat g) v = Some p -> exists r, f v = Some (r, snd p));
  g_keys : NoDup (map fst (gat g));
  g_used : forall v p, In (v, p) (gat g) -> In v used }.

Lemma mget_in_iff : forall V (m : list (N * V)) k v, NoDup (map fst m) -> (mget N.eqb m k = Some v <-> In (k, v) m).
Proof.
  intros V m k v D. split; [apply mget_In, N_eqb_spec|apply mget_NoDup; auto using N_eqb_spec].
Qed.
Lemma map_keys : forall (h : N * pos -> pos) m, map fst (map (fun e => (fst e, h e)) m) = map fst m.
Proof. intros. rewrite map_map. reflexivity. Qed.

Lemma ginv_step : forall o g used, ginv g used -> row_op o -> match o with GNew _ v => ~ In v used | _ => True end ->
  ginv (gstep o g) (match o with GNew _ v => v :: used | _ => used end).
Proof.
  intros o g used [(f & I & FU & FP) K U] R Nw. destruct o as [p v|b c|b c|s c|s c]; cbn [gstep row_op] in *; try contradiction.
  - assert (Fv : f v = None) by (destruct (f v) eqn:E; auto; exfalso; apply Nw, FU; congruence).
    assert (P : place p v f = put v (Some p) f) by (unfold place; now rewrite Fv).
    split; cbn [gat gidx].
    + exists (put v (Some p) f). split; [rewrite <- P; now apply sinv_add|]. split.
      * intros w. unfold put. destruct (N.eqb_spec w v) as [->|]; cbn; auto.
      * intros w q. unfold put. destruct (N.eqb_spec w v) as [->|E].
        -- rewrite mget_put_same by apply N_eqb_spec. intros X. inversion X; subst. exists (fst q). now destruct q.
        -- rewrite mget_put_other by (auto using N_eqb_spec). apply FP.
    + apply mput_keys_NoDup; auto using N_eqb_spec.
    + intros w q [E|H]; [inversion E; subst; now left|]. apply mdel_In in H; auto using N_eqb_spec. right. eapply U. apply H.
  - split; cbn [gat gidx].
    + exists f. split; auto. split; auto. intros v p H. apply mget_In in H; auto using N_eqb_spec.
      apply in_map_iff in H. destruct H as ([w [r k]] & E & H). inversion E; subst. cbn in *. apply (FP v (r, k)).
      apply mget_in_iff; auto.
    + now rewrite (map_keys (fun e => (shift_in b c (fst (snd e)), snd (snd e)))).
    + intros v p H. apply in_map_iff in H. destruct H as ([w q] & E & H). inversion E; subst. cbn. eapply U; eauto.
  - assert (X : forall v p, In (v, p) (flat_map (fun e : N * pos => match shift_out s c (fst (snd e)) with
                                 | Some r => [(fst e, (r, snd (snd e)))]
                                 | None => [] end) (gat g)) -> exists r, In (v, (r, snd p)) (gat g)).
    { intros v p H. apply in_flat_map in H. destruct H as ([w [r k]] & H & J). cbn in J.
      destruct (shift_out s c r); [|destruct J]. destruct J as [E|[]]. inversion E; subst. cbn. eauto. }
    split; cbn [gat gidx].
    + exists f. split; auto. split; auto. intros v p H. apply mget_In in H; auto using N_eqb_spec.
      apply X in H. destruct H as (r & H). apply (FP v (r, snd p)). apply mget_in_iff; auto.
    + revert K. generalize (gat g). induction l as [|[w [r k]] l IH]; intros K; cbn; [constructor|].
      inversion K as [|x y K1 K2]; subst. destruct (shift_out s c r); cbn; auto. constructor; auto.
      intros H. apply K1. apply in_map_iff in H. destruct H as ([w' q] & E & H). cbn in E. subst w'.
      apply in_flat_map in H. destruct H as ([w2 [r2 k2]] & H & J). cbn in J. destruct (shift_out s c r2); [|destruct J].
      destruct J as [E|[]]. inversion E; subst. apply in_map_iff. exists (w, (r2, k2)). auto.
    + intros v p H. apply X in H. destruct H as (r & H). eapply U; eauto.
Qed.
Lemma ginv_run : forall os g used, ginv g used -> Forall row_op os -> fresh_ids os used -> exists used', ginv (grun os g) used'.
Proof.
  induction os as [|o os IH]; intros g used I F N; [eauto|]. inversion F as [|? ? F1 F2]; subst. cbn.
  destruct o as [p v|b c|b c|s c|s c]; cbn in N.
  - destruct N as [N1 N2]. eapply IH; [apply (ginv_step (GNew p v)); eauto|auto|exact N2].
  - eapply IH; [apply (ginv_step (GInsertRows b c)); eauto|auto|exact N].
  - contradiction.
  - eapply IH; [apply (ginv_step (GDeleteRows s c)); eauto|auto|exact N].
  - contradiction.
Qed.
Lemma ginv_empty : ginv g_empty [].
Proof.
  split; cbn.
  - exists (fun _ => None). split; [apply sinv_empty|]. split; [congruence|discriminate].
  - constructor.
  - tauto.
Qed.
Lemma rows_only_exact : forall os dirty self r0 r1 c0 c1, Forall row_op os -> fresh_ids os [] ->
  lists (virtual_deps dirty self r0 r1 c0 c1 (grun os g_empty)) (inside dirty self r0 r1 c0 c1 (grun os g_empty)).
Proof.
  intros os dirty self r0 r1 c0 c1 F N. destruct (ginv_run os _ _ ginv_empty F N) as (used & [(f & I & FU & FP) K U]).
  unfold virtual_deps. pose proof (cols_exact _ _ I c0 c1) as [D C]. split; [now apply NoDup_filter|].
  intros u. rewrite filter_In, C. unfold inside. destruct (mget N.eqb (gat (grun os g_empty)) u) as [[r c]|] eqn:G.
  - destruct (FP _ _ G) as (r' & Fu). cbn in Fu. split.
    + intros [(a & b & E & B) H]. rewrite Fu in E. inversion E; subst.
      rewrite !andb_true_iff, negb_true_iff, N.eqb_neq in H. exists r, b. intuition lia.
    + intros (a & b & E & A & B & X & Y). inversion E; subst. split; [eauto|].
      rewrite !andb_true_iff, negb_true_iff, N.eqb_neq. intuition lia.
  - split; [intros [_ H]; discriminate|]. intros (a & b & E & _). discriminate.
Qed.

(** One inserted column: the formula that moved from column 0 to column 1 is not found in
    column 1, and is reported for column 0. *)
Lemma column_lost : let g := grun [GNew (5, 0)%N 1%N; GInsertCols 0 1] g_empty in
  inside (fun _ => true) 9 0 100 1 1 g 1 /\ virtual_deps (fun _ => true) 9 0 100 1 1 g = []
  /\ virtual_deps (fun _ => true) 9 0 100 0 0 g = [1%N] /\ ~ inside (fun _ => true) 9 0 100 0 0 g 1.
Proof.
  cbn zeta. split; [|split; [|split]].
  - exists 5%N, 1%N. cbn. repeat split; (lia || discriminate).
  - reflexivity.
  - reflexivity.
  - intros (r & c & E & _ & B & _). cbn in E. inversion E; subst. lia.
Qed.
