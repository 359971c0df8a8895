(* More about overlays (C92): runs given in parts are joined without changing a cell. *)
From Coq Require Import List Bool NArith Lia.
From Verif Require Import Base Maps OvModel.
Import ListNotations.
Open Scope N_scope.

(* The values of runs, cell by cell; a run is its end and its value. *)
Fixpoint unroll (prev : N) (parts : list (N * ov)) : list ov :=
  match parts with
  | [] => []
  | (e, v) :: r => repeat v (N.to_nat (e - prev)) ++ unroll e r
  end.
Definition top (acc : list (N * ov)) : N := match acc with (e, _) :: _ => e | [] => 0 end.
Fixpoint falling (acc : list (N * ov)) : Prop :=
  match acc with [] => True | (e, _) :: r => top r < e /\ falling r end.
Definition same_cell (a b : ov) : Prop := a = b \/ ov_eqb a b = true.

Lemma unroll_snoc : forall l p e v, unroll p (l ++ [(e, v)]) = unroll p l ++ repeat v (N.to_nat (e - last (map fst l) p)).
Proof.
  induction l as [|[d w] l IH]; intros p e v; cbn [app unroll map].
  - cbn. now rewrite app_nil_r.
  - rewrite IH, <- app_assoc. do 3 f_equal. destruct l as [|q l]; [reflexivity|].
    assert (Q : forall (m : list N) x a b, last (x :: m) a = last (x :: m) b).
    { induction m as [|y m IHm]; intros x a b; [reflexivity|]. exact (IHm y a b). }
    cbn [map fst]. change (last (d :: fst q :: map fst l) p) with (last (fst q :: map fst l) p). now rewrite (Q (map fst l) (fst q) d p).
Qed.
Lemma last_rev_top : forall acc, last (map fst (rev acc)) 0 = top acc.
Proof. intros [|[e v] r]; [reflexivity|]. cbn [rev]. rewrite map_app. cbn. now rewrite last_last. Qed.
Lemma unroll_rev : forall acc e v, unroll 0 (rev ((e, v) :: acc)) = unroll 0 (rev acc) ++ repeat v (N.to_nat (e - top acc)).
Proof. intros acc e v. cbn [rev]. now rewrite unroll_snoc, last_rev_top. Qed.
Lemma same_refl : forall l, Forall2 same_cell l l.
Proof. induction l; constructor; auto. now left. Qed.
Lemma same_repeat : forall a b n, same_cell a b -> Forall2 same_cell (repeat a n) (repeat b n).
Proof. induction n; cbn; constructor; auto. Qed.

Lemma merge_unroll : forall len parts prev acc p E V, prev = top acc -> falling acc ->
  merge_runs len prev parts (map fst acc) (map snd acc) = Some (p, E, V) ->
  exists out t, E = map fst out /\ V = map snd out /\ falling (rev out) /\ p = top (rev out) /\
    unroll 0 out = unroll 0 (rev acc) ++ t /\ Forall2 same_cell t (unroll prev parts).
Proof.
  intros len parts. induction parts as [|[e v] parts IH]; intros prev acc p E V P F M; cbn [merge_runs] in M.
  - injection M as <- <- <-. exists (rev acc), []. rewrite !map_rev, rev_involutive. cbn [unroll]. rewrite app_nil_r.
    repeat split; auto.
  - destruct ((e <=? prev) || (len <? e)) eqn:B; [discriminate|]. apply orb_false_iff in B as [B _]. apply N.leb_gt in B.
    assert (NEW : merge_runs len e parts (e :: map fst acc) (v :: map snd acc) = Some (p, E, V) ->
      exists out t, E = map fst out /\ V = map snd out /\ falling (rev out) /\ p = top (rev out) /\
        unroll 0 out = unroll 0 (rev acc) ++ t /\ Forall2 same_cell t (unroll prev ((e, v) :: parts))).
    { intros Q. destruct (IH e ((e, v) :: acc) p E V eq_refl) as (out & t & H1 & H2 & H3 & H4 & H5 & H6);
        [cbn; subst; auto|exact Q|].
      exists out, (repeat v (N.to_nat (e - top acc)) ++ t). rewrite unroll_rev, <- app_assoc in H5. subst prev.
      repeat split; auto. cbn [unroll]. apply Forall2_app; [apply same_refl|exact H6]. }
    destruct acc as [|[e0 v0] r]; cbn [map fst snd] in M; [exact (NEW M)|].
    destruct (ov_eqb v0 v) eqn:Q; [|exact (NEW M)].
    cbn [top] in P. subst prev. cbn [falling] in F. destruct F as [F1 F2].
    destruct (IH e ((e, v0) :: r) p E V eq_refl) as (out & t & H1 & H2 & H3 & H4 & H5 & H6); [cbn; split; [lia|auto]|exact M|].
    exists out, (repeat v0 (N.to_nat (e - e0)) ++ t). rewrite unroll_rev in H5 |- *.
    replace (N.to_nat (e - top r)) with (N.to_nat (e0 - top r) + N.to_nat (e - e0))%nat in H5 by lia.
    rewrite repeat_app in H5. repeat split; auto.
    + rewrite H5, <- !app_assoc. reflexivity.
    + cbn [unroll]. apply Forall2_app; [apply same_repeat; now right|exact H6].
Qed.

(** Runs given by their ends and values become one fragment with the same cells (up to the
    equality by which the code joins neighbours), starting where asked and as long as asked;
    its ends rise and it has as many values as ends. *)
Theorem C92_joined_runs : forall start len ends vals f, run_range_from_parts start len ends vals = Some f ->
  exists runs, f = Run start len (map fst runs) (from_values (map snd runs)) /\
    falling (rev runs) /\ top (rev runs) = len /\
    length ends = length vals /\ Forall2 same_cell (unroll 0 runs) (unroll 0 (combine ends vals)).
Proof.
  intros start len ends vals f H. unfold run_range_from_parts in H.
  destruct ((len =? 0) || (lenN ends =? 0) || negb (lenN ends =? lenN vals)) eqn:G; [discriminate|].
  apply orb_false_iff in G as [_ G]. apply negb_false_iff, N.eqb_eq in G. unfold lenN in G. apply Nnat.Nat2N.inj in G.
  destruct (merge_runs len 0 (combine ends vals) [] []) as [[[p E] V]|] eqn:M; [|discriminate].
  destruct (negb (p =? len) || negb (last E 0 =? len)) eqn:B; [discriminate|]. injection H as <-.
  apply orb_false_iff in B as [B _]. apply negb_false_iff, N.eqb_eq in B.
  destruct (merge_unroll len (combine ends vals) 0 [] p E V eq_refl I M) as (out & t & -> & -> & H3 & H4 & H5 & H6).
  exists out. cbn [rev unroll app] in H5. subst t. repeat split; auto. congruence.
Qed.
Print Assumptions C92_joined_runs.
Example C92_joined_runs_example :
  run_range_from_parts 7 5 [1; 3; 5] [OvBoolean true; OvBoolean true; OvEmpty]
    = Some (Run 7 5 [3; 5] (from_values [OvBoolean true; OvEmpty])) /\
  run_range_from_parts 7 5 [1; 3] [OvBoolean true; OvEmpty] = None.
Proof. split; reflexivity. Qed.
