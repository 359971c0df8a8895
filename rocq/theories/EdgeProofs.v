(** The compressed store holds the rows it was built from. *)
From Coq Require Import Permutation.
From Verif Require Import Base Maps ListSort SchedModel EdgeModel EdgeSpec.

Lemma csort_insert_in : forall leb x l y, In y (csort_insert leb x l) <-> y = x \/ In y l.
Proof.
  induction l as [|z l IH]; intros y; cbn; [intuition congruence|].
  destruct (leb x z); cbn; [intuition congruence|]. rewrite IH. tauto.
Qed.
Lemma csort_in : forall cs mn l y, In y (csort cs mn l) <-> In y l.
Proof.
  induction l as [|x l IH]; intros y; cbn; [tauto|]. unfold csort in IH. rewrite csort_insert_in, IH. intuition congruence.
Qed.
Lemma csort_insert_perm : forall leb x l, Permutation (x :: l) (csort_insert leb x l).
Proof.
  induction l as [|z l IH]; cbn; [reflexivity|]. destruct (leb x z); [reflexivity|].
  rewrite perm_swap. now apply perm_skip.
Qed.
Lemma csort_perm : forall cs mn l, Permutation l (csort cs mn l).
Proof. induction l as [|x l IH]; cbn; [reflexivity|]. rewrite <- csort_insert_perm. now apply perm_skip. Qed.

Lemma set_nth_length : forall A (l : list A) i a, length (set_nth l i a) = length l.
Proof. induction l as [|x l IH]; intros [|i] a; cbn; auto. Qed.
Lemma set_nth_same : forall A (l : list A) i a d, i < length l -> nth i (set_nth l i a) d = a.
Proof. induction l as [|x l IH]; intros [|i] a d H; cbn in *; try lia; auto. apply IH. lia. Qed.
Lemma set_nth_other : forall A (l : list A) i j a d, i <> j -> nth j (set_nth l i a) d = nth j l d.
Proof. induction l as [|x l IH]; intros [|i] [|j] a d H; cbn; auto; try lia. Qed.

Lemma offsets_length : forall ls st, length (offsets_from st ls) = S (length ls).
Proof. induction ls as [|l ls IH]; intros; cbn; auto. Qed.
Lemma offsets_nth : forall ls st i, i <= length ls ->
  nth i (offsets_from st ls) 0 = st + length (concat (firstn i ls)).
Proof.
  induction ls as [|l ls IH]; intros st [|i] H; cbn [length] in H; try lia; try (cbn; lia).
  cbn [offsets_from nth firstn concat]. rewrite IH by lia. rewrite app_length. lia.
Qed.
Lemma concat_slice : forall (ls : list (list nat)) i, i < length ls ->
  firstn (length (nth i ls [])) (skipn (length (concat (firstn i ls))) (concat ls)) = nth i ls [].
Proof.
  induction ls as [|l ls IH]; intros [|i] H; cbn [length] in H; try lia.
  - cbn. rewrite firstn_app, Nat.sub_diag, firstn_all. apply app_nil_r.
  - cbn [firstn concat nth]. rewrite app_length, skipn_app.
    rewrite skipn_all2 by lia. replace (length l + length (concat (firstn i ls)) - length l) with (length (concat (firstn i ls))) by lia.
    apply IH. lia.
Qed.
Lemma slice_spec : forall ls mn v,
  slice (offsets_from 0 ls) (concat ls) mn v = if v <? mn then [] else nth (v - mn) ls [].
Proof.
  intros ls mn v. unfold slice. rewrite offsets_length.
  destruct (Nat.leb_spec (S (length ls)) 1).
  - destruct ls; [|cbn in H; lia]. destruct (v <? mn); auto. destruct (v - mn); reflexivity.
  - destruct (Nat.ltb_spec v mn); auto. cbn [pred]. replace (S (length ls) - 1) with (length ls) by lia.
    destruct (Nat.leb_spec (length ls) (v - mn)).
    + now rewrite nth_overflow.
    + rewrite !offsets_nth by lia. cbn [Nat.add].
      replace (length (concat (firstn (S (v - mn)) ls)) - length (concat (firstn (v - mn) ls))) with (length (nth (v - mn) ls [])).
      * apply concat_slice. lia.
      * assert (X : forall (l : list (list nat)) i, i < length l ->
                 length (concat (firstn (S i) l)) = length (concat (firstn i l)) + length (nth i l [])).
        { induction l as [|a l IH]; intros [|i] L; cbn [length] in L; try lia.
          - cbn. rewrite app_nil_r. lia.
          - change (firstn (S (S i)) (a :: l)) with (a :: firstn (S i) l). change (firstn (S i) (a :: l)) with (a :: firstn i l).
            cbn [concat nth]. rewrite !app_length, IH by lia. lia. }
        rewrite X by lia. lia.
Qed.

Lemma slots_snoc : forall mn n adj p, slots_of mn n (adj ++ [p]) = set_nth (slots_of mn n adj) (fst p - mn) (snd p).
Proof. intros. unfold slots_of. now rewrite fold_left_app. Qed.
Lemma slots_length : forall mn n adj, length (slots_of mn n adj) = n.
Proof.
  intros mn n adj. induction adj as [|p adj IH] using rev_ind; [apply repeat_length|].
  now rewrite slots_snoc, set_nth_length.
Qed.
Lemma last_row_snoc : forall adj p v, last_row (adj ++ [p]) v = if Nat.eqb v (fst p) then Some (snd p) else last_row adj v.
Proof. intros adj [w ts] v. unfold last_row. rewrite rev_app_distr. reflexivity. Qed.
Lemma slots_nth : forall mn n adj v, (forall p, In p adj -> mn <= fst p < mn + n) -> mn <= v ->
  nth (v - mn) (slots_of mn n adj) [] = match last_row adj v with Some ts => ts | None => [] end.
Proof.
  intros mn n adj v R L. induction adj as [|p adj IH] using rev_ind.
  - cbn. unfold slots_of. cbn. generalize (v - mn). clear. induction n; intros [|i]; cbn; auto.
  - rewrite slots_snoc, last_row_snoc. pose proof (R p ltac:(apply in_app_iff; right; now left)) as B.
    assert (IH' := IH ltac:(intros q Q; apply R, in_app_iff; now left)).
    destruct (Nat.eqb_spec v (fst p)) as [->|N].
    + apply set_nth_same. rewrite slots_length. lia.
    + rewrite set_nth_other by lia. apply IH'.
Qed.

Lemma push_length : forall mn n src ts r, length (fold_left (push_rev mn n src) ts r) = length r.
Proof.
  induction ts as [|t ts IH]; intros r; cbn; auto. rewrite IH. unfold push_rev.
  destruct (t - mn <? n); auto. apply set_nth_length.
Qed.
Lemma push_fold : forall mn n src ts r j s, length r = n -> j < n -> (forall t, In t ts -> mn <= t) ->
  (In s (nth j (fold_left (push_rev mn n src) ts r) []) <-> In s (nth j r []) \/ (s = src /\ In (mn + j) ts)).
Proof.
  induction ts as [|t ts IH]; intros r j s Lr Lj R; cbn [fold_left]; [cbn; tauto|].
  assert (Rt : mn <= t) by (apply R; now left).
  rewrite IH; [| unfold push_rev; destruct (t - mn <? n); auto; now rewrite set_nth_length | auto | intros; apply R; now right].
  unfold push_rev. destruct (Nat.ltb_spec (t - mn) n) as [L|L].
  - destruct (Nat.eq_dec (t - mn) j) as [E|E].
    + rewrite E, set_nth_same by lia. rewrite in_app_iff. cbn. intuition (subst; auto; try lia).
    + rewrite set_nth_other by lia. cbn. intuition (subst; auto; try lia).
  - cbn. intuition (subst; auto; try lia).
Qed.
Lemma rev_fold : forall mn n l r j s, length r = n -> j < n -> (forall i ts t, In (i, ts) l -> In t ts -> mn <= t) ->
  (In s (nth j (fold_left (fun r p => fold_left (push_rev mn n (mn + fst p)) (snd p) r) l r) [])
   <-> In s (nth j r []) \/ exists i ts, In (i, ts) l /\ s = mn + i /\ In (mn + j) ts).
Proof.
  induction l as [|[i ts] l IH]; intros r j s Lr Lj R; cbn [fold_left fst snd].
  - split; [auto|]. intros [H|(? & ? & [] & _)]; auto.
  - rewrite IH; [| now rewrite push_length | auto | intros; eapply R; [right|]; eauto].
    rewrite push_fold; [| auto | auto | intros; eapply R; [left; reflexivity|auto]].
    split.
    + intros [[H|[-> H]]|(i' & ts' & H & -> & H')]; auto; right.
      * exists i, ts. cbn. auto.
      * exists i', ts'. cbn. auto.
    + intros [H|(i' & ts' & [E|H] & -> & H')]; auto.
      * inversion E; subst. auto.
      * right. exists i', ts'. auto.
Qed.
Lemma rev_slots_length : forall mn n slots, length (rev_slots mn n slots) = n.
Proof.
  intros. unfold rev_slots. assert (X : forall l r, length r = n ->
    length (fold_left (fun r p => fold_left (push_rev mn n (mn + fst p)) (snd p) r) l r) = n).
  { induction l as [|p l IH]; intros r H; cbn; auto. apply IH. now rewrite push_length. }
  apply X, repeat_length.
Qed.
Lemma nth_repeat_nil : forall n j, nth j (repeat (@nil nat) n) [] = [].
Proof. induction n; intros [|j]; cbn; auto. Qed.
Lemma in_combine_seq : forall (slots : list (list nat)) st i ts,
  In (i, ts) (combine (seq st (length slots)) slots) <-> st <= i < st + length slots /\ nth (i - st) slots [] = ts.
Proof.
  induction slots as [|a slots IH]; intros st i ts; cbn [length seq combine In]; [split; [tauto|lia]|].
  rewrite IH. split.
  - intros [E|[L E]].
    + inversion E; subst. rewrite Nat.sub_diag. cbn. split; [lia|auto].
    + split; [lia|]. replace (i - st) with (S (i - S st)) by lia. auto.
  - intros [L E]. destruct (Nat.eq_dec i st) as [->|N].
    + left. rewrite Nat.sub_diag in E. cbn in E. congruence.
    + right. split; [lia|]. replace (i - st) with (S (i - S st)) in E by lia. auto.
Qed.
Lemma rev_slots_spec : forall mn n slots j s, length slots = n -> j < n ->
  (forall i t, In t (nth i slots []) -> mn <= t) ->
  (In s (nth j (rev_slots mn n slots) []) <-> mn <= s < mn + n /\ In (mn + j) (nth (s - mn) slots [])).
Proof.
  intros mn n slots j s Ls Lj R. unfold rev_slots. rewrite rev_fold.
  - rewrite nth_repeat_nil. cbn. rewrite <- Ls. split.
    + intros [[]|(i & ts & H & -> & H')]. apply in_combine_seq in H. destruct H as [L E]. rewrite Nat.sub_0_r in E.
      replace (mn + i - mn) with i by lia. rewrite E. split; [lia|auto].
    + intros [L H]. right. exists (s - mn), (nth (s - mn) slots []). rewrite in_combine_seq.
      rewrite Nat.sub_0_r. repeat split; auto; lia.
  - apply repeat_length.
  - auto.
  - intros i ts t H H'. rewrite <- Ls in H. apply in_combine_seq in H. destruct H as [_ E]. subst ts. eapply R; eauto.
Qed.

Lemma fold_min_le : forall l a, fold_left Nat.min l a <= a.
Proof. induction l as [|x l IH]; intros a; cbn; auto. specialize (IH (Nat.min a x)). lia. Qed.
Lemma fold_min_in : forall l a x, In x l -> fold_left Nat.min l a <= x.
Proof.
  induction l as [|y l IH]; intros a x H; [destruct H|]. cbn. destruct H as [->|H]; auto.
  pose proof (fold_min_le l (Nat.min a x)). lia.
Qed.
Lemma list_min_le : forall l x, In x l -> list_min l <= x.
Proof. intros [|a l] x H; [destruct H|]. cbn in *. destruct H as [->|H]; [apply fold_min_le|now apply fold_min_in]. Qed.
Lemma list_max_ge : forall l x, In x l -> x <= list_max l.
Proof. intros l x H. pose proof (proj1 (list_max_le l (list_max l)) (le_n _)) as F. rewrite Forall_forall in F. auto. Qed.

Lemma last_row_in : forall adj v ts, last_row adj v = Some ts -> In (v, ts) adj.
Proof. intros adj v ts H. apply in_rev. eapply mget_In; eauto. intros; apply Nat.eqb_eq. Qed.

Section Built.
  Variable adj : list (nat * list nat).
  Variable cs : list addr.
  Hypothesis NE : adj <> [].
  Let mn := list_min (all_ids adj).
  Let mx := list_max (all_ids adj).
  Let n := mx - mn + 1.

  Lemma ids_range : forall x, In x (all_ids adj) -> mn <= x < mn + n.
  Proof.
    intros x H. pose proof (list_min_le _ _ H). pose proof (list_max_ge _ _ H). unfold n, mn, mx in *. lia.
  Qed.
  Lemma row_range : forall p, In p adj -> mn <= fst p < mn + n.
  Proof. intros p H. apply ids_range. unfold all_ids. apply in_flat_map. exists p. split; auto. now left. Qed.
  Lemma target_range : forall v ts t, last_row adj v = Some ts -> In t ts -> mn <= t < mn + n.
  Proof.
    intros v ts t H H'. apply last_row_in in H. apply ids_range. unfold all_ids. apply in_flat_map.
    exists (v, ts). split; auto. now right.
  Qed.
  Lemma from_adjacency_eq : from_adjacency adj cs =
    Csr (offsets_from 0 (map (csort cs mn) (slots_of mn n adj))) (concat (map (csort cs mn) (slots_of mn n adj)))
        (offsets_from 0 (map (csort cs mn) (rev_slots mn n (slots_of mn n adj))))
        (concat (map (csort cs mn) (rev_slots mn n (slots_of mn n adj)))) mn.
  Proof. unfold from_adjacency. destruct adj; [congruence|reflexivity]. Qed.
  Lemma nth_map_csort : forall l i, nth i (map (csort cs mn) l) [] = csort cs mn (nth i l []).
  Proof. intros. now rewrite <- (map_nth (csort cs mn)). Qed.

  Lemma built_out_eq : forall f, csr_out (from_adjacency adj cs) f
    = if f <? mn then [] else csort cs mn (match last_row adj f with Some ts => ts | None => [] end).
  Proof.
    intros f. rewrite from_adjacency_eq. unfold csr_out. cbn [offs eds minv]. rewrite slice_spec.
    destruct (Nat.ltb_spec f mn); auto. rewrite nth_map_csort, slots_nth; auto. apply row_range.
  Qed.
  Lemma built_out : forall f t, In t (csr_out (from_adjacency adj cs) f) <-> exists ts, last_row adj f = Some ts /\ In t ts.
  Proof.
    intros f t. rewrite built_out_eq. destruct (Nat.ltb_spec f mn) as [L|L].
    - split; [intros []|]. intros (ts & H & _). apply last_row_in in H. apply row_range in H. cbn in H. lia.
    - rewrite csort_in. destruct (last_row adj f) as [ts|]; [|split; [intros []|intros (? & ? & _); discriminate]].
      split; [eauto|]. intros (ts' & E & H). congruence.
  Qed.
  Lemma built_in : forall f t, In f (csr_in (from_adjacency adj cs) t) <-> In t (csr_out (from_adjacency adj cs) f).
  Proof.
    intros f t. rewrite built_out. rewrite from_adjacency_eq. unfold csr_in. cbn [roffs reds minv]. rewrite slice_spec.
    assert (SL : forall v, mn <= v -> nth (v - mn) (slots_of mn n adj) [] = match last_row adj v with Some ts => ts | None => [] end)
      by (intros; apply slots_nth; auto; apply row_range).
    destruct (Nat.ltb_spec t mn) as [L|L].
    - split; [intros []|]. intros (ts & H & H'). pose proof (target_range _ _ _ H H'). lia.
    - rewrite nth_map_csort, csort_in. destruct (Nat.lt_ge_cases (t - mn) n) as [B|B].
      + rewrite rev_slots_spec; [| apply slots_length | auto |].
        * replace (mn + (t - mn)) with t by lia. split.
          -- intros [X H]. rewrite SL in H by lia. destruct (last_row adj f); [eauto|destruct H].
          -- intros (ts & H & H'). pose proof (last_row_in _ _ _ H) as I. apply row_range in I. cbn in I.
             split; auto. rewrite SL by lia. now rewrite H.
        * intros i t' H. specialize (SL (mn + i) ltac:(lia)). replace (mn + i - mn) with i in SL by lia.
          rewrite SL in H. destruct (last_row adj (mn + i)) eqn:E; [|destruct H].
          apply (target_range _ _ _ E H).
      + rewrite nth_overflow by (rewrite rev_slots_length; auto). split; [intros []|].
        intros (ts & H & H'). pose proof (target_range _ _ _ H H'). lia.
  Qed.
End Built.

(** The same for every list of rows. *)
Lemma from_out : forall adj cs f t, In t (csr_out (from_adjacency adj cs) f) <-> exists ts, last_row adj f = Some ts /\ In t ts.
Proof.
  intros [|p adj] cs f t; [|apply built_out; discriminate].
  cbn. split; [intros []|intros (? & ? & _); discriminate].
Qed.
Lemma from_in : forall adj cs f t, In f (csr_in (from_adjacency adj cs) t) <-> In t (csr_out (from_adjacency adj cs) f).
Proof. intros [|p adj] cs f t; [cbn; tauto|apply built_in; discriminate]. Qed.
Lemma from_nodup : forall adj cs f, (forall p, In p adj -> NoDup (snd p)) -> NoDup (csr_out (from_adjacency adj cs) f).
Proof.
  intros [|p adj] cs f H; [constructor|]. rewrite built_out_eq by discriminate.
  destruct (f <? _); [constructor|]. eapply Permutation_NoDup; [apply csort_perm|].
  destruct (last_row (p :: adj) f) as [ts|] eqn:E; [|constructor]. apply last_row_in in E. apply (H _ E).
Qed.
