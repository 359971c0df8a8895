(** The condensation walk and whole schedules. *)
From Coq Require Import Permutation Sorted.
From Verif Require Import Base GraphSpec SchedSpec TarjanModel ListSort LiveGraphProofs SchedModel SchedProofs SchedProofs2 SchedProofs3.

Definition um (cycs lays : list (list nat)) (u : sunit) : list nat :=
  match u with ULayer i => nth i lays [] | UCycle i => nth i cycs [] end.

Section Cond.
Variable cycs : list (list nat).
Variable singles : list nat.
Hypothesis ND : NoDup (concat cycs ++ singles).
Notation lc := (length cycs).
Notation N := (length cycs + length singles).
Definition nmem (n : nat) : list nat := if n <? length cycs then nth n cycs [] else [nth (n - length cycs) singles 0].

Lemma cyc_node_some : forall cs v i n, cyc_node v i cs = Some n -> i <= n < i + length cs /\ In v (nth (n - i) cs []).
Proof.
  induction cs as [|c cs IH]; intros v i n H; cbn [cyc_node] in H; [discriminate|].
  destruct (cyc_node v (S i) cs) as [k|] eqn:Ek.
  - injection H as ->. destruct (IH v (S i) n Ek) as [A B]. cbn [length]. split; [lia|].
    replace (n - i) with (S (n - S i)) by lia. exact B.
  - destruct (memb v c) eqn:M; [|discriminate]. injection H as <-. cbn [length]. split; [lia|].
    replace (i - i) with 0 by lia. now apply memb_spec.
Qed.
Lemma cyc_node_in : forall cs v i, In v (concat cs) -> exists n, cyc_node v i cs = Some n.
Proof.
  induction cs as [|c cs IH]; intros v i H; cbn in *; [destruct H|]. destruct (cyc_node v (S i) cs) eqn:Ek; [eauto|].
  apply in_app_iff in H. destruct H as [H|H].
  - apply memb_spec in H. rewrite H. eauto.
  - destruct (IH v (S i) H) as (n & En). congruence.
Qed.
Lemma cyc_class_unique : forall i j x, i < lc -> j < lc -> In x (nth i cycs []) -> In x (nth j cycs []) -> i = j.
Proof.
  apply NoDup_app_iff in ND. destruct ND as (N1 & _ & _). clear ND.
  induction cycs as [|c cs IH]; intros i j x Hi Hj Ix Jx; cbn in *; [lia|].
  apply NoDup_app_iff in N1. destruct N1 as (A & B & C).
  assert (G : forall k, k < length cs -> In x (nth k cs []) -> In x (concat cs)).
  { intros k Hk I. apply in_concat. exists (nth k cs []). split; auto. now apply nth_In. }
  destruct i as [|i], j as [|j]; auto.
  - exfalso. apply (C x Ix). apply (G j); auto. lia.
  - exfalso. apply (C x Jx). apply (G i); auto. lia.
  - f_equal. eapply IH; eauto; lia.
Qed.

Lemma nmem_all : forall x, In x (concat cycs ++ singles) <-> exists n, n < N /\ In x (nmem n).
Proof.
  intros x. rewrite in_app_iff. unfold nmem. split.
  - intros [H|H].
    + apply in_concat in H. destruct H as (C & IC & Ix). apply (In_nth _ _ []) in IC. destruct IC as (n & Hn & <-).
      exists n.  replace (n <? lc) with true by (symmetry; apply Nat.ltb_lt; lia). split; [lia|auto].
    + apply (In_nth _ _ 0) in H. destruct H as (j & Hj & <-). exists (lc + j).
      replace (lc + j <? lc) with false by (symmetry; apply Nat.ltb_ge; lia). split; [lia|]. left. f_equal. lia.
  - intros (n & Hn & Ix). destruct (Nat.ltb_spec n lc).
    + left. apply in_concat. exists (nth n cycs []). split; auto. apply nth_In. exact H.
    + right. destruct Ix as [<-|[]]. apply nth_In. lia.
Qed.
Lemma nmem_unique : forall n m x, n < N -> m < N -> In x (nmem n) -> In x (nmem m) -> n = m.
Proof.
  assert (ND' := ND). apply NoDup_app_iff in ND'. destruct ND' as (N1 & N2 & N3).
  intros n m x Hn Hm In_ Im. unfold nmem in *.  destruct (Nat.ltb_spec n lc), (Nat.ltb_spec m lc).
  - eapply cyc_class_unique; eauto.
  - exfalso. destruct Im as [Im|[]]. apply (N3 x).
    + apply in_concat. exists (nth n cycs []). split; auto. now apply nth_In.
    + rewrite <- Im. apply nth_In. lia.
  - exfalso. destruct In_ as [Im'|[]]. apply (N3 x).
    + apply in_concat. exists (nth m cycs []). split; auto. now apply nth_In.
    + rewrite <- Im'. apply nth_In. lia.
  - destruct In_ as [A|[]], Im as [B|[]]. rewrite <- B in A. apply nth_inj in A; auto; lia.
Qed.
Lemma node_of_spec : forall v n, node_of cycs singles v = Some n <-> n < N /\ In v (nmem n).
Proof.
  assert (G : forall v n, node_of cycs singles v = Some n -> n < N /\ In v (nmem n)).
  { intros v n. unfold node_of, nmem. destruct (local_of singles v) as [j|] eqn:Ej.
    - intros [= <-]. apply local_of_some in Ej. destruct Ej as [Hj <-].
      replace (lc + j <? lc) with false by (symmetry; apply Nat.ltb_ge; lia). split; [lia|]. left. f_equal. lia.
    - intros H. apply cyc_node_some in H. destruct H as [H I].  rewrite Nat.sub_0_r in I.
      replace (n <? lc) with true by (symmetry; apply Nat.ltb_lt; lia). split; [lia|auto]. }
  intros v n. split; [apply G|]. intros [Hn I].
  assert (exists m, node_of cycs singles v = Some m) as (m & Em).
  { assert (H : In v (concat cycs ++ singles)) by (apply nmem_all; eauto). apply in_app_iff in H. unfold node_of.
    destruct (local_of singles v) eqn:Ej; [eauto|]. destruct H as [H|H].
    - destruct (cyc_node_in cycs v 0 H) as (k & ->). eauto.
    - destruct (local_of_in _ _ H) as (k & Ek). congruence. }
  rewrite Em. f_equal. destruct (G _ _ Em). eapply nmem_unique; eauto.
Qed.

(** Units of the waves. *)
Definition wave_rel (lays : list (list nat)) (w : list nat) (us : list sunit) : Prop :=
  Permutation (concat (map (um cycs lays) us)) (concat (map nmem w)) /\
  forall u, In u us ->
    (exists n, u = UCycle n /\ In n w /\ n < lc) \/
    (exists k, u = ULayer k /\ k < length lays /\ forall x, In x (nth k lays []) -> exists n, In n w /\ lc <= n /\ x = nth (n - lc) singles 0).

Lemma filter_split_perm : forall (p q : nat -> bool) l, (forall x, q x = negb (p x)) -> Permutation (filter p l ++ filter q l) l.
Proof.
  intros p q l H. induction l as [|a l IH]; auto. cbn. rewrite (H a). destruct (p a); cbn.
  - now constructor.
  - rewrite <- Permutation_middle. now constructor.
Qed.
Lemma concat_map_perm : forall A (f : A -> list nat) l m, Permutation l m -> Permutation (concat (map f l)) (concat (map f m)).
Proof. intros. rewrite <- !flat_map_concat_map. now apply Permutation_flat_map. Qed.

Lemma wave_units_rel : forall w nl lpre lpost, length lpre = nl ->
  wave_rel (lpre ++ snd (wave_units cycs singles nl w) ++ lpost) w (fst (wave_units cycs singles nl w)).
Proof.
  intros w nl lpre lpost Hl. unfold wave_units.
  set (wc := sort_by (fun n => list_min (nth n cycs [])) (filter (fun n => n <? length cycs) w)).
  set (wv := map (fun n => nth (n - length cycs) singles 0) (filter (fun n => length cycs <=? n) w)).
  assert (Pw : Permutation (concat (map nmem w)) (concat (map (fun n => nth n cycs []) wc) ++ wv)).
  { rewrite <- (concat_map_perm _ nmem _ _ (filter_split_perm (fun n => n <? length cycs) (fun n => length cycs <=? n) w
      ltac:(intros x; now rewrite Nat.leb_antisym))).
    rewrite map_app, concat_app. apply Permutation_app.
    - unfold wc. rewrite (concat_map_perm _ (fun n => nth n cycs []) _ _ (sort_by_perm _ _ _)).
      rewrite (map_ext_in nmem (fun n => nth n cycs [])); auto. intros n Hn. apply filter_In in Hn. unfold nmem.
      destruct Hn as [_ ->]. reflexivity.
    - unfold wv. rewrite (map_ext_in nmem (fun n => [nth (n - length cycs) singles 0])).
      + clear. induction (filter (fun n => length cycs <=? n) w); cbn; auto.
      + intros n Hn. apply filter_In in Hn. unfold nmem. destruct Hn as [_ Hn]. apply Nat.leb_le in Hn.
        replace (n <? length cycs) with false by (symmetry; apply Nat.ltb_ge; lia). reflexivity. }
  assert (Hwc : forall lays, map (um cycs lays) (map UCycle wc) = map (fun n => nth n cycs []) wc).
  { intros. rewrite map_map. reflexivity. }
  assert (Cu : forall u, In u (map UCycle wc) -> exists n, u = UCycle n /\ In n w /\ n < lc).
  { intros u Hu. apply in_map_iff in Hu. destruct Hu as (n & <- & Hn). exists n. unfold wc in Hn. rewrite sort_by_in, filter_In, Nat.ltb_lt in Hn. tauto. }
  assert (Vu : forall x, In x wv -> exists n, In n w /\ lc <= n /\ x = nth (n - lc) singles 0).
  { intros x Hx. unfold wv in Hx. apply in_map_iff in Hx. destruct Hx as (n & <- & Hn). apply filter_In in Hn. rewrite Nat.leb_le in Hn.
    exists n. tauto. }
  destruct wv as [|v0 vr] eqn:Ev; cbn [fst snd].
  - split.
    + rewrite Hwc. rewrite Pw, app_nil_r. reflexivity.
    + intros u Hu. left. auto.
  - assert (Hn : nth nl (lpre ++ [sort_nat (v0 :: vr)] ++ lpost) [] = sort_nat (v0 :: vr)).
    { rewrite app_nth2 by lia. rewrite Hl, Nat.sub_diag. reflexivity. }
    split.
    + rewrite map_app, Hwc, concat_app, Pw. cbn [map concat um]. rewrite Hn. rewrite app_nil_r.
      apply Permutation_app_head. apply sort_nat_perm.
    + intros u Hu. apply in_app_iff in Hu. destruct Hu as [Hu|[<-|[]]]; auto. right. exists nl. split; auto. split.
      * rewrite !app_length. cbn [length]. lia.
      * intros x Hx. rewrite Hn, sort_nat_in in Hx. auto.
Qed.

Lemma all_units_rel : forall ws nl lpre lpost, length lpre = nl ->
  exists uss, fst (all_units cycs singles nl ws) = concat uss /\
    Forall2 (wave_rel (lpre ++ snd (all_units cycs singles nl ws) ++ lpost)) ws uss.
Proof.
  induction ws as [|w ws IH]; intros nl lpre lpost Hl; cbn [all_units].
  - exists []. split; auto.
  - pose proof (wave_units_rel w nl lpre) as Hw. destruct (wave_units cycs singles nl w) as [us ls] eqn:E1. cbn [fst snd] in Hw.
    destruct (IH (nl + length ls) (lpre ++ ls) lpost) as (uss & Eu & F). { rewrite app_length. lia. }
    destruct (all_units cycs singles (nl + length ls) ws) as [us' ls'] eqn:E2. cbn [fst snd] in *.
    exists (us :: uss). split; [cbn; now rewrite Eu|]. constructor.
    + specialize (Hw (ls' ++ lpost) Hl). now rewrite <- app_assoc.
    + now rewrite <- !app_assoc in *.
Qed.
End Cond.
