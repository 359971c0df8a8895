(** Histories of added edges. *)
From Coq Require Import Permutation.
From Verif Require Import Base Maps ListSort SchedProofs2 LeaseProofs2 PkModel PkSpec PkProofs PkProofs2 PkProofs3.

Lemma agree_edges : forall es, agree (edges_view es).
Proof.
  intros es u v. cbn [edges_view succs preds]. induction es as [|[a b] es IH]; auto. cbn [filter fst snd].
  destruct (Nat.eqb_spec a u) as [->|Ha], (Nat.eqb_spec b v) as [->|Hb]; cbn [map fst snd count_occ];
    repeat (match goal with |- context [Nat.eq_dec ?p ?q] => destruct (Nat.eq_dec p q) end; try congruence); auto.
Qed.
Lemma edges_in : forall es u v, In v (succs (edges_view es) u) <-> In (u, v) es.
Proof.
  intros es u v. cbn. rewrite in_map_iff. split.
  - intros ([a b] & <- & H). apply filter_In in H. destruct H as [H E]. cbn in E. apply Nat.eqb_eq in E. now subst.
  - intros H. exists (u, v). split; auto. apply filter_In. cbn. now rewrite Nat.eqb_refl.
Qed.
Lemma built_nodes : forall budget es o, built budget es o -> NoDup o /\ (forall u v, In (u, v) es -> In u o /\ In v o).
Proof.
  intros budget es o H. induction H as [nodes ND|es o fuel x y o' H [ND IN] E].
  - split; [|intros u v []]. eapply Permutation_NoDup; [apply Permutation_sym, sort_nat_perm|exact ND].
  - destruct (try_ok _ _ _ _ _ _ ND (agree_edges es) o' E) as (N' & B & _ & KI). split; auto.
    intros u v Huv. apply in_app_or in Huv. destruct Huv as [Huv|[Q|[]]].
    + destruct (IN u v Huv). split; apply KI; auto.
    + injection Q as -> ->. now apply before_In.
Qed.
Lemma built_last : forall budget es x y o, built budget (es ++ [(x, y)]) o -> before o x y.
Proof.
  intros budget es x y o H. inversion H as [nodes ND E|es' o1 fuel x' y' o' H' E Q].
  - destruct es; discriminate.
  - apply app_inj_tail in Q. destruct Q as [-> Q]. injection Q as -> ->. subst.
    destruct (built_nodes _ _ _ H') as [ND _]. now destruct (try_ok _ _ _ _ _ _ ND (agree_edges es) o E).
Qed.

(** Orders reached by steps whose window is clear. *)
Inductive clear_built (budget : nat) : list (nat * nat) -> list nat -> Prop :=
| cb_new nodes : NoDup nodes -> clear_built budget [] (sort_nat nodes)
| cb_add es o fuel x y o' px py : clear_built budget es o -> In x o -> In y o -> length o <= budget ->
    place x o = Some px -> place y o = Some py ->
    (forall u v pv, leads (succs (edges_view es)) y u -> In (u, v) es -> place v o = Some pv -> ~ (px < pv <= px + (px - py))) ->
    try_add fuel (edges_view es) budget x y o = PkOk o' -> clear_built budget (es ++ [(x, y)]) o'.
Lemma clear_respects : forall budget es o, clear_built budget es o ->
  built budget es o /\ respects (succs (edges_view es)) o.
Proof.
  intros budget es o H. induction H as [nodes ND|es o fuel x y o' px py H [HB R] Hx Hy HL E1 E2 W E].
  - split; [now constructor|]. intros u v Hv. rewrite edges_in in Hv. destruct Hv.
  - split; [now apply built_add with (o := o) (fuel := fuel)|].
    destruct (built_nodes _ _ _ HB) as [ND IN].
    assert (K : respects (plus_edge (succs (edges_view es)) x y) o').
    { apply (try_keeps fuel (edges_view es) budget x y o o' px py); auto.
      - apply agree_edges.
      - intros a b Hb _. apply edges_in in Hb. now apply (IN a b).
      - intros u v pv HLu Hv. rewrite edges_in in Hv. eauto. }
    intros u v Hv Hu Hw. apply K; auto. apply edges_in in Hv. unfold plus_edge.
    apply in_app_or in Hv. destruct Hv as [Hv|[Q|[]]].
    + destruct (Nat.eqb_spec u x); [right|]; now apply edges_in.
    + injection Q as -> ->. rewrite Nat.eqb_refl. now left.
Qed.
