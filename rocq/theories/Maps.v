(** Finite maps as association lists, standing for [HashMap]/[FxHashMap] where
    iteration order is not observed.  No project code here. *)
From Verif Require Import Base.

Section Map.
  Context {K V : Type}.
  Variable eqb : K -> K -> bool.

  Fixpoint mget (m : list (K * V)) (k : K) : option V :=
    match m with
    | [] => None
    | (k', v) :: r => if eqb k k' then Some v else mget r k
    end.
  Definition mdel (m : list (K * V)) (k : K) : list (K * V) := filter (fun p => negb (eqb k (fst p))) m.
  Definition mput (m : list (K * V)) (k : K) (v : V) : list (K * V) := (k, v) :: mdel m k.

  Hypothesis eqb_spec : forall a b, eqb a b = true <-> a = b.

  Lemma eqb_rfl : forall a, eqb a a = true.
  Proof. intros a. now apply eqb_spec. Qed.
  Lemma eqb_ne : forall a b, a <> b -> eqb a b = false.
  Proof. intros a b H. destruct (eqb a b) eqn:E; auto. apply eqb_spec in E. contradiction. Qed.

  Lemma mget_del_same : forall m k, mget (mdel m k) k = None.
  Proof.
    unfold mdel. induction m as [|[k' v] m IH]; intros k; cbn; auto.
    destruct (eqb k k') eqn:E; cbn; auto. now rewrite E.
  Qed.
  Lemma mget_del_other : forall m k j, k <> j -> mget (mdel m k) j = mget m j.
  Proof.
    unfold mdel. induction m as [|[k' v] m IH]; intros k j H; cbn; auto.
    destruct (eqb k k') eqn:E; cbn.
    - apply eqb_spec in E. subst k'. rewrite IH by auto. now rewrite (eqb_ne j k) by auto.
    - now rewrite IH.
  Qed.
  Lemma mget_put_same : forall m k v, mget (mput m k v) k = Some v.
  Proof. intros m k v. cbn. now rewrite eqb_rfl. Qed.
  Lemma mget_put_other : forall m k v j, k <> j -> mget (mput m k v) j = mget m j.
  Proof. intros m k v j H. cbn. rewrite (eqb_ne j k) by auto. now apply mget_del_other. Qed.
  Lemma mget_In : forall m k v, mget m k = Some v -> In (k, v) m.
  Proof.
    induction m as [|[k' w] m IH]; cbn; intros k v H; [discriminate|].
    destruct (eqb k k') eqn:E; [apply eqb_spec in E; left; congruence|right; auto].
  Qed.
  Lemma mget_None_In : forall m k v, mget m k = None -> ~ In (k, v) m.
  Proof.
    induction m as [|[k' w] m IH]; cbn; intros k v H I; auto.
    destruct (eqb k k') eqn:E; [discriminate|]. destruct I as [X|X].
    - inversion X; subst. now rewrite eqb_rfl in E.
    - eapply IH; eauto.
  Qed.
  Lemma mdel_In : forall m k p, In p (mdel m k) <-> In p m /\ fst p <> k.
  Proof.
    intros m k p. unfold mdel. rewrite filter_In, negb_true_iff. split; intros [A B]; split; auto.
    - intros X. subst. now rewrite eqb_rfl in B.
    - apply eqb_ne. auto.
  Qed.
  Lemma mput_keys_NoDup : forall m k v, NoDup (map fst m) -> NoDup (map fst (mput m k v)).
  Proof.
    intros m k v H. cbn. constructor.
    - intros I. apply in_map_iff in I. destruct I as (p & E & I). apply mdel_In in I. tauto.
    - unfold mdel. induction m as [|p m IH]; cbn; [constructor|]. inversion H; subst.
      destruct (negb (eqb k (fst p))); cbn; auto. constructor; auto.
      intros I. apply in_map_iff in I. destruct I as (q & E & I). apply filter_In in I.
      apply H2. rewrite <- E. apply in_map. tauto.
  Qed.
  Lemma mget_NoDup : forall m k v, NoDup (map fst m) -> In (k, v) m -> mget m k = Some v.
  Proof.
    induction m as [|[k' w] m IH]; cbn; intros k v N I; [contradiction|]. inversion N; subst.
    destruct I as [X|X].
    - inversion X; subst. now rewrite eqb_rfl.
    - destruct (eqb k k') eqn:E; auto. apply eqb_spec in E. subst. exfalso. apply H1.
      change k' with (fst (k', v)). now apply in_map.
  Qed.
End Map.

(** Text as code points. *)
Definition text := list N.
Fixpoint text_eqb (a b : text) : bool :=
  match a, b with
  | [], [] => true
  | x :: a, y :: b => N.eqb x y && text_eqb a b
  | _, _ => false
  end.
Lemma text_eqb_spec : forall a b, text_eqb a b = true <-> a = b.
Proof.
  induction a as [|x a IH]; intros [|y b]; cbn; try (split; [discriminate|intros X; discriminate X]).
  - tauto.
  - rewrite andb_true_iff, IH, N.eqb_eq. split; [intros [-> ->]; auto|intros X; inversion X; auto].
Qed.
Lemma text_eq_dec : forall a b : text, {a = b} + {a <> b}.
Proof.
  intros a b. destruct (text_eqb a b) eqn:E; [left; now apply text_eqb_spec|right].
  intros X. apply text_eqb_spec in X. congruence.
Qed.

(** [Vec] element replacement. *)
Fixpoint upd {A} (l : list A) (i : nat) (a : A) : list A :=
  match l, i with
  | [], _ => []
  | _ :: r, O => a :: r
  | x :: r, S i => x :: upd r i a
  end.
Lemma upd_length : forall A (l : list A) i a, length (upd l i a) = length l.
Proof. intros A. induction l as [|x l IH]; intros [|i] a; cbn; auto. Qed.
Lemma nth_error_upd : forall A (l : list A) i j a,
  nth_error (upd l i a) j =
  if Nat.eqb i j then (if Nat.ltb i (length l) then Some a else None) else nth_error l j.
Proof.
  intros A. induction l as [|x l IH]; intros [|i] [|j] a; cbn; auto.
  - destruct (Nat.eqb i j); reflexivity.
  - rewrite IH. destruct (Nat.eqb i j) eqn:E; auto.
Qed.
