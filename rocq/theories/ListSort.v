(** Insertion sort on natural numbers, standing for slice::sort / sort_unstable on
    integer keys (equal keys are indistinguishable), and facts on lists.  No project code. *)
From Coq Require Import Permutation Sorted.
From Verif Require Import Base.

Fixpoint insert_by {A} (key : A -> nat) (x : A) (l : list A) : list A :=
  match l with
  | [] => [x]
  | y :: l' => if key x <=? key y then x :: l else y :: insert_by key x l'
  end.
(** A stable sort by a key (slice::sort_by_key). *)
Definition sort_by {A} (key : A -> nat) (l : list A) : list A := fold_right (insert_by key) [] l.
Definition sort_nat : list nat -> list nat := sort_by (fun x => x).

Lemma insert_by_perm : forall A (key : A -> nat) x l, Permutation (insert_by key x l) (x :: l).
Proof.
  intros A key x. induction l as [|y l IH]; cbn; auto. destruct (key x <=? key y); auto.
  rewrite IH. constructor.
Qed.
Lemma sort_by_perm : forall A (key : A -> nat) l, Permutation (sort_by key l) l.
Proof. intros A key. induction l as [|x l IH]; cbn; auto. rewrite insert_by_perm. now constructor. Qed.
Lemma insert_by_sorted : forall A (key : A -> nat) x l,
  StronglySorted (fun a b => key a <= key b) l -> StronglySorted (fun a b => key a <= key b) (insert_by key x l).
Proof.
  intros A key x l H. induction H as [|y l H IH F]; cbn; [repeat constructor|].
  destruct (Nat.leb_spec (key x) (key y)).
  - constructor; [constructor; auto|]. constructor; auto. eapply Forall_impl; [|exact F]. cbn. intros; lia.
  - constructor; auto. rewrite Forall_forall in *. intros z Hz.
    apply (Permutation_in _ (insert_by_perm A key x l)) in Hz. destruct Hz as [<-|Hz]; [lia|auto].
Qed.
Lemma sort_by_sorted : forall A (key : A -> nat) l, StronglySorted (fun a b => key a <= key b) (sort_by key l).
Proof. intros A key. induction l as [|x l IH]; cbn; [constructor|]. now apply insert_by_sorted. Qed.
Lemma sort_by_in : forall A (key : A -> nat) l x, In x (sort_by key l) <-> In x l.
Proof.
  intros. split; intros H; [eapply Permutation_in; [apply sort_by_perm|exact H]|
    eapply Permutation_in; [apply Permutation_sym, sort_by_perm|exact H]].
Qed.
Lemma sort_nat_perm : forall l, Permutation (sort_nat l) l.
Proof. intros. apply sort_by_perm. Qed.
Lemma sort_nat_in : forall l x, In x (sort_nat l) <-> In x l.
Proof. intros. apply sort_by_in. Qed.

Definition memb (x : nat) (l : list nat) : bool := existsb (Nat.eqb x) l.
Lemma memb_spec : forall x l, memb x l = true <-> In x l.
Proof.
  intros x l. unfold memb. rewrite existsb_exists. split.
  - intros (y & H & E). apply Nat.eqb_eq in E. now subst.
  - intros H. exists x. split; auto. apply Nat.eqb_refl.
Qed.
Lemma memb_false : forall x l, memb x l = false <-> ~ In x l.
Proof. intros. rewrite <- memb_spec. destruct (memb x l); split; intros; try discriminate; auto. exfalso; auto. Qed.

Lemma in_dec_nat : forall (x : nat) l, {In x l} + {~ In x l}.
Proof. intros. apply in_dec, Nat.eq_dec. Qed.

Lemma NoDup_app_iff : forall A (l m : list A), NoDup (l ++ m) <-> NoDup l /\ NoDup m /\ (forall x, In x l -> ~ In x m).
Proof.
  intros A l m. induction l as [|a l IH]; cbn.
  - split; [intros H; split; [constructor|split; auto]|tauto].
  - rewrite !NoDup_cons_iff, in_app_iff, IH. split.
    + intros (H1 & H2 & H3 & H4). split; [tauto|]. split; auto. intros x [<-|Hx]; auto.
    + intros ((H1 & H2) & H3 & H4). split; [|split; auto]. intros [H|H]; auto. apply (H4 a); auto.
Qed.
