(** What the lease protocol promises its clients, over whole histories. *)
From Verif Require Import Base LeaseModel.

(** The operation records notice [e]. *)
Definition records (o : op) (e : event) : Prop :=
  match o, e with
  | ORegion r, Region r' => r = r'
  | OSpanRegion s r, SpanRegion s' r' => s = s' /\ r = r'
  | OSpans l, WholeSpan s => In s l
  | _, _ => False
  end.

(** In world [w], operation [o] acknowledges lease number [h], successfully, for the
    positions in [owned]. *)
Definition acknowledges (w : world) (o : op) (h : nat) (l : lease) (owned : list nat) : Prop :=
  nth_error (snd w) h = Some l /\
  match o with
  | OAck h' => h' = h /\ snd (do_ack l (fst w)) = true /\ owned = seq 0 (length (l_events l))
  | OAckSub h' owned' => h' = h /\ snd (ack_sublease (do_sublease l owned') (fst w)) = true /\ owned = owned'
  | _ => False
  end.
Definition releases (w : world) (o : op) : Prop :=
  match o with ORelease h => exists l, nth_error (snd w) h = Some l /\ snd (do_release l (fst w)) = true | _ => False end.

(** The operation uses lease number [h]. *)
Definition uses (o : op) (h : nat) : Prop :=
  match o with OExtend h' | OAck h' | OAckSub h' _ | ORelease h' => h = h' | _ => False end.

Definition is_lease (o : op) : bool := match o with OLease => true | _ => false end.
Definition leases (ops : list op) : nat := length (filter is_lease ops).

Definition start : world := (dinit, []).
Definition pending (w : world) : list event := events (fst w).

(** The elements at the positions satisfying [p]. *)
Fixpoint select (p : nat -> bool) (i : nat) {A} (l : list A) : list A :=
  match l with [] => [] | a :: l' => if p i then a :: select p (S i) l' else select p (S i) l' end.
