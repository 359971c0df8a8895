(** What the interval index, the sheet index and the region locks should answer. *)
From Verif Require Import Base Maps IntervalModel.

(** The interval index is a set of (low, high, value). *)
Definition iset : Type := N -> N -> N -> Prop.
Definition ispec_step (o : iop) (s : iset) : iset :=
  match o with
  | IInsert l h v | IEntry l h v => fun a b x => (a = l /\ b = h /\ x = v) \/ s a b x
  | IRemove l h v => fun a b x => s a b x /\ ~ (a = l /\ b = h /\ x = v)
  | IBulk items => fun a b x => s a b x \/ (a = b /\ exists set, In (a, set) items /\ In x set)
  end.
Definition ispec (os : list iop) : iset := fold_left (fun s o => ispec_step o s) os (fun _ _ _ => False).

Definition share (a b c d : N) : Prop := exists x, (a <= x <= b)%N /\ (c <= x <= d)%N.
(** The values a query reports for an interval. *)
Definition reported (q : list (N * N * list N)) (lo hi v : N) : Prop := exists vals, In (lo, hi, vals) q /\ In v vals.
(** Intervals given are not reversed. *)
Definition proper_op (o : iop) : Prop :=
  match o with
  | IInsert l h _ | IEntry l h _ => (l <= h)%N
  | _ => True
  end.
(** The sets of a bulk load are sets, and not empty. *)
Definition filled_op (o : iop) : Prop :=
  match o with IBulk items => forall c set, In (c, set) items -> set <> [] /\ NoDup set | _ => True end.

(** The sheet index is the position of each vertex. *)
Definition places : Type := N -> option pos.
Definition put (v : N) (p : option pos) (f : places) : places := fun x => if N.eqb x v then p else f x.
Definition place (p : pos) (v : N) (f : places) : places := match f v with None => put v (Some p) f | Some _ => f end.
Definition sspec_step (o : sop) (f : places) : places :=
  match o with
  | SAdd p v => place p v f
  | SBatch items => fold_left (fun f it => place (fst it) (snd it) f) items f
  | SRemove _ v => put v None f
  | SMove _ new v => put v (Some new) f
  end.
Definition sspec (os : list sop) : places := fold_left (fun f o => sspec_step o f) os (fun _ => None).
(** Removals and moves name the position the vertex was last given. *)
Definition named (o : sop) (f : places) : Prop :=
  match o with
  | SRemove p v => f v = None \/ f v = Some p
  | SMove old _ v => f v = None \/ f v = Some old
  | _ => True
  end.
Fixpoint all_named (os : list sop) (f : places) : Prop :=
  match os with
  | [] => True
  | o :: os' => named o f /\ all_named os' (sspec_step o f)
  end.
Definition lists (l : list N) (P : N -> Prop) : Prop := NoDup l /\ forall v, In v l <-> P v.
Definition within (r0 r1 c0 c1 : N) (f : places) (v : N) : Prop :=
  exists r c, f v = Some (r, c) /\ (r0 <= r <= r1)%N /\ (c0 <= c <= c1)%N.

(** Regions as sets of cells. *)
Definition cell_in (r : region) (row col : N) : Prop := (rs r <= row <= re r)%N /\ (cs r <= col <= ce r)%N.
Definition collide (a b : region) : Prop := rsheet a = rsheet b /\ exists row col, cell_in a row col /\ cell_in b row col.
Definition holds (m : locks) (id : N) (r : region) (owner : N) : Prop :=
  exists l, mget N.eqb (held m) id = Some l /\ lregion l = r /\ lowner l = owner.
Definition reserves (os : list lop) : N :=
  N.of_nat (length (filter (fun o => match o with LReserve _ _ => true | _ => false end) os)).
