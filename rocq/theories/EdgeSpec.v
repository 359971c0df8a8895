(** What the dependency store should answer: a set of edges changed by the operations
    that change it. *)
From Verif Require Import Base Maps EdgeModel.

Definition edges : Type := nat -> nat -> Prop.

(** The last row given for a vertex counts. *)
Definition last_row (adj : list (nat * list nat)) (v : nat) : option (list nat) := mget Nat.eqb (rev adj) v.

Definition replace_rows (adj : list (nat * list nat)) (E : edges) : edges :=
  fun a b => match last_row adj a with Some ts => In b ts | None => E a b end.

Definition spec_step (o : op) (E : edges) : edges :=
  match o with
  | OAdd f t => fun a b => (a = f /\ b = t) \/ E a b
  | ORemove f t => fun a b => E a b /\ ~ (a = f /\ b = t)
  | OBuild adj _ _ | OIngest _ _ adj => replace_rows adj E
  | _ => E
  end.
Definition spec_run (os : list op) : edges := fold_left (fun E o => spec_step o E) os (fun _ _ => False).

(** Every vertex the store has been told about. *)
Definition reg_step (o : op) (r : list nat) : list nat :=
  match o with
  | OVertex _ v => r ++ [v]
  | OVertices l => r ++ map snd l
  | OBuild _ _ vs => r ++ vs
  | OIngest fresh _ _ => r ++ map snd fresh
  | _ => r
  end.
Definition reg_run (os : list op) : list nat := fold_left (fun r o => reg_step o r) os [].

(** An operation only adds edges from vertices that are registered; [all] lists them. *)
Definition registered (o : op) (r : list nat) : Prop :=
  match o with
  | OAdd f _ => In f r
  | OBuild adj _ vs => incl (map fst adj) (r ++ vs)
  | OIngest fresh all adj => incl (map fst adj) (r ++ map snd fresh) /\ incl (r ++ map snd fresh) (map snd all)
  | _ => True
  end.
(** A rebuild from rows is handed all the vertices. *)
Definition complete (o : op) (r : list nat) : Prop :=
  match o with
  | OBuild _ _ vs => incl r vs
  | OIngest fresh _ adj => fresh = [] \/ r = [] \/ adj = []
  | _ => True
  end.
Fixpoint legal (P : op -> list nat -> Prop) (os : list op) (r : list nat) : Prop :=
  match os with
  | [] => True
  | o :: os' => P o r /\ legal P os' (reg_step o r)
  end.

(** The store answers for E: both directions, however they are asked. *)
Definition answers (s : store) (E : edges) : Prop :=
  (forall f t, In t (out_edges s f) <-> E f t)
  /\ (forall f t, In f (in_edges_merged s t) <-> E f t)
  /\ (forall f l, out_edges_ref s f = Some l -> forall t, In t l <-> E f t)
  /\ (forall t l, in_edges_ref s t = Some l -> forall f, In f l <-> E f t).

(** Every vertex is registered once. *)
Definition once (o : op) (r : list nat) : Prop :=
  match o with
  | OVertex _ v => ~ In v r
  | OVertices l => NoDup (map snd l) /\ forall x, In x (map snd l) -> ~ In x r
  | OBuild _ _ vs => NoDup vs
  | OIngest fresh all _ => NoDup (map snd fresh) /\ (forall x, In x (map snd fresh) -> ~ In x r)
      /\ NoDup (map snd all) /\ incl (map snd all) (r ++ map snd fresh)
  | _ => True
  end.
