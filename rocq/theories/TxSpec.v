(** Textbook transactions: the contents at the start and at each savepoint are kept. *)
From Verif Require Import Base UndoModel TxModel.

(** Contents: the formula of every cell. *)
Definition sheet := cell -> option formula.
Record ledger := { cur : sheet; opened_at : option (sheet * list (N * sheet)) }.

Definition ledger_new (K : sheet) : ledger := {| cur := K; opened_at := None |}.

(** The savepoints from the newest of name [n] downwards. *)
Fixpoint back_to (n : N) (l : list (N * sheet)) : option (sheet * list (N * sheet)) :=
  match l with
  | [] => None
  | (m, K) :: l' => if N.eqb m n then Some (K, (m, K) :: l') else back_to n l'
  end.

(** [edits] is what a logged edit does to the contents. *)
Definition accepts (k : cfg) (c : cell) (f : formula) : bool := (iter k || negb (existsb (N.eqb c) (refs f)))%bool.
Definition post (k : cfg) (o : txop) (t : ledger) : option ledger :=
  match o with
  | TBegin => match opened_at t with Some _ => None | None => Some {| cur := cur t; opened_at := Some (cur t, []) |} end
  | TValue c _ => Some {| cur := upd (cur t) c None; opened_at := opened_at t |}
  | TFormula c f => Some (if accepts k c f then {| cur := upd (cur t) c (Some f); opened_at := opened_at t |} else t)
  | TMark _ => Some t
  | TCommit => match opened_at t with None => None | Some _ => Some {| cur := cur t; opened_at := None |} end
  | TRollback => match opened_at t with None => None | Some (K, _) => Some {| cur := K; opened_at := None |} end
  | TSavepoint n => match opened_at t with None => None | Some (K, sps) => Some {| cur := cur t; opened_at := Some (K, (n, cur t) :: sps) |} end
  | TRollbackTo n =>
      match opened_at t with
      | None => None
      | Some (K, sps) => match back_to n sps with None => None | Some (K', sps') => Some {| cur := K'; opened_at := Some (K, sps') |} end
      end
  | TClear => Some t
  end.

(** The textbook follows the operations that the code accepts. *)
Fixpoint follow (k : cfg) (os : list txop) (s : tx) (t : ledger) : option (tx * ledger) :=
  match os with
  | [] => Some (s, t)
  | o :: os' =>
      match tx_step k o s with
      | Ok s' => match post k o t with Some t' => follow k os' s' t' | None => None end
      | Err _ => follow k os' s t
      | Panic => None
      end
  end.

(** No savepoint is given a name that is in use. *)
Fixpoint fresh_names (k : cfg) (os : list txop) (s : tx) : Prop :=
  match os with
  | [] => True
  | o :: os' =>
      match o, active s with
      | TSavepoint n, Some (_, sps) => ~ In n (map fst sps)
      | TClear, _ => False
      | _, _ => True
      end /\
      match tx_step k o s with Ok s' => fresh_names k os' s' | Err _ => fresh_names k os' s | Panic => True end
  end.

(** A graph made by the loaders and editors: one vertex per cell, and no formula that the
    configuration would refuse. *)
Definition sane (k : cfg) (g : graph) : Prop :=
  (forall c v, vmap g c = Some v -> (v < nextv g)%N) /\
  (forall c c' v, vmap g c = Some v -> vmap g c' = Some v -> c = c') /\
  (forall c f, form g c = Some f -> accepts k c f = true).
