(** Transactions and savepoints over the dependency graph.

    Sources: crates/formualizer-eval/src/engine/graph/editor/transaction_context.rs:22-195,
    crates/formualizer-eval/src/engine/graph/editor/transaction_manager.rs:34-255,
    crates/formualizer-eval/src/engine/graph/editor/change_log.rs:326-358,
    crates/formualizer-eval/src/engine/graph/editor/vertex_editor.rs:430-475,1479-1680.

    Graph, events and cell edits are those of UndoModel.  Simplifications: transaction
    ids are left out; only cell edits and group markers are logged (no names, spills,
    structural edits); the log has no cap (ChangeLog::new); the graph never holds values
    (its value cache is always off), so an edit logs [old_value = None]. *)
From Verif Require Import Base UndoModel.

(** The fields of TransactionContext; [active] is (start_index, savepoints), oldest
    savepoint first. *)
Record tx := { tg : graph; tlog : list event; active : option (nat * list (N * nat)); maxsize : nat }.

Inductive txerr := AlreadyActive | NoActiveTransaction | TransactionTooLarge | SavepointNotFound.

(** TransactionContext::new / with_max_size. *)
Definition tx_new (m : nat) (g : graph) : tx := {| tg := g; tlog := []; active := None; maxsize := m |}.

Definition with_graph g (s : tx) := {| tg := g; tlog := tlog s; active := active s; maxsize := maxsize s |}.
Definition with_log l (s : tx) := {| tg := tg s; tlog := l; active := active s; maxsize := maxsize s |}.
Definition with_active a (s : tx) := {| tg := tg s; tlog := tlog s; active := a; maxsize := maxsize s |}.

(** VertexEditor::set_cell_value, set_cell_formula on the context's editor: the old formula is logged, no
    old value; an error from the graph is swallowed. *)
Definition tx_value (c : cell) (v : value) (s : tx) : tx :=
  with_log (tlog s ++ [ESetValue c None (form (tg s) c) v]) (with_graph (g_set_value c (tg s)) s).
Definition tx_formula (k : cfg) (c : cell) (f : formula) (s : tx) : tx :=
  let (g, ok) := g_set_formula (iter k) c f (tg s) in
  if ok then with_log (tlog s ++ [ESetFormula c None (form (tg s) c) f]) (with_graph g s) else with_graph g s.

(** ChangeLog::take_from: Vec::split_off panics beyond the length. *)
Definition take_from (i : nat) (l : list event) : option (list event * list event) :=
  if Nat.leb i (length l) then Some (firstn i l, skipn i l) else None.

(** apply_rollback: the inverses in reverse order; markers do nothing.  The cell inverses
    cannot fail. *)
Definition apply_rollback (k : cfg) (changes : list event) (g : graph) : graph := fold_right (inv_graph k) g changes.

(** begin. *)
Definition tx_begin (s : tx) : res txerr tx :=
  match active s with Some _ => Err AlreadyActive | None => Ok (with_active (Some (length (tlog s), [])) s) end.

(** commit: check_size, then the manager's commit.  The size is an unchecked usize
    subtraction. *)
Definition tx_commit (s : tx) : res txerr tx :=
  match active s with
  | None => Err NoActiveTransaction
  | Some (i, _) =>
      if Nat.leb i (length (tlog s)) then
        if Nat.leb (length (tlog s) - i) (maxsize s) then Ok (with_active None s) else Err TransactionTooLarge
      else Panic
  end.

(** rollback. *)
Definition tx_rollback (k : cfg) (s : tx) : res txerr tx :=
  match active s with
  | None => Err NoActiveTransaction
  | Some (i, _) =>
      match take_from i (tlog s) with
      | None => Panic
      | Some (kept, changes) => Ok (with_graph (apply_rollback k changes (tg s)) (with_log kept (with_active None s)))
      end
  end.

(** savepoint. *)
Definition tx_savepoint (n : N) (s : tx) : res txerr tx :=
  match active s with
  | None => Err NoActiveTransaction
  | Some (i, sps) => Ok (with_active (Some (i, sps ++ [(n, length (tlog s))])) s)
  end.

(** rollback_to_savepoint: get_savepoint finds the first of that name; truncate_savepoints
    keeps those with a smaller index. *)
Definition tx_rollback_to (k : cfg) (n : N) (s : tx) : res txerr tx :=
  match active s with
  | None => Err NoActiveTransaction
  | Some (i, sps) =>
      match find (fun p => N.eqb (fst p) n) sps with
      | None => Err SavepointNotFound
      | Some (_, j) =>
          match take_from j (tlog s) with
          | None => Panic
          | Some (kept, changes) =>
              Ok (with_graph (apply_rollback k changes (tg s))
                   (with_log kept (with_active (Some (i, filter (fun p => Nat.ltb (snd p) j) sps)) s)))
          end
      end
  end.

Inductive txop :=
| TBegin
| TValue (c : cell) (v : value)
| TFormula (c : cell) (f : formula)
| TMark (start : bool)
| TCommit
| TRollback
| TSavepoint (n : N)
| TRollbackTo (n : N)
| TClear.

Definition tx_step (k : cfg) (o : txop) (s : tx) : res txerr tx :=
  match o with
  | TBegin => tx_begin s
  | TValue c v => Ok (tx_value c v s)
  | TFormula c f => Ok (tx_formula k c f s)
  | TMark b => Ok (with_log (tlog s ++ [if b then EStart else EEnd]) s)
  | TCommit => tx_commit s
  | TRollback => tx_rollback k s
  | TSavepoint n => tx_savepoint n s
  | TRollbackTo n => tx_rollback_to k n s
  | TClear => Ok (with_log [] s)
  end.

(** A refused operation leaves the context as it was; [None]: panic. *)
Fixpoint tx_run (k : cfg) (os : list txop) (s : tx) : option tx :=
  match os with
  | [] => Some s
  | o :: os' => match tx_step k o s with Ok s' => tx_run k os' s' | Err _ => tx_run k os' s | Panic => None end
  end.
