(** Which formulas an edit schedules.
    Models crates/formualizer-eval/src/engine/graph/mod.rs:2611-2815 (mark_dirty,
    mark_dirty_many, begin_deferred_dirty, end_deferred_dirty, get_evaluation_vertices),
    3709-3803 (mark_dirty_many_value_cells, collect_range_dependents_for_vertex), 4165-4171
    (mark_dependents_dirty), 4364-4376 (mark_vertex_dirty);
    crates/formualizer-eval/src/engine/graph/names.rs:392-512 (what update_name marks) and
    crates/formualizer-eval/src/engine/graph/editor/vertex_editor.rs:909-1003 (what
    insert_rows marks) with eval.rs:14750-14790, 5407-5417.

    The graph is the edge store of EdgeModel.v and the range index of StripeModel.v.
    Simplifications: hash sets are lists, so nothing is said about the order of results;
    [to_visit] is a list whose head is the top of the stack; the loop takes fuel and
    answers None without it (a theorem gives enough fuel); the per-vertex dirty bit and the
    visit counter are left out; the scheduled set is the dirty set restricted to live
    formulas and names, with the volatile ones. *)
From Verif Require Import Base Maps ListSort SchedModel EdgeModel IntervalModel StripeModel.

Record graph := Graph {
  g_store : store;
  g_index : rindex;
  g_blocks : bool;
  g_pos : nat -> option (N * (N * N));   (** grid_addr with the sheet; None for a symbol *)
  g_names : nat -> list nat;             (** cell_to_name_dependents *)
  g_formula : nat -> bool;               (** a formula or a name *)
  g_live : nat -> bool;                  (** vertex_exists(_active) *)
  g_volatile : list nat }.

Definition edge_deps (g : graph) (v : nat) : list nat :=
  match in_edges_ref (g_store g) v with Some l => l | None => in_edges_merged (g_store g) v end.
Definition rect_deps (g : graph) (sheet r0 c0 r1 c1 : N) : list nat :=
  map N.to_nat (collect (g_blocks g) sheet r0 c0 r1 c1 (g_index g)).
Definition range_deps (g : graph) (v : nat) : list nat :=
  match g_pos g v with
  | Some (sheet, (r, c)) => rect_deps g sheet r c r c
  | None => []
  end.
Definition dependents (g : graph) (v : nat) : list nat := edge_deps g v ++ range_deps g v.

(** The worklist loop, 2701-2719, over a dependents function. *)
Fixpoint propagate (fuel : nat) (deps : nat -> list nat) (visited stack : list nat) : option (list nat) :=
  match stack with
  | [] => Some visited
  | v :: stack' =>
      match fuel with
      | O => None
      | S n => if memb v visited then propagate n deps visited stack'
               else propagate n deps (v :: visited) (deps v ++ stack')
      end
  end.

Record dstate := DState { dirty : list nat; ddepth : nat; dpending : list nat }.

(** mark_dirty_many, outside a deferred scope *)
Definition mark_now (fuel : nat) (g : graph) (srcs : list nat) (st : dstate) : option (list nat * dstate) :=
  let stack := flat_map (fun s => (if g_formula g s then [s] else []) ++ edge_deps g s ++ g_names g s ++ range_deps g s) srcs in
  match propagate fuel (dependents g) [] stack with
  | None => None
  | Some visited =>
      let affected := dedup (filter (fun s => negb (g_formula g s)) srcs ++ visited) in
      Some (affected, DState (dirty st ++ affected) (ddepth st) (dpending st))
  end.
Definition mark_dirty_many (fuel : nat) (g : graph) (srcs : list nat) (st : dstate) : option (list nat * dstate) :=
  if 0 <? ddepth st then Some (srcs, DState (dirty st) (ddepth st) (dpending st ++ srcs))
  else mark_now fuel g srcs st.

Definition begin_deferred (st : dstate) : dstate := DState (dirty st) (S (ddepth st)) (dpending st).
Definition end_deferred (fuel : nat) (g : graph) (st : dstate) : option (list nat * dstate) :=
  let d := pred (ddepth st) in
  if 0 <? d then Some ([], DState (dirty st) d (dpending st))
  else match dpending st with
       | [] => Some ([], DState (dirty st) d [])
       | pending => mark_dirty_many fuel g (filter (g_live g) pending) (DState (dirty st) d [])
       end.

(** get_evaluation_vertices *)
Definition scheduled (g : graph) (st : dstate) : list nat :=
  sort_nat (dedup (filter (fun v => g_live g v && g_formula g v) (dirty st ++ g_volatile g))).

(** ** The path for spilled cells *)
Record bounds := Bounds { b_r0 : N; b_r1 : N; b_c0 : N; b_c1 : N }.
Definition grow (r c : N) (b : bounds) : bounds :=
  Bounds (N.min (b_r0 b) r) (N.max (b_r1 b) r) (N.min (b_c0 b) c) (N.max (b_c1 b) c).
Definition bounds_by_sheet (g : graph) (srcs : list nat) : list (N * bounds) :=
  fold_left (fun m s => match g_pos g s with
                        | None => m
                        | Some (sheet, (r, c)) =>
                            mput N.eqb m sheet (match mget N.eqb m sheet with
                                                | Some b => grow r c b
                                                | None => Bounds r r c c
                                                end)
                        end) srcs [].
Definition folded (g : graph) : graph :=
  Graph (if 0 <? ops (delta (g_store g)) then rebuild (g_store g) else g_store g)
        (g_index g) (g_blocks g) (g_pos g) (g_names g) (g_formula g) (g_live g) (g_volatile g).
Definition base_deps (g : graph) (v : nat) : list nat := csr_in (base (g_store g)) v.
Definition mark_values (fuel : nat) (g : graph) (srcs : list nat) (st : dstate) : option (list nat * dstate) :=
  match srcs with
  | [] => Some ([], st)
  | _ =>
      if 0 <? ddepth st then Some (srcs, DState (dirty st) (ddepth st) (dpending st ++ srcs))
      else
        let g := folded g in
        let stack := flat_map (fun s => base_deps g s ++ g_names g s) srcs
          ++ flat_map (fun e => rect_deps g (fst e) (b_r0 (snd e)) (b_c0 (snd e)) (b_r1 (snd e)) (b_c1 (snd e)))
                      (bounds_by_sheet g srcs) in
        match propagate fuel (fun v => base_deps g v ++ range_deps g v) [] stack with
        | None => None
        | Some visited =>
            let affected := dedup (srcs ++ visited) in
            Some (affected, DState (dirty st ++ affected) (ddepth st) (dpending st))
        end
  end.

(** ** Marks that do not propagate *)
Definition mark_only (vs : list nat) (st : dstate) : dstate := DState (dirty st ++ vs) (ddepth st) (dpending st).
(** What update_name marks: the formulas recorded as using the name, and the name. *)
Definition update_name_marks (users : list nat) (name : nat) (st : dstate) : dstate := mark_only (users ++ [name]) st.
(** What inserting rows marks: the readers of compressed ranges are propagated; the
    dependents of each moved vertex, the rewritten formulas and the moved formulas are not. *)
Definition insert_marks (fuel : nat) (g : graph) (range_readers moved adjusted : list nat) (st : dstate) : option dstate :=
  match mark_dirty_many fuel g range_readers st with
  | None => None
  | Some (_, st) =>
      Some (mark_only (flat_map (fun v => in_edges_merged (g_store g) v) moved
                       ++ adjusted ++ filter (g_formula g) moved) st)
  end.

(** ** Histories *)
Inductive dop := DMark (srcs : list nat) | DBegin | DEnd.
Definition dstep (fuel : nat) (x : graph * dop) (st : dstate) : option dstate :=
  match snd x with
  | DMark srcs => option_map snd (mark_dirty_many fuel (fst x) srcs st)
  | DBegin => Some (begin_deferred st)
  | DEnd => option_map snd (end_deferred fuel (fst x) st)
  end.
Fixpoint drun (fuel : nat) (xs : list (graph * dop)) (st : dstate) : option dstate :=
  match xs with
  | [] => Some st
  | x :: xs' => match dstep fuel x st with Some st' => drun fuel xs' st' | None => None end
  end.
