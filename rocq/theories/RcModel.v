(** Recalculation: edits, full evaluation, evaluation of chosen cells.
    Models crates/formualizer-eval/src/engine/eval.rs: 16751-16790 (set_cell_value),
    17025-17065 (set_cell_formula), 21094-21303 (evaluate_all, legacy_pass_run_units,
    evaluate_all_legacy_impl), 21756-21845 (create_evaluation_schedule and its cache),
    21978-22068 (build_demand_subgraph), 18395-18475 (evaluate_legacy_target_roots),
    24585-24606 (apply_cycle_outcome), 25515-25740 (plan_vertex_effects), 26016-26100
    (layers one by one), 26268-26380 (layers in parallel), 3544 (redirty_for_next_recalc);
    graph/mod.rs: 2249-2300 (set_cell_formula_with_plan), 2792-2836
    (get_evaluation_vertices, clear_dirty_flags, redirty_volatiles), 3456-3605 (writing a
    spill), 4175-4182 (mark_volatile); graph/range_deps.rs: 583-590 (self loops of ranges);
    virtual_deps.rs: 330-385 (get_virtual_deps).

    Simplifications.  A cell is its vertex, a natural number, whether or not the engine has
    made a vertex for it.  A formula is what it reads one by one, what it reads through
    compressed ranges, whether it is volatile, and its result as a function of the values
    read and of what volatile functions see in this request (one number).  The edge store
    and the range index answer what the formulas say (C17, C18, C34); a range gives all its
    cells.  Dynamic references (INDIRECT, OFFSET) are left out, so that
    changed_virtual_dep_vertices is empty and the loop of evaluate_all runs once
    (21952-21958).  Cycles are stamped, CycleDetection::Static, the default.  A spill
    writes the cells the formula names, without the checks for room and without clearing
    the cells of an earlier spill (C37, C38, C77).  Names and tables are formulas; the
    demand subgraph of the code takes names also when they are clean.  The deferred scopes
    (C35), resource budgets, cancellation and telemetry are left out.  [None] stands for an
    error or a panic of the scheduler or for the model running out of fuel (neither
    happens, C173). *)
From Verif Require Import Base ListSort TarjanModel SchedModel DirtyModel.

Section Rc.
Variable V : Type.
Variable circ : V.                        (* #CIRC! *)
Variable ho : list nat -> list nat.       (* hash-map iteration order *)

(** What evaluating a formula gives: one value, or the value of the anchor with the values
    of the other cells of the array. *)
Inductive result := Scalar (x : V) | Spill (x : V) (cells : list (nat * V)).

Record formula := Formula {
  f_edges : list nat;                     (* cells with a dependency edge *)
  f_cells : list nat;                     (* cells of its compressed ranges *)
  f_volatile : bool;
  f_body : nat -> list V -> result }.
Definition f_reads (F : formula) : list nat := f_edges F ++ f_cells F.

Record book := Book {
  b_ids : list nat;                       (* cells that have had a formula *)
  b_form : nat -> option formula;
  b_val : nat -> V;
  b_dirty : list nat;
  b_vol : list nat;                       (* volatile_vertices *)
  b_topo : nat;                           (* topology_epoch *)
  b_cache : option (nat * list nat * schedule) }.  (* cached_static_schedule *)

Definition upd {A} (m : nat -> A) (v : nat) (x : A) (u : nat) : A := if Nat.eqb u v then x else m u.
Definition is_form (b : book) (v : nat) : bool := match b_form b v with Some _ => true | None => false end.
Definition set_val (b : book) (v : nat) (x : V) : book :=
  Book (b_ids b) (b_form b) (upd (b_val b) v x) (b_dirty b) (b_vol b) (b_topo b) (b_cache b).
Definition set_dirty (b : book) (d : list nat) : book :=
  Book (b_ids b) (b_form b) (b_val b) d (b_vol b) (b_topo b) (b_cache b).
Definition set_cache (b : book) (c : option (nat * list nat * schedule)) : book :=
  Book (b_ids b) (b_form b) (b_val b) (b_dirty b) (b_vol b) (b_topo b) c.

(** ** The graph of the formulas *)
(** The formulas that read a cell: dependency edges and the range index. *)
Definition readers (b : book) (u : nat) : list nat :=
  filter (fun f => match b_form b f with Some F => memb u (f_reads F) | None => false end) (b_ids b).
(** get_dependencies: the edges, with a self loop if a range covers the formula's cell. *)
Definition deps_of (b : book) (v : nat) : list nat :=
  match b_form b v with
  | Some F => dedup (f_edges F ++ (if memb v (f_cells F) then [v] else []))
  | None => []
  end.
Definition dependents_of (b : book) (u : nat) : list nat :=
  filter (fun f => memb u (deps_of b f)) (b_ids b).
(** get_virtual_deps, virtual_deps.rs:330-385. *)
Definition vdeps (b : book) (v : nat) : list nat :=
  match b_form b v with
  | Some F => sort_nat (dedup (filter (fun u => is_form b u && (memb u (b_dirty b) || memb u (b_vol b)) && negb (Nat.eqb u v)) (f_cells F)))
  | None => []
  end.

(** mark_dirty_many outside a deferred scope, graph/mod.rs:2660-2730 (see DirtyModel.v). *)
Definition mark_stack (b : book) (srcs : list nat) : list nat :=
  flat_map (fun s => (if is_form b s then [s] else []) ++ readers b s) srcs.
Definition mark_fuel (next : nat -> list nat) (universe stack : list nat) : nat :=
  length stack + list_sum (map (fun v => length (next v)) (dedup (stack ++ universe))).
Definition mark (b : book) (srcs : list nat) : option book :=
  let stack := mark_stack b srcs in
  match propagate (mark_fuel (readers b) (b_ids b) stack) (readers b) [] stack with
  | None => None
  | Some vis => Some (set_dirty b (b_dirty b ++ dedup (filter (fun s => negb (is_form b s)) srcs ++ vis)))
  end.

(** ** Edits *)
Definition set_value (b : book) (v : nat) (x : V) : option book :=
  mark (Book (b_ids b) (upd (b_form b) v None) (upd (b_val b) v x) (b_dirty b) (b_vol b)
             (if is_form b v then S (b_topo b) else b_topo b) (b_cache b)) [v].
(** A formula that reads its own cell through an edge is refused and nothing changes. *)
Definition set_formula (b : book) (v : nat) (F : formula) : option book :=
  if memb v (f_edges F) then Some b
  else mark (Book (if memb v (b_ids b) then b_ids b else b_ids b ++ [v]) (upd (b_form b) v (Some F)) (b_val b) (b_dirty b)
                  (if f_volatile F then b_vol b ++ [v] else filter (fun u => negb (Nat.eqb u v)) (b_vol b))
                  (S (b_topo b)) (b_cache b)) [v].

(** ** One pass *)
(** evaluate_vertex_immutable *)
Definition evalv (t : nat) (b : book) (v : nat) : result :=
  match b_form b v with
  | Some F => f_body F (if f_volatile F then t else 0) (map (b_val b) (f_reads F))
  | None => Scalar (b_val b v)
  end.
(** The other cells of an array, each with set_cell_value of the graph. *)
Fixpoint write_cells (b : book) (cells : list (nat * V)) : option book :=
  match cells with
  | [] => Some b
  | (c, x) :: cells' =>
      match mark (Book (b_ids b) (upd (b_form b) c None) (upd (b_val b) c x) (b_dirty b) (b_vol b) (b_topo b) (b_cache b)) [c] with
      | Some b' => write_cells b' cells'
      | None => None
      end
  end.
Definition apply_result (b : book) (v : nat) (r : result) : option book :=
  match r with
  | Scalar x => Some (set_val b v x)
  | Spill x cells => match write_cells b cells with Some b' => Some (set_val b' v x) | None => None end
  end.
Definition flush (b : book) (buf : list (nat * V)) : book := fold_left (fun b w => set_val b (fst w) (snd w)) buf b.
Definition has_ranges (b : book) (v : nat) : bool :=
  match b_form b v with Some F => match f_cells F with [] => false | _ => true end | None => false end.

(** evaluate_small_layer_direct_effects *)
Fixpoint run_direct (t : nat) (b : book) (l : list nat) : option book :=
  match l with
  | [] => Some b
  | v :: l' => match apply_result b v (evalv t b v) with Some b' => run_direct t b' l' | None => None end
  end.
(** evaluate_layer_sequential_effects for wide layers: the values wait in a buffer. *)
Fixpoint run_buffered (t : nat) (b : book) (buf : list (nat * V)) (l : list nat) : option book :=
  match l with
  | [] => Some (flush b buf)
  | v :: l' =>
      let b1 := if has_ranges b v then flush b buf else b in
      let buf1 := if has_ranges b v then [] else buf in
      match evalv t b1 v with
      | Scalar x => run_buffered t b1 (buf1 ++ [(v, x)]) l'
      | Spill x cells => match write_cells (flush b1 buf1) cells with
                         | Some b2 => run_buffered t b2 [(v, x)] l'
                         | None => None
                         end
      end
  end.
(** evaluate_layer_parallel_effects: a group is computed before any of it is written, the
    arrays are written first, and the formulas with ranges are the second group. *)
Fixpoint apply_all (b : book) (rs : list (nat * result)) : option book :=
  match rs with
  | [] => Some b
  | (v, r) :: rs' => match apply_result b v r with Some b' => apply_all b' rs' | None => None end
  end.
Definition is_array (r : result) : bool := match r with Spill _ _ => true | Scalar _ => false end.
Definition run_group (t : nat) (b : book) (g : list nat) : option book :=
  let rs := map (fun v => (v, evalv t b v)) g in
  apply_all b (filter (fun p => is_array (snd p)) rs ++ filter (fun p => negb (is_array (snd p))) rs).
Definition run_parallel (t : nat) (b : book) (l : list nat) : option book :=
  match run_group t b (filter (fun v => negb (has_ranges b v)) l) with
  | Some b' => run_group t b' (filter (has_ranges b) l)
  | None => None
  end.
(** COMPUTED_WRITE_COALESCING_MIN_LAYER_WIDTH = 8, eval.rs:655. *)
Definition run_layer (pool : bool) (t : nat) (b : book) (l : list nat) : option book :=
  if pool && (1 <? length l) then run_parallel t b l
  else if length l <? 8 then run_direct t b l else run_buffered t b [] l.
Definition run_cycle (b : book) (c : list nat) : book := fold_left (fun b v => set_val b v circ) c b.
Fixpoint run_units (pool : bool) (t : nat) (s : schedule) (us : list sunit) (b : book) : option book :=
  match us with
  | [] => Some b
  | UCycle i :: us' => run_units pool t s us' (run_cycle b (nth i (cycles s) []))
  | ULayer i :: us' => match run_layer pool t b (nth i (layers s) []) with
                       | Some b' => run_units pool t s us' b'
                       | None => None
                       end
  end.

(** get_evaluation_vertices *)
Definition to_evaluate (b : book) : list nat :=
  sort_nat (dedup (filter (is_form b) (b_dirty b ++ b_vol b))).
Definition clear_dirty (b : book) (vs : list nat) : book :=
  set_dirty b (filter (fun v => negb (memb v vs)) (b_dirty b)).

(** create_evaluation_schedule_uncached *)
Definition fresh_schedule (b : book) (vs : list nat) : option schedule :=
  match (if forallb (fun v => match vdeps b v with [] => true | _ => false end) vs
         then create_schedule (deps_of b) (dependents_of b) ho vs
         else create_schedule_with_virtual (deps_of b) ho vs (vdeps b)) with
  | Ok s => Some s
  | _ => None
  end.
(** create_evaluation_schedule *)
Definition list_eqb (a b : list nat) : bool := if list_eq_dec Nat.eq_dec a b then true else false.
Definition eval_schedule (b : book) (vs : list nat) : option (schedule * book) :=
  if forallb (fun v => negb (has_ranges b v)) vs then
    match b_cache b with
    | Some (topo, vs', s) =>
        if (topo =? b_topo b) && list_eqb vs' vs then Some (s, b)
        else match fresh_schedule b vs with Some s' => Some (s', set_cache b (Some (b_topo b, vs, s'))) | None => None end
    | None => match fresh_schedule b vs with Some s' => Some (s', set_cache b (Some (b_topo b, vs, s'))) | None => None end
    end
  else match fresh_schedule b vs with Some s' => Some (s', b) | None => None end.

Definition pass (pool : bool) (t : nat) (b : book) (vs : list nat) (s : schedule) : option book :=
  match run_units pool t s (units s) b with Some b' => Some (clear_dirty b' vs) | None => None end.

(** evaluate_all *)
Definition evaluate_all (pool : bool) (t : nat) (b : book) : option book :=
  match to_evaluate b with
  | [] => mark b (b_vol b)
  | vs => match eval_schedule b vs with
          | None => None
          | Some (s, b1) => match pass pool t b1 vs s with Some b2 => mark b2 (b_vol b2) | None => None end
          end
  end.

(** build_demand_subgraph and evaluate_legacy_target_roots *)
Definition demand (b : book) (targets : list nat) : option (list nat) :=
  let next v := deps_of b v ++ vdeps b v in
  match propagate (mark_fuel next (flat_map next (b_ids b)) targets) next [] targets with
  | None => None
  | Some vis => Some (sort_nat (filter (fun v => is_form b v && (memb v (b_dirty b) || memb v (b_vol b))) vis))
  end.
Definition evaluate_cells (pool : bool) (t : nat) (b : book) (targets : list nat) : option book :=
  match demand b targets with
  | None => None
  | Some [] => mark b (b_vol b)
  | Some vs => match create_schedule_with_virtual (deps_of b) ho vs (vdeps b) with
               | Ok s => match pass pool t b vs s with Some b2 => mark b2 (b_vol b2) | None => None end
               | _ => None
               end
  end.

(** ** Histories *)
Inductive rop :=
| OSet (v : nat) (x : V)
| OForm (v : nat) (F : formula)
| OAll (pool : bool) (t : nat)
| OCells (pool : bool) (t : nat) (targets : list nat).
Definition rstep (b : book) (o : rop) : option book :=
  match o with
  | OSet v x => set_value b v x
  | OForm v F => set_formula b v F
  | OAll pool t => evaluate_all pool t b
  | OCells pool t targets => evaluate_cells pool t b targets
  end.
Fixpoint rrun (b : book) (os : list rop) : option book :=
  match os with
  | [] => Some b
  | o :: os' => match rstep b o with Some b' => rrun b' os' | None => None end
  end.
Definition new_book (blank : V) : book := Book [] (fun _ => None) (fun _ => blank) [] [] 0 None.
End Rc.
Arguments Scalar {V}. Arguments Spill {V}. Arguments Formula {V}. Arguments f_edges {V}. Arguments f_cells {V}.
Arguments f_volatile {V}. Arguments f_body {V}. Arguments f_reads {V}. Arguments b_ids {V}. Arguments b_form {V}.
Arguments b_val {V}. Arguments b_dirty {V}. Arguments b_vol {V}. Arguments b_topo {V}. Arguments b_cache {V}.
Arguments OSet {V}. Arguments OForm {V}. Arguments OAll {V}. Arguments OCells {V}. Arguments is_form {V}.
Arguments set_val {V}. Arguments set_dirty {V}. Arguments set_cache {V}. Arguments readers {V}. Arguments deps_of {V}.
Arguments dependents_of {V}. Arguments vdeps {V}. Arguments mark_stack {V}. Arguments mark {V}. Arguments evalv {V}.
Arguments write_cells {V}. Arguments apply_result {V}. Arguments flush {V}. Arguments has_ranges {V}.
Arguments run_direct {V}. Arguments run_buffered {V}. Arguments apply_all {V}. Arguments is_array {V}.
Arguments run_group {V}. Arguments run_parallel {V}. Arguments run_layer {V}. Arguments to_evaluate {V}.
Arguments clear_dirty {V}. Arguments demand {V}. Arguments set_value {V}. Arguments set_formula {V}.
