(** The dependency store: a compressed base and a delta of recent changes.
    Models crates/formualizer-eval/src/engine/csr_edges.rs:300-455 and
    crates/formualizer-eval/src/engine/delta_edges.rs:378-937.

    Simplifications: vertex ids and array offsets are nat (the code uses u32; the
    special case [min_id == u32::MAX], a store whose only vertex is u32::MAX, is left
    out); a vertex address is its sort key [order_key()] (CoordModel.v), two numbers;
    hash maps are association lists and hash sets lists (a set is always sorted after
    it is read, except in the second loop of [adjacency_with_carried_forward_edges],
    where the order decides nothing); the rebuild counter and the bounded visitor are
    left out. *)
From Verif Require Import Base Maps ListSort SchedModel.

Definition addr : Type := (N * N)%type.

(** CsrEdges, csr_edges.rs:266-289. *)
Record csr := Csr { offs : list nat; eds : list nat; roffs : list nat; reds : list nat; minv : nat }.
Definition csr_empty : csr := Csr [0] [] [0] [] 0.

(** The sort key (major, minor, id) of csr_edges.rs:354-365 and 388-396; ids without an
    address come last. *)
Definition key_of (coords : list addr) (mn t : nat) : option addr := nth_error coords (t - mn).
Definition key_leb (a : option addr) (i : nat) (b : option addr) (j : nat) : bool :=
  match a, b with
  | Some (r, c), Some (r', c') =>
      ((r <? r')%N || ((r =? r')%N && ((c <? c')%N || ((c =? c')%N && (i <=? j)))))%bool
  | Some _, None => true
  | None, Some _ => false
  | None, None => i <=? j
  end.
Fixpoint csort_insert (leb : nat -> nat -> bool) (x : nat) (l : list nat) : list nat :=
  match l with
  | [] => [x]
  | y :: r => if leb x y then x :: l else y :: csort_insert leb x r
  end.
Definition csort (coords : list addr) (mn : nat) (l : list nat) : list nat :=
  fold_right (csort_insert (fun i j => key_leb (key_of coords mn i) i (key_of coords mn j) j)) [] l.

Fixpoint set_nth {A} (l : list A) (i : nat) (a : A) : list A :=
  match l, i with
  | [], _ => []
  | _ :: r, O => a :: r
  | x :: r, S j => x :: set_nth r j a
  end.

(** The offsets array: running lengths. *)
Fixpoint offsets_from (start : nat) (ls : list (list nat)) : list nat :=
  match ls with
  | [] => [start]
  | l :: r => start :: offsets_from (start + length l) r
  end.

(** CsrEdges::from_adjacency, 303-408. *)
Definition all_ids (adj : list (nat * list nat)) : list nat := flat_map (fun p => fst p :: snd p) adj.
Definition slots_of (mn n : nat) (adj : list (nat * list nat)) : list (list nat) :=
  fold_left (fun s p => set_nth s (fst p - mn) (snd p)) adj (repeat [] n).
Definition push_rev (mn n : nat) (source : nat) (r : list (list nat)) (target : nat) : list (list nat) :=
  let i := target - mn in
  if i <? n then set_nth r i (nth i r [] ++ [source]) else r.
Definition rev_slots (mn n : nat) (slots : list (list nat)) : list (list nat) :=
  fold_left (fun r p => fold_left (push_rev mn n (mn + fst p)) (snd p) r)
            (combine (seq 0 n) slots) (repeat [] n).
Definition from_adjacency (adj : list (nat * list nat)) (coords : list addr) : csr :=
  match adj with
  | [] => csr_empty
  | _ =>
      let mn := list_min (all_ids adj) in
      let mx := list_max (all_ids adj) in
      let n := mx - mn + 1 in
      let slots := slots_of mn n adj in
      let fwd := map (csort coords mn) slots in
      let rev := map (csort coords mn) (rev_slots mn n slots) in
      Csr (offsets_from 0 fwd) (concat fwd) (offsets_from 0 rev) (concat rev) mn
  end.

(** out_edges and in_edges, 410-455. *)
Definition slice (offsets edges : list nat) (mn v : nat) : list nat :=
  if length offsets <=? 1 then []
  else if v <? mn then []
  else let i := v - mn in
       if length offsets - 1 <=? i then []
       else let s := nth i offsets 0 in
            let e := nth (S i) offsets 0 in
            firstn (e - s) (skipn s edges).
Definition csr_out (c : csr) (v : nat) : list nat := slice (offs c) (eds c) (minv c) v.
Definition csr_in (c : csr) (v : nat) : list nat := slice (roffs c) (reds c) (minv c) v.

(** DeltaEdgeSlab, delta_edges.rs:378-399. *)
Definition emap := list (nat * list nat).
Definition eget (m : emap) (v : nat) : list nat := match mget Nat.eqb m v with Some l => l | None => [] end.
(** [if let Some(s) = m.get_mut(k) { s.remove(x) }] *)
Definition edrop (m : emap) (k x : nat) : emap :=
  match mget Nat.eqb m k with
  | Some l => mput Nat.eqb m k (filter (fun y => negb (Nat.eqb x y)) l)
  | None => m
  end.
(** [m.entry(k).or_default().insert(x)] *)
Definition einsert (m : emap) (k x : nat) : emap :=
  mput Nat.eqb m k (if memb x (eget m k) then eget m k else x :: eget m k).

Record slab := Slab { adds : emap; rems : emap; adds_in : emap; rems_in : emap; ops : nat; moved : bool }.
Definition slab_new : slab := Slab [] [] [] [] 0 false.

(** add_edge and remove_edge, 419-448. *)
Definition slab_add (f t : nat) (d : slab) : slab :=
  Slab (einsert (adds d) f t) (edrop (rems d) f t) (einsert (adds_in d) t f) (edrop (rems_in d) t f)
       (S (ops d)) (moved d).
Definition slab_remove (f t : nat) (d : slab) : slab :=
  Slab (edrop (adds d) f t) (einsert (rems d) f t) (edrop (adds_in d) t f) (einsert (rems_in d) t f)
       (S (ops d)) (moved d).

(** merged_view and merged_in_view, 450-483. *)
Definition merge (base add rem : list nat) : list nat :=
  sort_nat (dedup (filter (fun e => negb (memb e rem)) base ++ add)).
Definition merged_view (d : slab) (c : csr) (v : nat) : list nat := merge (csr_out c v) (eget (adds d) v) (eget (rems d) v).
Definition merged_in_view (d : slab) (c : csr) (v : nat) : list nat := merge (csr_in c v) (eget (adds_in d) v) (eget (rems_in d) v).

(** needs_rebuild, 486-488. *)
Definition needs_rebuild (d : slab) : bool := (1000 <=? ops d) || moved d.

(** apply_to_csr, 525-546. *)
Definition apply_to_csr (d : slab) (base : csr) (coords : list addr) (ids : list nat) : csr :=
  from_adjacency (map (fun v => (v, merged_view d base v)) ids) coords.

(** CsrMutableEdges, 559-584. *)
Record store := Store {
  base : csr; delta : slab; coords : list addr; ids : list nat; vpos : list (nat * nat); depth : nat }.
Definition store_new : store := Store csr_empty slab_new [] [] [] 0.

Definition set_delta (d : slab) (s : store) : store := Store (base s) d (coords s) (ids s) (vpos s) (depth s).
Definition set_depth (n : nat) (s : store) : store := Store (base s) (delta s) (coords s) (ids s) (vpos s) n.

(** rebuild and maybe_rebuild, 758-786. *)
Definition rebuild (s : store) : store :=
  if (0 <? ops (delta s)) || needs_rebuild (delta s)
  then Store (apply_to_csr (delta s) (base s) (coords s) (ids s)) slab_new (coords s) (ids s) (vpos s) (depth s)
  else s.
Definition maybe_rebuild (s : store) : store :=
  if (depth s =? 0) && needs_rebuild (delta s) then rebuild s else s.

(** out_edges, in_edges_merged, 648-692. *)
Definition out_edges (s : store) (v : nat) : list nat :=
  if ops (delta s) =? 0 then csr_out (base s) v else merged_view (delta s) (base s) v.
Definition in_edges_merged (s : store) (v : nat) : list nat :=
  if ops (delta s) =? 0 then csr_in (base s) v else merged_in_view (delta s) (base s) v.
(** out_edges_ref and in_edges_ref, 660-668, 698-706. *)
Definition out_edges_ref (s : store) (v : nat) : option (list nat) :=
  if ops (delta s) =? 0 then Some (csr_out (base s) v) else None.
Definition in_edges_ref (s : store) (v : nat) : option (list nat) :=
  if ops (delta s) =? 0 then Some (csr_in (base s) v) else None.
(** num_edges_exact, 745-756. *)
Definition num_edges_exact (s : store) : nat :=
  if ops (delta s) =? 0 then length (eds (base s))
  else list_sum (map (fun v => length (out_edges s v)) (ids s)).

(** add_vertex and update_addr, 823-865. *)
Definition add_vertex (a : addr) (v : nat) (s : store) : store :=
  Store (base s) (delta s) (coords s ++ [a]) (ids s ++ [v])
        (mput Nat.eqb (vpos s) v (length (coords s))) (depth s).
Definition add_vertices (l : list (addr * nat)) (s : store) : store :=
  match l with
  | [] => s
  | _ => rebuild (fold_left (fun s p => add_vertex (fst p) (snd p) s) l s)
  end.
Definition update_addr (v : nat) (a : addr) (s : store) : store :=
  match mget Nat.eqb (vpos s) v with
  | None => s
  | Some p => Store (base s) (Slab (adds (delta s)) (rems (delta s)) (adds_in (delta s)) (rems_in (delta s))
                                   (ops (delta s)) true)
                    (set_nth (coords s) p a) (ids s) (vpos s) (depth s)
  end.

(** adjacency_with_carried_forward_edges, 867-918. *)
Definition uncovered (adj : list (nat * list nat)) (s : store) : list (nat * list nat) :=
  flat_map (fun v => if memb v (map fst adj) then []
                     else match out_edges s v with [] => [] | l => [(v, l)] end) (ids s).
Definition carried (covered : list nat) (s : store) (adj : list (nat * list nat)) (e : nat * list nat)
  : list (nat * list nat) :=
  let '(from, added) := e in
  if memb from covered || memb from (map fst adj) then adj
  else match dedup (filter (fun t => negb (memb t (eget (rems (delta s)) from))) (csr_out (base s) from) ++ added) with
       | [] => adj
       | ts => adj ++ [(from, sort_nat ts)]
       end.
Definition with_carried (adj : list (nat * list nat)) (s : store) : list (nat * list nat) :=
  fold_left (carried (map fst adj) s) (adds (delta s)) (adj ++ uncovered adj s).
(** build_edges_from_adjacency (graph/mod.rs:1014-1031) and build_from_adjacency, 926-945. *)
Definition build_edges (adj : list (nat * list nat)) (cs : list addr) (vs : list nat) (s : store) : store :=
  Store (from_adjacency (with_carried adj s) cs) slab_new cs vs (combine vs (seq 0 (length vs))) (depth s).

(** BulkIngestBuilder::finish, ingest_builder.rs:366-680 (the one-shot path): the cells
    that do not exist yet are registered by ensure_vertices_batch_packed_ordered
    (graph/mod.rs:813-822) and remembered in [coord_accum]/[id_accum]; at the end the store
    is rebuilt from the new rows with those as the vertex list, or with all vertices
    [all] (iter_vertex_ids) if no cell was new. *)
Definition ingest (fresh all : list (addr * nat)) (adj : list (nat * list nat)) (s : store) : store :=
  let s1 := add_vertices fresh s in
  let vs := match fresh with [] => all | _ => fresh end in
  match adj with
  | [] => s1
  | _ => build_edges adj (map fst vs) (map snd vs) s1
  end.

Inductive op :=
| OAdd (f t : nat)
| ORemove (f t : nat)
| OVertex (a : addr) (v : nat)
| OVertices (l : list (addr * nat))
| OMove (v : nat) (a : addr)
| OBegin
| OEnd
| OEndDeferred
| ORebuild
| OBuild (adj : list (nat * list nat)) (cs : list addr) (vs : list nat)
| OIngest (fresh all : list (addr * nat)) (adj : list (nat * list nat)).

Definition step (o : op) (s : store) : store :=
  match o with
  | OAdd f t => maybe_rebuild (set_delta (slab_add f t (delta s)) s)
  | ORemove f t => maybe_rebuild (set_delta (slab_remove f t (delta s)) s)
  | OVertex a v => add_vertex a v s
  | OVertices l => add_vertices l s
  | OMove v a => update_addr v a s
  | OBegin => set_depth (S (depth s)) s
  | OEnd => maybe_rebuild (set_depth (pred (depth s)) s)
  | OEndDeferred => set_depth (pred (depth s)) s
  | ORebuild => rebuild s
  | OBuild adj cs vs => build_edges adj cs vs s
  | OIngest fresh all adj => ingest fresh all adj s
  end.
Definition run (os : list op) (s : store) : store := fold_left (fun s o => step o s) os s.
