(** The interval index, the sheet index and the region locks of spills.
    Models crates/formualizer-eval/src/engine/interval_tree.rs:23-287,
    crates/formualizer-eval/src/engine/sheet_index.rs:49-330 and
    crates/formualizer-eval/src/engine/spill.rs:50-135.

    Simplifications: a BTreeMap is an association list, so the order of query results is
    not modelled (every caller treats them as a set); a node list [Vec<IntervalNode>] is
    an association list from [high] to values; hash sets are lists; coordinates and
    values are N (u32, u64), without an upper bound except where stated. *)
From Verif Require Import Base Maps.

Definition memN (x : N) (l : list N) : bool := existsb (N.eqb x) l.
Definition set_add (x : N) (l : list N) : list N := if memN x l then l else x :: l.
Definition set_del (x : N) (l : list N) : list N := filter (fun y => negb (N.eqb x y)) l.

Definition nodes := list (N * list N).
(** IntervalTree, 28-35. *)
Record itree := ITree { imap : list (N * nodes); isize : N }.
Definition it_empty : itree := ITree [] 0%N.
Definition it_is_empty (t : itree) : bool := N.eqb (isize t) 0.

Definition nodes_at (t : itree) (low : N) : nodes :=
  match mget N.eqb (imap t) low with Some ns => ns | None => [] end.

(** insert, 69-81. *)
Definition it_insert (low high v : N) (t : itree) : itree :=
  let ns := nodes_at t low in
  match mget N.eqb ns high with
  | Some vals => ITree (mput N.eqb (imap t) low (mput N.eqb ns high (set_add v vals))) (isize t)
  | None => ITree (mput N.eqb (imap t) low (mput N.eqb ns high [v])) (isize t + 1)
  end.

(** query, 83-93. *)
Definition it_query (ql qh : N) (t : itree) : list (N * N * list N) :=
  flat_map (fun p => map (fun n => (fst p, fst n, snd n)) (filter (fun n => N.leb ql (fst n)) (snd p)))
           (filter (fun p => N.leb (fst p) qh) (imap t)).

(** point_values, 99-107. *)
Definition it_point (p : N) (t : itree) : option (list N) :=
  match mget N.eqb (imap t) p with Some ns => mget N.eqb ns p | None => None end.

(** visit_point_intervals, 115-136, as the list of values visited. *)
Definition it_points (ql qh : N) (t : itree) : list N :=
  if N.ltb qh ql then []
  else flat_map (fun p => flat_map (fun n => if N.eqb (fst n) (fst p) then snd n else []) (snd p))
                (filter (fun p => N.leb ql (fst p) && N.leb (fst p) qh) (imap t)).
(** point_interval_stats, 140-155: the number of values. *)
Definition it_point_count (ql qh : N) (t : itree) : nat := length (it_points ql qh t).

(** remove, 202-219: the new tree and whether something was removed. *)
Definition it_remove (low high v : N) (t : itree) : itree * bool :=
  match mget N.eqb (imap t) low with
  | None => (t, false)
  | Some ns =>
      match mget N.eqb ns high with
      | None => (t, false)
      | Some vals =>
          if memN v vals then
            match set_del v vals with
            | [] => let ns' := mdel N.eqb ns high in
                    (ITree (match ns' with [] => mdel N.eqb (imap t) low | _ => mput N.eqb (imap t) low ns' end)
                           (isize t - 1), true)
            | vals' => (ITree (mput N.eqb (imap t) low (mput N.eqb ns high vals')) (isize t), true)
            end
          else (t, false)
      end
  end.

(** entry(low, high).or_insert_with(HashSet::new).insert(v), 274-287 and
    sheet_index.rs:93-103. *)
Definition it_entry_insert (low high v : N) (t : itree) : itree :=
  let t' := match mget N.eqb (nodes_at t low) high with
            | Some _ => t
            | None => ITree (mput N.eqb (imap t) low (mput N.eqb (nodes_at t low) high [])) (isize t + 1)
            end in
  match mget N.eqb (nodes_at t' low) high with
  | Some vals => ITree (mput N.eqb (imap t') low (mput N.eqb (nodes_at t' low) high (set_add v vals))) (isize t')
  | None => t'
  end.

(** bulk_build_points, 230-263. *)
Definition bulk_one (t : itree) (item : N * list N) : itree :=
  let '(c, set) := item in
  match mget N.eqb (nodes_at t c) c with
  | Some vals => ITree (mput N.eqb (imap t) c (mput N.eqb (nodes_at t c) c (fold_right set_add vals set))) (isize t)
  | None => ITree (mput N.eqb (imap t) c (mput N.eqb (nodes_at t c) c set)) (isize t + 1)
  end.
Definition it_bulk (items : list (N * list N)) (t : itree) : itree :=
  if it_is_empty t then fold_left bulk_one items t
  else fold_left (fun t item => fold_left (fun t v => it_insert (fst item) (fst item) v t) (snd item) t) items t.

(** Operations on the index. *)
Inductive iop :=
| IInsert (low high v : N)
| IRemove (low high v : N)
| IEntry (low high v : N)
| IBulk (items : list (N * list N)).
Definition istep (o : iop) (t : itree) : itree :=
  match o with
  | IInsert l h v => it_insert l h v t
  | IRemove l h v => fst (it_remove l h v t)
  | IEntry l h v => it_entry_insert l h v t
  | IBulk items => it_bulk items t
  end.
Definition irun (os : list iop) (t : itree) : itree := fold_left (fun t o => istep o t) os t.

(** SheetIndex, sheet_index.rs:49-77. *)
Record sindex := SIndex { members : list N; rowt : itree; colt : itree }.
Definition si_empty : sindex := SIndex [] it_empty it_empty.
Definition pos : Type := (N * N)%type.

(** add_vertex, 84-104. *)
Definition si_add (p : pos) (v : N) (x : sindex) : sindex :=
  if memN v (members x) then x
  else SIndex (v :: members x) (it_entry_insert (fst p) (fst p) v (rowt x)) (it_entry_insert (snd p) (snd p) v (colt x)).

(** add_vertices_batch, 107-146. *)
Definition group_add (m : list (N * list N)) (k v : N) : list (N * list N) :=
  mput N.eqb m k (set_add v (match mget N.eqb m k with Some l => l | None => [] end)).
Definition batch_one (acc : list N * list (N * list N) * list (N * list N)) (item : pos * N) :=
  let '(mem, rm, cm) := acc in
  let '(p, v) := item in
  if memN v mem then acc else (v :: mem, group_add rm (fst p) v, group_add cm (snd p) v).
Definition si_batch (items : list (pos * N)) (x : sindex) : sindex :=
  match items with
  | [] => x
  | _ =>
      if it_is_empty (rowt x) && it_is_empty (colt x) then
        let '(mem, rm, cm) := fold_left batch_one items (members x, [], []) in
        SIndex mem (it_bulk rm (rowt x)) (it_bulk cm (colt x))
      else fold_left (fun x item => si_add (fst item) (snd item) x) items x
  end.

(** remove_vertex and update_vertex, 152-173. *)
Definition si_remove (p : pos) (v : N) (x : sindex) : sindex :=
  if memN v (members x)
  then SIndex (set_del v (members x)) (fst (it_remove (fst p) (fst p) v (rowt x))) (fst (it_remove (snd p) (snd p) v (colt x)))
  else x.
Definition si_update (old new : pos) (v : N) (x : sindex) : sindex := si_add new v (si_remove old v x).

(** vertices_in_row_range, vertices_in_col_range, 223-242. *)
Definition in_rows (a b : N) (x : sindex) : list N := nodup N.eq_dec (it_points a b (rowt x)).
Definition in_cols (a b : N) (x : sindex) : list N := nodup N.eq_dec (it_points a b (colt x)).

(** vertices_in_rect, 249-310. *)
Definition in_rect (r0 r1 c0 c1 : N) (x : sindex) : list N :=
  if N.ltb r1 r0 || N.ltb c1 c0 then []
  else if N.eqb r0 r1 && N.eqb c0 c1 then
    match it_point r0 (rowt x), it_point c0 (colt x) with
    | Some rv, Some cv =>
        if (length rv <=? length cv)%nat then filter (fun v => memN v cv) rv else filter (fun v => memN v rv) cv
    | _, _ => []
    end
  else if (it_point_count r0 r1 (rowt x) <=? it_point_count c0 c1 (colt x))%nat
       then let cand := in_rows r0 r1 x in filter (fun v => memN v cand) (it_points c0 c1 (colt x))
       else let cand := in_cols c0 c1 x in filter (fun v => memN v cand) (it_points r0 r1 (rowt x)).

Inductive sop :=
| SAdd (p : pos) (v : N)
| SBatch (items : list (pos * N))
| SRemove (p : pos) (v : N)
| SMove (old new : pos) (v : N).
Definition sstep (o : sop) (x : sindex) : sindex :=
  match o with
  | SAdd p v => si_add p v x
  | SBatch items => si_batch items x
  | SRemove p v => si_remove p v x
  | SMove old new v => si_update old new v x
  end.
Definition srun (os : list sop) (x : sindex) : sindex := fold_left (fun x o => sstep o x) os x.

(** RegionLockManager, spill.rs:50-78. *)
Record region := Region { rsheet : N; rs : N; re : N; cs : N; ce : N }.
Record lock := Lock { lid : N; lowner : N; lregion : region }.
Record locks := Locks { next_id : N; row_trees : list (N * itree); col_trees : list (N * itree); held : list (N * lock) }.
Definition locks_new : locks := Locks 0 [] [] [].
Definition tree_at (m : list (N * itree)) (sheet : N) : itree :=
  match mget N.eqb m sheet with Some t => t | None => it_empty end.
Definition ids_of (q : list (N * N * list N)) : list N := flat_map snd q.

Definition MAX64 : N := 18446744073709551616.
(** reserve, 80-117: the lock id, or None for #SPILL!. *)
Definition reserve (r : region) (owner : N) (m : locks) : locks * option N :=
  if N.ltb (re r) (rs r) || N.ltb (ce r) (cs r) then (m, Some 0%N)
  else
    let rt := tree_at (row_trees m) (rsheet r) in
    let ct := tree_at (col_trees m) (rsheet r) in
    let m0 := Locks (next_id m) (mput N.eqb (row_trees m) (rsheet r) rt) (mput N.eqb (col_trees m) (rsheet r) ct) (held m) in
    let row_ids := ids_of (it_query (rs r) (re r) rt) in
    let conflict := match row_ids with
                    | [] => false
                    | _ => let col_ids := ids_of (it_query (cs r) (ce r) ct) in
                           existsb (fun i => memN i col_ids) row_ids
                    end in
    if conflict then (m0, None)
    else
      let id := N.max ((next_id m + 1) mod MAX64) 1%N in
      (Locks id (mput N.eqb (row_trees m) (rsheet r) (it_insert (rs r) (re r) id rt))
                (mput N.eqb (col_trees m) (rsheet r) (it_insert (cs r) (ce r) id ct))
                (mput N.eqb (held m) id (Lock id owner r)), Some id).

(** release, 119-131. *)
Definition release (id : N) (m : locks) : locks :=
  if N.eqb id 0 then m
  else match mget N.eqb (held m) id with
       | None => m
       | Some l =>
           let sh := rsheet (lregion l) in
           let drop lo hi trees := match mget N.eqb trees sh with
                                   | Some t => mput N.eqb trees sh (fst (it_remove lo hi (lid l) t))
                                   | None => trees
                                   end in
           Locks (next_id m) (drop (rs (lregion l)) (re (lregion l)) (row_trees m))
                 (drop (cs (lregion l)) (ce (lregion l)) (col_trees m)) (mdel N.eqb (held m) id)
       end.

Inductive lop := LReserve (r : region) (owner : N) | LRelease (id : N).
Definition lstep (o : lop) (m : locks) : locks :=
  match o with
  | LReserve r w => fst (reserve r w m)
  | LRelease id => release id m
  end.
Definition lrun (os : list lop) (m : locks) : locks := fold_left (fun m o => lstep o m) os m.
