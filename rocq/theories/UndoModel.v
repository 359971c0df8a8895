(** The logged editing path of a workbook: edits, the change log, undo and redo.

    Sources: crates/formualizer-eval/src/engine/graph/editor/change_log.rs:170-390,
    crates/formualizer-eval/src/engine/graph/editor/undo_engine.rs:52-200,
    crates/formualizer-eval/src/engine/graph/editor/vertex_editor.rs:430-475,640-740,1479-1680,
    crates/formualizer-eval/src/engine/graph/mod.rs:1848-1925,2140-2310,4106-4130,
    crates/formualizer-eval/src/engine/eval.rs:4872-4942,5048-5120,5228-5328,11658-11745,12136-12178,17191-17390,
    crates/formualizer-workbook/src/workbook.rs:1605-1671,1975-1998,2148-2308,2345-2352.

    Simplifications: cells, values, vertex ids and group ids are numbers, value 0 is the
    empty value; a formula is an identity with the list of cells it refers to, and
    formula text and parsed formula are identified (no parse errors, no ranges, names or
    tables); no spills, formats, row visibility, formula plane or admission budgets;
    event metadata and sequence numbers are left out; the change log is enabled. *)
From Verif Require Import Base.

Definition cell := N.
Definition value := N.
Definition vid := N.
Definition vempty : value := 0%N.
Definition formula : Type := (N * list cell)%type.
Definition refs (f : formula) : list cell := snd f.

Definition upd {A} (m : N -> A) (k : N) (a : A) : N -> A := fun k' => if N.eqb k' k then a else m k'.

(** *** The dependency graph (graph/mod.rs): which vertex a cell has, which formula a
    vertex has, and the edges dependent -> dependency.  The value cache is always off
    (graph/mod.rs:1213), so values are not in the graph. *)
Record graph := { vmap : cell -> option vid; vform : vid -> option formula; edge : vid -> vid -> bool; nextv : vid }.

(** get_or_create_vertex. *)
Definition get_or_create (c : cell) (g : graph) : graph * vid :=
  match vmap g c with
  | Some v => (g, v)
  | None => ({| vmap := upd (vmap g) c (Some (nextv g)); vform := upd (vform g) (nextv g) None;
                edge := edge g; nextv := N.succ (nextv g) |}, nextv g)
  end.

(** remove_dependent_edges (outgoing edges of [v]). *)
Definition drop_out (v : vid) (e : vid -> vid -> bool) : vid -> vid -> bool :=
  fun a b => (e a b && negb (N.eqb a v))%bool.
Definition drop_all (v : vid) (e : vid -> vid -> bool) : vid -> vid -> bool :=
  fun a b => (e a b && negb (N.eqb a v) && negb (N.eqb b v))%bool.
Definition add_out (v : vid) (ds : list vid) (e : vid -> vid -> bool) : vid -> vid -> bool :=
  fun a b => (e a b || (N.eqb a v && existsb (N.eqb b) ds))%bool.

(** DependencyGraph::set_cell_value (mod.rs:1849-1925): the formula of an existing vertex
    is dropped together with its outgoing edges. *)
Definition g_set_value (c : cell) (g : graph) : graph :=
  let (g1, v) := get_or_create c g in
  match vform g1 v with
  | None => g1
  | Some _ => {| vmap := vmap g1; vform := upd (vform g1) v None; edge := drop_out v (edge g1); nextv := nextv g1 |}
  end.

Fixpoint create_all (l : list cell) (g : graph) : graph * list vid :=
  match l with
  | [] => (g, [])
  | c :: l' => let (g1, v) := get_or_create c g in let (g2, vs) := create_all l' g1 in (g2, v :: vs)
  end.

(** DependencyGraph::set_cell_formula_with_plan (mod.rs:2140-2310).  [iter]: the cycle
    policy accepts self-dependency; otherwise a self-reference is an error, after the
    placeholder vertices have been created.  The boolean is "Ok". *)
Definition g_set_formula (iter : bool) (c : cell) (f : formula) (g : graph) : graph * bool :=
  let (g1, ds) := create_all (refs f) g in
  let (g2, v) := get_or_create c g1 in
  if (existsb (N.eqb v) ds && negb iter)%bool then (g2, false)
  else ({| vmap := vmap g2; vform := upd (vform g2) v (Some f);
           edge := add_out v ds (drop_out v (edge g2)); nextv := nextv g2 |}, true).

(** VertexEditor::remove_vertex on the vertex of a cell (vertex_editor.rs:640-740): the
    cell mapping, the formula and all edges, outgoing and incoming, are removed. *)
Definition g_remove (c : cell) (g : graph) : graph :=
  match vmap g c with
  | None => g
  | Some v => {| vmap := upd (vmap g) c None; vform := upd (vform g) v None; edge := drop_all v (edge g); nextv := nextv g |}
  end.

Definition form (g : graph) (c : cell) : option formula :=
  match vmap g c with None => None | Some v => vform g v end.

(** *** Events (change_log.rs:20-167). *)
Inductive event :=
| ESetValue (c : cell) (old_value : option value) (old_formula : option formula) (new : value)
| ESetFormula (c : cell) (old_value : option value) (old_formula : option formula) (new : formula)
| EStaged (c : cell) (old new : option formula)
| EStart
| EEnd.

(** *** The change log. *)
Record clog := { events : list (event * option N); depth : nat; gstack : list N; nextg : N; cap : option nat }.
Definition log_empty : clog := {| events := []; depth := 0; gstack := []; nextg := 1; cap := None |}.

(** enforce_cap (change_log.rs:214-231). *)
Definition enforce_cap (l : clog) : clog :=
  match cap l with
  | None => l
  | Some 0 => {| events := []; depth := 0; gstack := []; nextg := nextg l; cap := cap l |}
  | Some m => if length (events l) <=? m then l
              else {| events := skipn (length (events l) - m) (events l); depth := depth l; gstack := gstack l; nextg := nextg l; cap := cap l |}
  end.

(** record / record_with_meta (233-259); the group stack's top is the head of the list. *)
Definition record (e : event) (l : clog) : clog :=
  enforce_cap {| events := events l ++ [(e, hd_error (gstack l))]; depth := depth l; gstack := gstack l; nextg := nextg l; cap := cap l |}.

(** begin_compound (262-281). *)
Definition begin_compound (l : clog) : clog :=
  record EStart
    (if Nat.eqb (depth l) 0 then {| events := events l; depth := 1; gstack := nextg l :: gstack l; nextg := N.succ (nextg l); cap := cap l |}
     else {| events := events l; depth := S (depth l);
             gstack := match gstack l with [] => [] | g :: gs => g :: g :: gs end; nextg := nextg l; cap := cap l |}).

(** end_compound (284-294).  The decrement cannot underflow: with a cap of 0 the depth is
    always 0, since every record clears it. *)
Definition end_compound (l : clog) : clog :=
  if Nat.eqb (depth l) 0 then l
  else let l1 := record EEnd l in
       {| events := events l1; depth := pred (depth l1); gstack := tl (gstack l1); nextg := nextg l1; cap := cap l1 |}.

Definition set_cap (m : option nat) (l : clog) : clog :=
  enforce_cap {| events := events l; depth := depth l; gstack := gstack l; nextg := nextg l; cap := m |}.

Definition truncate (n : nat) (l : clog) : clog :=
  {| events := firstn n (events l); depth := depth l; gstack := gstack l; nextg := nextg l; cap := cap l |}.

(** last_group_indices (371-387). *)
Fixpoint last_gid (l : list (event * option N)) : option N :=
  match l with
  | [] => None
  | (_, g) :: l' => match last_gid l' with Some x => Some x | None => g end
  end.
Definition same_gid (g : N) (o : option N) : bool := match o with Some x => N.eqb x g | None => false end.
Fixpoint indices_of (g : N) (i : nat) (l : list (event * option N)) : list nat :=
  match l with
  | [] => []
  | (_, o) :: l' => if same_gid g o then i :: indices_of g (S i) l' else indices_of g (S i) l'
  end.
Definition last_single (l : list (event * option N)) : list nat :=
  match length l with 0 => [] | S n => [n] end.
Definition last_group_indices (l : list (event * option N)) : list nat :=
  match last_gid l with
  | None => last_single l
  | Some g => match indices_of g 0 l with [] => last_single l | is => is end
  end.

(** *** The workbook. [delta] is the overlay of user values, [comp] the overlay of
    computed values, [base] the loaded column data. *)
Record st := {
  gr : graph;
  staged : cell -> option formula;
  delta : cell -> option value;
  comp : cell -> option value;
  base : cell -> value;
  log : clog;
  undone : list (list event)
}.
Definition set_gr g s := {| gr := g; staged := staged s; delta := delta s; comp := comp s; base := base s; log := log s; undone := undone s |}.
Definition set_staged x s := {| gr := gr s; staged := x; delta := delta s; comp := comp s; base := base s; log := log s; undone := undone s |}.
Definition set_delta x s := {| gr := gr s; staged := staged s; delta := x; comp := comp s; base := base s; log := log s; undone := undone s |}.
Definition set_log x s := {| gr := gr s; staged := staged s; delta := delta s; comp := comp s; base := base s; log := x; undone := undone s |}.
Definition set_undone x s := {| gr := gr s; staged := staged s; delta := delta s; comp := comp s; base := base s; log := log s; undone := x |}.

(** ArrowSheet::get_cell_value: user overlay over computed overlay over base. *)
Definition read (s : st) (c : cell) : value :=
  match delta s c with Some v => v | None => match comp s c with Some v => v | None => base s c end end.
(** Engine::get_cell_value: the empty value is absent. *)
Definition cell_value (s : st) (c : cell) : option value := if N.eqb (read s c) vempty then None else Some (read s c).
(** Engine::get_cell(..).is_some(): there is a vertex or a value. *)
Definition cell_present (s : st) (c : cell) : bool :=
  match vmap (gr s) c with Some _ => true | None => match cell_value s c with Some _ => true | None => false end end.

(** Configuration: [eager] is [!defer_graph_building]. *)
Record cfg := { eager : bool; iter : bool }.

(** mirror_forward_change_to_arrow / mirror_inverse_change_to_arrow (eval.rs:5248-5328). *)
Definition fwd_delta (e : event) (d : cell -> option value) : cell -> option value :=
  match e with
  | ESetValue c _ _ v => upd d c (Some v)
  | ESetFormula c _ _ _ => upd d c None
  | _ => d
  end.
Definition or_empty (o : option value) : value := match o with Some v => v | None => vempty end.
Definition inv_delta (e : event) (d : cell -> option value) : cell -> option value :=
  match e with
  | ESetValue c ov None _ | ESetFormula c ov None _ => upd d c (Some (or_empty ov))
  | ESetValue c _ (Some _) _ | ESetFormula c _ (Some _) _ => upd d c None
  | _ => d
  end.

(** apply_staged_formula_cell, forward and inverse. *)
Definition fwd_staged (e : event) (s : cell -> option formula) := match e with EStaged c _ n => upd s c n | _ => s end.
Definition inv_staged (e : event) (s : cell -> option formula) := match e with EStaged c o _ => upd s c o | _ => s end.

(** VertexEditor::apply_inverse (430-475) and the redo arms (undo_engine.rs:117-124). *)
Definition inv_graph (k : cfg) (e : event) (g : graph) : graph :=
  match e with
  | ESetValue c ov of _ | ESetFormula c ov of _ =>
      match of with
      | Some f => fst (g_set_formula (iter k) c f g)
      | None => match ov with Some _ => g_set_value c g | None => g_remove c g end
      end
  | _ => g
  end.
Definition fwd_graph (k : cfg) (e : event) (g : graph) : graph :=
  match e with
  | ESetValue c _ _ _ => g_set_value c g
  | ESetFormula c _ _ f => fst (g_set_formula (iter k) c f g)
  | _ => g
  end.

(** Engine::edit_with_logger (eval.rs:4872-4942): run the editor, then mirror the events
    that lie beyond the log length read at the start. *)
Definition edit_with_logger (f : st -> st) (s : st) : st :=
  let n := length (events (log s)) in
  let s1 := f s in
  let new_events := map fst (skipn n (events (log s1))) in
  set_delta (fold_left (fun d e => fwd_delta e d) new_events (delta s1)) s1.

(** VertexEditor::set_cell_value_with_old_state, set_cell_formula_with_old_state: the old
    formula is the graph's, the old value the one supplied by the caller; an error from
    the graph is swallowed and nothing is logged. *)
Definition ed_set_value (c : cell) (v : value) (old : option value) (s : st) : st :=
  let of := form (gr s) c in
  set_log (record (ESetValue c old of v) (log s)) (set_gr (g_set_value c (gr s)) s).
Definition ed_set_formula (k : cfg) (c : cell) (f : formula) (old : option value) (s : st) : st :=
  let of := form (gr s) c in
  let (g, ok) := g_set_formula (iter k) c f (gr s) in
  let s1 := set_gr g s in
  if ok then set_log (record (ESetFormula c old of f) (log s1)) s1 else s1.

Definition formula_eqb (a b : formula) : bool :=
  (N.eqb (fst a) (fst b) && (fix eq (x y : list N) := match x, y with
     | [], [] => true | p :: x', q :: y' => (N.eqb p q && eq x' y')%bool | _, _ => false end) (snd a) (snd b))%bool.
Definition staged_eqb (a b : option formula) : bool :=
  match a, b with None, None => true | Some x, Some y => formula_eqb x y | _, _ => false end.

(** record_staged_formula_cell_change (workbook.rs:1637-1660). *)
Definition record_staged (c : cell) (before after : option formula) (s : st) : st :=
  if staged_eqb before after then s else set_log (record (EStaged c before after) (log s)) s.

(** Workbook::set_value (workbook.rs:2148-2203, change log on). *)
Definition set_value (c : cell) (v : value) (s : st) : st :=
  let before := staged s c in
  let s1 := edit_with_logger (ed_set_value c v (cell_value s c)) s in
  let s2 := set_delta (upd (delta s1) c (Some v)) s1 in
  let s3 := set_staged (upd (staged s2) c None) s2 in
  record_staged c before None s3.

(** Workbook::set_formula (workbook.rs:2205-2308, change log on): in deferred mode an
    absent cell gets a staged formula; in eager mode no old value is supplied. *)
Definition set_formula (k : cfg) (c : cell) (f : formula) (s : st) : st :=
  let before := staged s c in
  if eager k then
    let s1 := edit_with_logger (ed_set_formula k c f None) s in
    record_staged c before None (set_staged (upd (staged s1) c None) s1)
  else if cell_present s c then
    let s1 := edit_with_logger (ed_set_formula k c f (cell_value s c)) s in
    record_staged c before None (set_staged (upd (staged s1) c None) s1)
  else record_staged c before (Some f) (set_staged (upd (staged s) c (Some f)) s).

(** UndoEngine::undo with Engine::undo_logged: three passes in reverse order, over the
    graph, the staged formulas and the user overlay.  [None] is the error
    "Non-tail undo not supported". *)
Definition batch_of (l : list (event * option N)) (is : list nat) : list event :=
  map (fun i => fst (nth i l (EStart, None))) is.
Definition undo (k : cfg) (s : st) : option st :=
  let l := events (log s) in
  match last_group_indices l with
  | [] => Some s
  | (i0 :: _) as is =>
      let batch := batch_of l is in
      if Nat.eqb (S (list_max is)) (length l) then
        let n := fold_right Nat.min i0 is in
        Some {| gr := fold_right (inv_graph k) (gr s) batch;
                staged := fold_right inv_staged (staged s) batch;
                delta := fold_right inv_delta (delta s) batch;
                comp := comp s; base := base s;
                log := truncate n (log s);
                undone := batch :: undone s |}
      else None
  end.

(** UndoEngine::redo with Engine::redo_logged. *)
Definition redo (k : cfg) (s : st) : st :=
  match undone s with
  | [] => s
  | batch :: rest =>
      {| gr := fold_left (fun g e => fwd_graph k e g) batch (gr s);
         staged := fold_left (fun x e => fwd_staged e x) batch (staged s);
         delta := fold_left (fun d e => fwd_delta e d) batch (delta s);
         comp := comp s; base := base s;
         log := end_compound (fold_left (fun l e => record e l) batch (begin_compound (log s)));
         undone := rest |}
  end.

(** Evaluation: every staged formula is first moved into the graph (build_graph_all; a
    loader path, it does not check self-reference and does not log), then the computed
    overlay of formula cells gets the values [vals].  The staged cells are listed in
    [order]. *)
Definition build (order : list cell) (s : st) : st :=
  let s1 := fold_left (fun s c => match staged s c with
                                  | None => s
                                  | Some f => set_staged (upd (staged s) c None) (set_gr (fst (g_set_formula true c f (gr s))) s)
                                  end) order s in s1.
Definition evaluate (order : list cell) (vals : cell -> value) (s : st) : st :=
  let s1 := build order s in
  {| gr := gr s1; staged := staged s1; delta := delta s1;
     comp := fun c => match form (gr s1) c with Some _ => Some (vals c) | None => comp s1 c end;
     base := base s1; log := log s1; undone := undone s1 |}.

(** Operations and histories. *)
Inductive op :=
| SetValue (c : cell) (v : value)
| SetFormula (c : cell) (f : formula)
| Begin
| End
| Undo
| Redo
| Evaluate (order : list cell) (vals : cell -> value)
| SetCap (m : option nat).

(** [None]: the operation reported an error (only undo does); the state is unchanged. *)
Definition step (k : cfg) (o : op) (s : st) : option st :=
  match o with
  | SetValue c v => Some (set_value c v s)
  | SetFormula c f => Some (set_formula k c f s)
  | Begin => Some (set_log (begin_compound (log s)) s)
  | End => Some (set_log (end_compound (log s)) s)
  | Undo => undo k s
  | Redo => Some (redo k s)
  | Evaluate order vals => Some (evaluate order vals s)
  | SetCap m => Some (set_log (set_cap m (log s)) s)
  end.
Fixpoint run (k : cfg) (os : list op) (s : st) : option st :=
  match os with [] => Some s | o :: os' => match step k o s with None => None | Some s' => run k os' s' end end.

(** A loaded workbook: base values, no formulas, empty log. *)
Definition graph_empty : graph := {| vmap := fun _ => None; vform := fun _ => None; edge := fun _ _ => false; nextv := 1%N |}.
Definition loaded (b : cell -> value) : st :=
  {| gr := graph_empty; staged := fun _ => None; delta := fun _ => None; comp := fun _ => None; base := b; log := log_empty; undone := [] |}.

(** What the user sees in a cell: Workbook::get_formula (staged text first), else the
    value. *)
Inductive shown := ShowF (f : formula) | ShowV (v : value).
Definition show (s : st) (c : cell) : shown :=
  match staged s c with
  | Some f => ShowF f
  | None => match form (gr s) c with Some f => ShowF f | None => ShowV (read s c) end
  end.
(** The formula cells that an edit of [c] marks dirty directly (mark_dirty visits the
    incoming edges of the vertex). *)
Definition dependent (s : st) (d c : cell) : bool :=
  match vmap (gr s) d, vmap (gr s) c with Some a, Some b => edge (gr s) a b | _, _ => false end.
