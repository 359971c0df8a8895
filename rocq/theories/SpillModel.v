(** Dynamic-array spills: ownership and the commit with its rollback.
    Models crates/formualizer-eval/src/engine/graph/mod.rs:3343-3706
    (plan_spill_region_allowing_formula_overwrite, commit_spill_region_atomic_with_fault,
    clear_spill_region_bulk), graph/mod.rs:1849-1925 (set_cell_value), 3331-3340
    (update_vertex_value), graph/editor/vertex_editor.rs:1490-1530 (edits through the
    editor clear the spill of the edited anchor) and engine/eval.rs:16751-16785 (direct
    edits), 25510-25740, 25820-25935 (effects of a formula result).

    Simplifications: a vertex is named by its cell (one vertex per cell), so an anchor is a
    cell; a value is [Empty] or a code for any other (normalised) literal, a formula is a
    code; the graph's value cache is on; dirty marks, edges, formats, deltas, overlays and
    the resource budget are left out; spill_cells_by_sheet is one flat map; rows and columns
    are nat without an upper bound (plan_array_effects checks the bounds beforehand); the
    result of set_cell_value, ignored by the code, is always success. *)
From Verif Require Import Base Maps ListSort.

Record cell := Cell { sheet : nat; row : nat; col : nat }.
Definition cell_eqb (a b : cell) : bool := (sheet a =? sheet b) && (row a =? row b) && (col a =? col b).
Inductive val := Empty | Val (code : nat).
(** A vertex of the grid: its formula, if any, and its cached value. *)
Record entry := Entry { formula : option nat; value : option val }.
Record state := State {
  content : list (cell * entry);      (* cell_to_vertex, kinds, vertex_formulas, vertex_values *)
  owner : list (cell * cell);         (* spill_cell_to_anchor *)
  listed : list (cell * list cell);   (* spill_anchor_to_cells *)
  by_sheet : list (cell * cell)       (* spill_cells_by_sheet *)
}.
Definition with_content (st : state) c := State c (owner st) (listed st) (by_sheet st).
Definition memc (c : cell) (l : list cell) : bool := existsb (cell_eqb c) l.
Definition get {V} := @mget cell V cell_eqb.
Definition put {V} := @mput cell V cell_eqb.
Definition del {V} := @mdel cell V cell_eqb.

(** get_cell_value with unwrap_or(Empty) *)
Definition read (st : state) (c : cell) : val :=
  match get (content st) c with Some (Entry _ (Some v)) => v | _ => Empty end.
Definition formula_at (st : state) (c : cell) : option nat :=
  match get (content st) c with Some e => formula e | None => None end.
(** set_cell_value: a plain value cell from now on, 1849-1925. *)
Definition set_value (st : state) (c : cell) (v : val) : state :=
  with_content st (put (content st) c (Entry None (Some v))).
(** update_vertex_value: the formula stays, 3331-3340. *)
Definition update_value (st : state) (c : cell) (v : val) : state :=
  with_content st (put (content st) c (Entry (formula_at st c) (Some v))).
(** set_cell_formula_with_plan drops the cached value, 2295. *)
Definition set_formula (st : state) (c : cell) (f : nat) : state :=
  with_content st (put (content st) c (Entry (Some f) None)).

Inductive block := BySpill | ByFormula | ByValue.
(** plan_spill_region_allowing_formula_overwrite, 3355-3448; [allow]: overwritable formulas. *)
Fixpoint plan (st : state) (anchor : cell) (targets : list cell) (allow : list cell) : option block :=
  match targets with
  | [] => None
  | c :: rest =>
      match get (owner st) c with
      | Some a => if cell_eqb a anchor then plan st anchor rest allow else Some BySpill
      | None =>
          match get (content st) c with
          | Some e =>
              if cell_eqb c anchor then plan st anchor rest allow
              else match formula e with
                   | Some _ => if memc c allow then plan st anchor rest allow else Some ByFormula
                   | None => match value e with
                             | Some (Val _) => Some ByValue
                             | _ => plan st anchor rest allow
                             end
                   end
          | None => plan st anchor rest allow
          end
      end
  end.

(** The writes, row-major from the first target, 3517-3532. *)
Fixpoint row_ops (s r c : nat) (vs : list val) : list (cell * val) :=
  match vs with [] => [] | v :: vs' => (Cell s r c, v) :: row_ops s r (S c) vs' end.
Fixpoint rect_ops (s r c : nat) (rows : list (list val)) : list (cell * val) :=
  match rows with [] => [] | vs :: rows' => row_ops s r c vs ++ rect_ops s (S r) c rows' end.
Definition cells_of (st : state) (anchor : cell) : list cell :=
  match get (listed st) anchor with Some l => l | None => [] end.
Definition dropped (st : state) (anchor : cell) (targets : list cell) : list cell :=
  filter (fun c => negb (memc c targets)) (cells_of st anchor).
(** The operation list, 3504-3532. *)
Definition ops_of (st : state) (anchor : cell) (targets : list cell) (rows : list (list val)) : list (cell * val) :=
  map (fun c => (c, Empty)) (dropped st anchor targets) ++
  match targets with [] => [] | f :: _ => rect_ops (sheet f) (row f) (col f) rows end.
(** One write, 3574-3579. *)
Definition write (anchor : cell) (st : state) (op : cell * val) : state :=
  if cell_eqb (fst op) anchor then update_value st anchor (snd op) else set_value st (fst op) (snd op).
(** Ownership after success, 3582-3607. *)
Definition take (st : state) (anchor : cell) (targets : list cell) : state :=
  let gone := dropped st anchor targets in
  let o := fold_left (fun m c => del m c) gone (owner st) in
  let b := fold_left (fun m c => del m c) gone (by_sheet st) in
  State (content st) (fold_left (fun m c => put m c anchor) targets o)
        (put (listed st) anchor targets) (fold_left (fun m c => put m c anchor) targets b).
(** commit_spill_region_atomic_with_fault, 3456-3609.  The rollback writes the captured old
    values of the applied operations back, last first. *)
Definition commit (st : state) (anchor : cell) (targets : list cell) (rows : list (list val)) (fault : option nat) : state * bool :=
  let ops := ops_of st anchor targets rows in
  match fault with
  | Some n =>
      if n <? length ops then
        let done := fold_left (write anchor) (firstn n ops) st in
        let olds := map (fun op => (fst op, read st (fst op))) (firstn n ops) in
        (fold_left (write anchor) (rev olds) done, false)
      else (take (fold_left (write anchor) ops st) anchor targets, true)
  | None => (take (fold_left (write anchor) ops st) anchor targets, true)
  end.

(** clear_spill_region_bulk, 3645-3706 *)
Definition clear_child (anchor : cell) (st : state) (c : cell) : state :=
  if cell_eqb c anchor then st
  else match get (content st) c with
       | Some _ => with_content st (put (content st) c (Entry None (Some Empty)))
       | None => st
       end.
Definition clear (st : state) (anchor : cell) : state :=
  match get (listed st) anchor with
  | None => st
  | Some cells =>
      let st1 := State (content st) (fold_left (fun m c => del m c) cells (owner st))
                       (del (listed st) anchor) (fold_left (fun m c => del m c) cells (by_sheet st)) in
      fold_left (clear_child anchor) cells st1
  end.

(** The target rectangle of a result, eval.rs:25603-25613. *)
Definition targets_of (anchor : cell) (h w : nat) : list cell :=
  flat_map (fun r => map (fun c => Cell (sheet anchor) (row anchor + r) (col anchor + c)) (seq 0 w)) (seq 0 h).
Definition width (rows : list (list val)) : nat := match rows with [] => 0 | r :: _ => length r end.
(** An array result: plan, then clear the previous spill and commit (planning again); a
    blocked spill is cleared and the anchor shows an error, 25570-25740, 23199-23295. *)
Definition spill_error : val := Val 0.
Definition array_result (st : state) (anchor : cell) (rows : list (list val)) : state :=
  let t := targets_of anchor (length rows) (width rows) in
  match plan st anchor t [] with
  | Some _ => update_value (clear st anchor) anchor spill_error
  | None =>
      let st1 := match cells_of st anchor with [] => st | _ => clear st anchor end in
      match plan st1 anchor t [] with
      | Some _ => st1
      | None =>
          update_value (fst (commit st1 anchor t rows None)) anchor
            (match rows with (v :: _) :: _ => v | _ => Empty end)
      end
  end.
(** A scalar or error result, 25549-25567. *)
Definition scalar_result (st : state) (anchor : cell) (v : val) : state :=
  update_value (match cells_of st anchor with [] => st | _ => clear st anchor end) anchor v.

(** Edits through the editor (change log on) clear the spill of the edited anchor first,
    vertex_editor.rs:1499-1517, 1620-1637 (an empty list is left alone, 306-309);
    Engine::set_cell_value and set_cell_formula do not, eval.rs:16751, 17023. *)
Definition editor_set_value (st : state) (c : cell) (v : val) : state :=
  set_value (match cells_of st c with [] => st | _ => clear st c end) c v.
Definition editor_set_formula (st : state) (c : cell) (f : nat) : state :=
  set_formula (match cells_of st c with [] => st | _ => clear st c end) c f.
Definition direct_set_value (st : state) (c : cell) (v : val) : state := set_value st c v.
Definition direct_set_formula (st : state) (c : cell) (f : nat) : state := set_formula st c f.
