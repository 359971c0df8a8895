(** Finding the formulas inside a range, with the sheet index, across structural edits.
    Models crates/formualizer-eval/src/engine/graph/mod.rs:2859-2899 (get_or_create_vertex),
    crates/formualizer-eval/src/engine/graph/editor/vertex_editor.rs:651-806 (remove_vertex,
    move_vertex), 909-980 (insert_rows) and the same for columns and deletions, and
    crates/formualizer-eval/src/engine/virtual_deps.rs:333-379 (get_virtual_deps).

    Simplifications: one sheet in the default Eager index mode; a vertex is its id and its
    position in the store; a removed vertex (tombstoned, kind Empty, so never reported)
    leaves the list; the open bounds of the range are already resolved; [dirty] says which
    formulas need recalculation. *)
From Verif Require Import Base Maps IntervalModel.

Record gsheet := GSheet { gat : list (N * pos); gidx : sindex }.
Definition g_empty : gsheet := GSheet [] si_empty.

Inductive gop :=
| GNew (p : pos) (v : N)
| GInsertRows (before count : N)
| GInsertCols (before count : N)
| GDeleteRows (start count : N)
| GDeleteCols (start count : N).

Definition shift_in (before count x : N) : N := if N.leb before x then x + count else x.
(** None for a deleted coordinate. *)
Definition shift_out (start count x : N) : option N :=
  if N.ltb x start then Some x else if N.ltb x (start + count) then None else Some (x - count)%N.

Definition gstep (o : gop) (g : gsheet) : gsheet :=
  match o with
  | GNew p v => GSheet (mput N.eqb (gat g) v p) (si_add p v (gidx g))
  | GInsertRows b c => GSheet (map (fun e => (fst e, (shift_in b c (fst (snd e)), snd (snd e)))) (gat g)) (gidx g)
  | GInsertCols b c => GSheet (map (fun e => (fst e, (fst (snd e), shift_in b c (snd (snd e))))) (gat g)) (gidx g)
  | GDeleteRows s c =>
      GSheet (flat_map (fun e => match shift_out s c (fst (snd e)) with
                                 | Some r => [(fst e, (r, snd (snd e)))]
                                 | None => [] end) (gat g)) (gidx g)
  | GDeleteCols s c =>
      GSheet (flat_map (fun e => match shift_out s c (snd (snd e)) with
                                 | Some k => [(fst e, (fst (snd e), k))]
                                 | None => [] end) (gat g)) (gidx g)
  end.
Definition grun (os : list gop) (g : gsheet) : gsheet := fold_left (fun g o => gstep o g) os g.

(** get_virtual_deps for one resolved range of the formula [self]. *)
Definition virtual_deps (dirty : N -> bool) (self r0 r1 c0 c1 : N) (g : gsheet) : list N :=
  filter (fun u => match mget N.eqb (gat g) u with
                   | Some (r, _) => N.leb r0 r && N.leb r r1 && dirty u && negb (N.eqb u self)
                   | None => false
                   end) (in_cols c0 c1 (gidx g)).
