(* A sheet of the column store: columns cut into row chunks, dense or sparse,
   with two overlays over every chunk; reading and writing cells, growing,
   compacting, and inserting and deleting rows and columns.
   crates/formualizer-eval/src/arrow_store/mod.rs 64-125 (FormatRuns),
   126-330 (ColumnChunk, ArrowColumn), 3551-3690 (ArrowSheet access),
   3689-3990 (reads, growth, slices), 3990-4395 (compaction), 4397-4870
   (structural edits); crates/formualizer-eval/src/engine/eval.rs
   15329-15424, 15555-15616, 16081-16134 (the engine's calls).

   Simplifications.  Everything of OvModel.  A panic is [None].  nrows is a
   number without the cast to u32; additions on usize do not saturate.  The
   base arrays are a payload of OvModel: the lanes of a chunk have the length
   of its type tags.  Error codes stand for the errors they are mapped to.
   The caches of a chunk (null lanes, lowered text, counters) and the index
   field of a column are left out, and so are the returned byte counts.
   debug_assert is not evaluated. *)
From Coq Require Import List Bool NArith ZArith.
From Verif Require Import Base Maps OvModel.
Import ListNotations.
Open Scope N_scope.

(* ---- format runs (74-125) ---- *)
Definition runs := (list N * list N)%type.
(* the loop of from_ids, 85-94 *)
Fixpoint fmt_loop (idx : N) (last : option N) (ids : list N) : runs :=
  match ids with
  | [] => ([], [])
  | id :: r =>
      let '(ends, fs) := fmt_loop (idx + 1) (Some id) r in
      match last with
      | Some l => if l =? id then (ends, fs) else (if 0 <? idx then idx :: ends else ends, id :: fs)
      | None => (if 0 <? idx then idx :: ends else ends, id :: fs)
      end
  end.
(* from_ids, 80-100 *)
Definition fmt_from (ids : list N) : option runs :=
  if forallb (fun i => i =? GENERAL) ids then None
  else let '(ends, fs) := fmt_loop 0 None ids in Some (ends ++ [lenN ids], fs).
(* get, 103-112 *)
Definition fmt_get (r : runs) (off : N) : N :=
  match nthN (snd r) (partition_point (fun e => e <=? off) (fst r)) with Some f => f | None => GENERAL end.
(* to_ids, 114-116 *)
Definition fmt_ids (r : runs) (len : N) : list N := map (fmt_get r) (rangeN 0 len).
(* slice, 118-123 *)
Definition fmt_slice (r : runs) (off len : N) : option runs := fmt_from (map (fmt_get r) (rangeN off (off + len))).

(* ---- chunks (126-330) ---- *)
Record chunk := Chunk { c_base : payload; c_fmt : option runs; c_user : overlay; c_comp : overlay }.
Definition c_len (ch : chunk) : N := lenN (p_tags (c_base ch)).
Definition pad {A} (x : A) (n : N) (l : list A) : list A := l ++ repeat x (N.to_nat n).
(* grow_len_to, 234-325 *)
Definition grow_len_to (new_len : N) (ch : chunk) : chunk :=
  let old := c_len ch in
  if new_len <=? old then ch
  else
    let n := new_len - old in
    let p := c_base ch in
    Chunk (Payload (pad (tag_u8 TEmpty) n (p_tags p)) (option_map (pad None n) (p_nums p))
                   (option_map (pad None n) (p_bools p)) (option_map (pad None n) (p_text p))
                   (option_map (pad None n) (p_errs p)))
          (match c_fmt ch with Some r => fmt_from (pad GENERAL n (fmt_ids r old)) | None => None end)
          (c_user ch) (c_comp ch).
(* make_empty_chunk, 3891-3915 *)
Definition empty_chunk (len : N) : chunk :=
  Chunk (Payload (repeat (tag_u8 TEmpty) (N.to_nat len)) None None None None) None ov_new ov_new.

(* Array::slice *)
Definition sub {A} (off len : N) (l : list A) : list A := firstn (N.to_nat len) (skipn (N.to_nat off) l).
Definition lane_slice {A} (off len : N) (l : option (list (option A))) : option (list (option A)) :=
  match l with Some a => lane (sub off len a) | None => None end.

(* ---- sheets (326-400) ---- *)
Record col := Col { k_dense : list chunk; k_sparse : list (N * chunk) }.
Record sheet := Sheet { s_cols : list col; s_rows : N; s_starts : list N; s_crows : N }.
(* the sheet that mirror_value_to_overlay and ensure_arrow_sheet create *)
Definition new_sheet (crows : N) : sheet := Sheet [] 0 [] crows.
Definition CHUNK_ROWS : N := 32768.

(* ArrowColumn::chunk *)
Definition chunk_at (k : col) (i : N) : option chunk :=
  if i <? lenN (k_dense k) then nthN (k_dense k) i else pget (k_sparse k) i.
Fixpoint update {A} (i : nat) (f : A -> A) (l : list A) : list A :=
  match l, i with
  | [], _ => []
  | x :: r, O => f x :: r
  | x :: r, S i => x :: update i f r
  end.
Definition updateN {A} (i : N) (f : A -> A) (l : list A) : list A := update (N.to_nat i) f l.
(* ArrowColumn::chunk_mut followed by a change *)
Definition change_chunk (i : N) (f : chunk -> chunk) (k : col) : col :=
  if i <? lenN (k_dense k) then Col (updateN i f (k_dense k)) (k_sparse k)
  else match pget (k_sparse k) i with
       | Some ch => Col (k_dense k) (pput (k_sparse k) i (f ch))
       | None => k
       end.
Definition set_cols (s : sheet) (ks : list col) : sheet := Sheet ks (s_rows s) (s_starts s) (s_crows s).

(* the rows of chunk i, by chunk_starts *)
Definition bound (s : sheet) (i : N) : option N :=
  match nthN (s_starts s) i with
  | None => None
  | Some st => Some ((match nthN (s_starts s) (i + 1) with Some e => e | None => s_rows s end) - st)
  end.

(* chunk_of_row, 3867-3878: [None] the panic, [Some None] no chunk *)
Definition chunk_of_row (s : sheet) (r : N) : option (option (N * N)) :=
  if s_rows s <=? r then Some None
  else
    let i := partition_point (fun x => x <=? r) (s_starts s) - 1 in
    match nthN (s_starts s) i with
    | None => None
    | Some st => if r <? st then None else Some (Some (i, r - st))
    end.

(* ---- reading (3675-3775) ---- *)
Inductive lit := LEmpty | LNumber (f : N) | LBoolean (b : bool) | LText (t : text) | LError (c : N) | LPending.
(* to_literal_for, 1053-1069 *)
Definition lit_of (v : ov) : lit :=
  match v with
  | OvEmpty => LEmpty
  | OvNumber n | OvDateTime n | OvDuration n => LNumber n
  | OvBoolean b => LBoolean b
  | OvText t => LText t
  | OvError c => LError c
  | OvPending => LPending
  end.
Definition or_empty {A} (f : A -> lit) (o : option A) : lit := match o with Some x => f x | None => LEmpty end.
(* 3713-3773; the type tag is read without a check *)
Definition base_lit (p : payload) (off : N) : option lit :=
  match nthN (p_tags p) off with
  | None => None
  | Some t =>
      Some (match tag_of_u8 t with
            | TEmpty => LEmpty
            | TNumber | TDateTime | TDuration => or_empty LNumber (lane_at (p_nums p) off)
            | TBoolean => or_empty LBoolean (lane_at (p_bools p) off)
            | TText => or_empty LText (lane_at (p_text p) off)
            | TError => or_empty LError (lane_at (p_errs p) off)
            | TPending => LPending
            end)
  end.
(* the overlay cascade: user edits over computed values *)
Definition chunk_lit (ch : chunk) (off : N) : option lit :=
  match ov_get (c_user ch) off with
  | Some v => Some (lit_of v)
  | None => match ov_get (c_comp ch) off with
            | Some v => Some (lit_of v)
            | None => base_lit (c_base ch) off
            end
  end.
(* get_cell_value, 3689-3775 *)
Definition get_cell (s : sheet) (r c : N) : option lit :=
  if s_rows s <=? r then Some LEmpty
  else
    match nthN (s_cols s) c with
    | None => Some LEmpty
    | Some k =>
        match chunk_of_row s r with
        | None => None
        | Some None => Some LEmpty
        | Some (Some (i, off)) =>
            match chunk_at k i with None => Some LEmpty | Some ch => chunk_lit ch off end
        end
    end.
(* format_id, 3675-3684 *)
Definition chunk_format (ch : chunk) (off : N) : option N :=
  let f := match ov_get_format (c_user ch) off with
           | Some f => Some f
           | None => match c_fmt ch with
                     | Some r => Some (fmt_get r off)
                     | None => ov_get_format (c_comp ch) off
                     end
           end in
  match f with Some id => if id =? GENERAL then None else Some id | None => None end.
Definition format_id (s : sheet) (r c : N) : option (option N) :=
  match chunk_of_row s r with
  | None => None
  | Some None => Some None
  | Some (Some (i, off)) =>
      match nthN (s_cols s) c with
      | None => Some None
      | Some k => match chunk_at k i with None => Some None | Some ch => Some (chunk_format ch off) end
      end
  end.

(* ---- growing (3779-3865) ---- *)
(* the loop 3806-3809; the fuel is never used up *)
Fixpoint more_starts (fuel : nat) (step next target : N) : list N :=
  match fuel with
  | O => []
  | S fuel => if next <? target then next :: more_starts fuel step (next + step) target else []
  end.
Definition grow_at (s : sheet) (i : N) (ch : chunk) : chunk :=
  match bound s i with Some len => grow_len_to len ch | None => ch end.
Definition grow_col (s : sheet) (k : col) : col :=
  Col (map (fun '(i, ch) => grow_at s i ch) (enumerate (k_dense k)))
      (map (fun '(i, ch) => (i, grow_at s i ch)) (k_sparse k)).
(* ensure_row_capacity, 3779-3838 *)
Definition ensure_rows (s : sheet) (target : N) : sheet :=
  if target <=? s_rows s then s
  else
    let step := N.max (s_crows s) 1 in
    let starts := match s_starts s with [] => [0] | l => l end in
    let next := last starts 0 + step in
    let s' := Sheet (s_cols s) target
                    (starts ++ more_starts (N.to_nat (target / step + 1)) step next target) (s_crows s) in
    set_cols s' (map (grow_col s') (s_cols s)).
(* ensure_column_chunk_mut followed by a change of the chunk, 3842-3864;
   nothing happens when there is no such chunk or column *)
Definition ensure_chunk (s : sheet) (c i : N) (f : chunk -> chunk) : sheet :=
  match bound s i with
  | None => s
  | Some len =>
      set_cols s (updateN c (fun k =>
        if i <? lenN (k_dense k) then Col (updateN i f (k_dense k)) (k_sparse k)
        else Col (k_dense k) (pput (k_sparse k) i (f (match pget (k_sparse k) i with
                                                      | Some ch => ch
                                                      | None => empty_chunk len end)))) (s_cols s))
  end.

(* ---- columns (4771-4850) ---- *)
Definition is_nil {A} (l : list A) : bool := match l with [] => true | _ => false end.
Definition dense_aligned (s : sheet) : bool :=
  forallb (fun k => is_nil (k_sparse k) && (lenN (k_dense k) =? lenN (s_starts s))) (s_cols s).
(* insert_columns, 4771-4832 *)
Definition insert_cols (s : sheet) (before count : N) : sheet :=
  if count =? 0 then s
  else
    let lens :=
      match s_cols s with
      | [] => if 0 <? s_rows s then [s_rows s] else []
      | k0 :: _ => if dense_aligned s then map c_len (k_dense k0) else []
      end in
    let b := N.to_nat (N.min before (lenN (s_cols s))) in
    set_cols s (firstn b (s_cols s) ++ repeat (Col (map empty_chunk lens) []) (N.to_nat count) ++ skipn b (s_cols s)).
(* delete_columns, 4834-4846 *)
Definition delete_cols (s : sheet) (start count : N) : sheet :=
  if (count =? 0) || is_nil (s_cols s) then s
  else
    let e := N.min (start + count) (lenN (s_cols s)) in
    if e <=? start then s
    else set_cols s (firstn (N.to_nat start) (s_cols s) ++ skipn (N.to_nat e) (s_cols s)).

(* recompute_chunk_starts, 3880-3889 *)
Fixpoint sums (cur : N) (lens : list N) : list N :=
  match lens with [] => [] | l :: r => cur :: sums (cur + l) r end.
Definition recompute (s : sheet) : sheet :=
  Sheet (s_cols s) (s_rows s)
        (match s_cols s with [] => [] | k :: _ => sums 0 (map c_len (k_dense k)) end) (s_crows s).

(* one part of the new row layout: rows of an old chunk, or new empty rows *)
Inductive item := PSlice (idx off len : N) | PEmpty (len : N).
Definition item_len (x : item) : N := match x with PSlice _ _ l => l | PEmpty l => l end.
(* insert_rows, 4488-4530: the plan *)
Fixpoint ins_plan (total split_idx split_off count i : N) (starts : list N) : list item :=
  match starts with
  | [] => []
  | st :: r =>
      let len := (match r with e :: _ => e | [] => total end) - st in
      let rest := ins_plan total split_idx split_off count (i + 1) r in
      if len =? 0 then rest
      else if negb (i =? split_idx) then PSlice i 0 len :: rest
      else
        let left_len := N.min split_off len in
        let right_len := len - left_len in
        (if 0 <? left_len then [PSlice i 0 left_len] else []) ++ [PEmpty count]
        ++ (if 0 <? right_len then [PSlice i left_len right_len] else []) ++ rest
  end.
(* delete_rows, 4655-4703: the plan *)
Fixpoint del_plan (total start stop i : N) (starts : list N) : list item :=
  match starts with
  | [] => []
  | st :: r =>
      let e := match r with e :: _ => e | [] => total end in
      let len := e - st in
      let rest := del_plan total start stop (i + 1) r in
      if len =? 0 then rest
      else if (e <=? start) || (stop <=? st) then PSlice i 0 len :: rest
      else
        (if st <? start then
           let left_len := N.min start e - st in if 0 <? left_len then [PSlice i 0 left_len] else []
         else [])
        ++ (if stop <? e then
              if 0 <? e - stop then [PSlice i (stop - st) (e - stop)] else []
            else []) ++ rest
  end.
(* 4532-4544, 4705-4717: the new starts *)
Definition plan_starts (plan : list item) : list N := sums 0 (filter (fun l => negb (l =? 0)) (map item_len plan)).

(* the chunks of the plan, in order: a dense prefix, the rest sparse; 4564-4588 *)
Fixpoint place (new_idx : N) (dense : list chunk) (sparse : list (N * chunk)) (prefix : bool)
         (l : list (option chunk)) : col :=
  match l with
  | [] => Col dense sparse
  | Some ch :: r =>
      if prefix && (new_idx =? lenN dense) then place (new_idx + 1) (dense ++ [ch]) sparse prefix r
      else place (new_idx + 1) dense (pput sparse new_idx ch) false r
  | None :: r => place (new_idx + 1) dense sparse (if prefix && (new_idx =? lenN dense) then false else prefix) r
  end.

(* Option-valued map: a panic in one element is a panic. *)
Fixpoint mapM {A B} (f : A -> option B) (l : list A) : option (list B) :=
  match l with
  | [] => Some []
  | x :: r => match f x with
              | None => None
              | Some y => match mapM f r with Some ys => Some (y :: ys) | None => None end
              end
  end.
Definition bind {A B} (o : option A) (f : A -> option B) : option B := match o with Some x => f x | None => None end.

(* The calls on a sheet, for statements about histories. *)
Inductive sop :=
| WValue (r c : N) (v : ov) (f : option N)
| WClear (r c : N)
| WComputed (r c : N) (v : ov)
| WFormat (r c : N) (f : option N)
| WCompactUser (c i threshold den : N)
| WCompactComputed (c i : N)
| WInsertRows (before count : N)
| WDeleteRows (start count : N)
| WInsertCols (before count : N)
| WDeleteCols (start count : N)
| WClearRows (start : N)
| WClearCols (start : N).

Section Sheet.
  Variable mem : payload -> N.

  (* slice_chunk, 3917-3986; slicing past the end of the tags panics *)
  Definition slice_chunk (ch : chunk) (off len : N) : option chunk :=
    if c_len ch <? off + len then None
    else
      let p := c_base ch in
      Some (Chunk (Payload (sub off len (p_tags p)) (lane_slice off len (p_nums p)) (lane_slice off len (p_bools p))
                           (lane_slice off len (p_text p)) (lane_slice off len (p_errs p)))
                  (match c_fmt ch with Some r => fmt_slice r off len | None => None end)
                  (ov_slice mem (c_user ch) off len) (ov_slice mem (c_comp ch) off len)).

  Definition produce (k : col) (x : item) : option (option chunk) :=
    match x with
    | PEmpty _ => Some None
    | PSlice i off len =>
        match chunk_at k i with
        | None => Some None
        | Some ch => if (off =? 0) && (len =? c_len ch) then Some (Some ch)
                     else option_map Some (slice_chunk ch off len)
        end
    end.
  Definition rebuild_col (plan : list item) (k : col) : option col :=
    option_map (place 0 [] [] true) (mapM (produce k) plan).
  Definition rebuild (s : sheet) (rows : N) (plan : list item) : option sheet :=
    option_map (fun ks => Sheet ks rows (plan_starts plan) (s_crows s)) (mapM (rebuild_col plan) (s_cols s)).

  (* insert_rows, 4432-4456: the chunks of one column in dense mode *)
  Fixpoint ins_dense (i split_idx split_off count : N) (l : list chunk) : option (list chunk) :=
    match l with
    | [] => Some []
    | ch :: r =>
        bind (ins_dense (i + 1) split_idx split_off count r) (fun r' =>
        if negb (i =? split_idx) then Some (ch :: r')
        else
          bind (if 0 <? split_off then option_map (fun x => [x]) (slice_chunk ch 0 split_off) else Some []) (fun a =>
          bind (if split_off <? c_len ch then option_map (fun x => [x]) (slice_chunk ch split_off (c_len ch - split_off))
                else Some []) (fun b =>
          Some (a ++ [empty_chunk count] ++ b ++ r'))))
    end.
  (* insert_rows, 4397-4580 *)
  Definition insert_rows (s : sheet) (before count : N) : option sheet :=
    if count =? 0 then Some s
    else
      let total := s_rows s in
      let starts := match s_starts s with [] => [0] | l => l end in
      if total =? 0 then Some (Sheet (s_cols s) count starts (s_crows s))
      else
        let s := Sheet (s_cols s) total starts (s_crows s) in
        let insert_at := N.min before total in
        let split :=
          if insert_at =? total then Some (lenN starts - 1, total - last starts 0)
          else match chunk_of_row s insert_at with
               | None => None
               | Some None => Some (0, 0)
               | Some (Some x) => Some x
               end in
        bind split (fun '(split_idx, split_off) =>
        if dense_aligned s then
          bind (mapM (fun k => option_map (fun l => Col l []) (ins_dense 0 split_idx split_off count (k_dense k))) (s_cols s))
               (fun ks => Some (recompute (Sheet ks (total + count) starts (s_crows s))))
        else rebuild s (total + count) (ins_plan total split_idx split_off count 0 starts)).

  (* delete_rows, 4612-4644: the chunks of one column in dense mode *)
  Fixpoint del_dense (start stop cur : N) (l : list chunk) : option (list chunk) :=
    match l with
    | [] => Some []
    | ch :: r =>
        let len := c_len ch in
        let ch_end := cur + len in
        bind (del_dense start stop ch_end r) (fun r' =>
        if (ch_end <=? start) || (stop <=? cur) then Some (ch :: r')
        else
          let left_len := N.max start cur - cur in
          let right_len := ch_end - N.min stop ch_end in
          bind (if 0 <? left_len then option_map (fun x => [x]) (slice_chunk ch 0 left_len) else Some []) (fun a =>
          bind (if 0 <? right_len then option_map (fun x => [x]) (slice_chunk ch (len - right_len) right_len)
                else Some []) (fun b =>
          Some (a ++ b ++ r'))))
    end.
  (* delete_rows, 4583-4768 *)
  Definition delete_rows (s : sheet) (start count : N) : option sheet :=
    if (count =? 0) || (s_rows s =? 0) then Some s
    else
      let total := s_rows s in
      if total <=? start then Some s
      else
        let stop := N.min (start + count) total in
        let del_len := stop - start in
        if del_len =? 0 then Some s
        else
          let starts := match s_starts s with [] => [0] | l => l end in
          let s := Sheet (s_cols s) total starts (s_crows s) in
          if dense_aligned s then
            bind (mapM (fun k => option_map (fun l => Col l []) (del_dense start stop 0 (k_dense k))) (s_cols s))
                 (fun ks => Some (recompute (Sheet ks (total - del_len) starts (s_crows s))))
          else rebuild s (total - del_len) (del_plan total start stop 0 starts).

  (* ---- compaction (3990-4384) ---- *)
  (* 4041-4120, 4236-4315: what a cell that the overlay does not hold appends *)
  Definition base_entry (p : payload) (i : N) : lane_entry :=
    let t := tag_of_u8 (match nthN (p_tags p) i with Some t => t | None => 0 end) in
    match t with
    | TEmpty | TPending => Entry (tag_u8 t) None None None None
    | TNumber | TDateTime | TDuration => Entry (tag_u8 t) (lane_at (p_nums p) i) None None None
    | TBoolean => Entry (tag_u8 t) None (lane_at (p_bools p) i) None None
    | TText => Entry (tag_u8 t) None None (lane_at (p_text p) i) None
    | TError => Entry (tag_u8 t) None None None (lane_at (p_errs p) i)
    end.
  Definition fold_base (p : payload) (o : overlay) : payload :=
    lanes_of (map (fun i => match ov_get o i with Some v => entry_of v | None => base_entry p i end)
                  (rangeN 0 (lenN (p_tags p)))).
  (* maybe_compact_chunk, 3990-4188 *)
  Definition compact_user (threshold den : N) (ch : chunk) : chunk :=
    let len := c_len ch in
    let n := ov_len (c_user ch) in
    if (len =? 0) || negb ((len / N.max den 1 <? n) || (threshold <? n)) then ch
    else Chunk (fold_base (c_base ch) (c_user ch)) (c_fmt ch) (fst (clear_all (c_user ch))) (c_comp ch).
  (* compact_computed_overlay_chunk, 4198-4384 *)
  Definition compact_comp (ch : chunk) : chunk :=
    if (c_len ch =? 0) || ov_is_empty (c_comp ch) then ch
    else Chunk (fold_base (c_base ch) (c_comp ch)) (c_fmt ch) (c_user ch) (fst (clear_all (c_comp ch))).
  Definition change_at (s : sheet) (c i : N) (f : chunk -> chunk) : sheet :=
    set_cols s (updateN c (change_chunk i f) (s_cols s)).

  (* ---- the engine's calls ---- *)
  (* eval.rs 15350-15361 and 16104-16115: columns and rows up to the cell *)
  Definition reach_cell (s : sheet) (r c : N) : sheet :=
    let n := lenN (s_cols s) in
    let s := if n <=? c then insert_cols s n (c + 1 - n) else s in
    if s_rows s <=? r then
      ensure_rows (match s_cols s with [] => insert_cols s 0 1 | _ => s end) (r + 1)
    else s.
  (* mirror_value_to_overlay, eval.rs 15329-15393; the format is that of the
     kind of value (15371-15377) *)
  Definition write_value (s : sheet) (r c : N) (v : ov) (f : option N) : option sheet :=
    let s := reach_cell s r c in
    match chunk_of_row s r with
    | None => None
    | Some None => Some s
    | Some (Some (i, off)) =>
        let s := ensure_chunk s c i (fun ch =>
                   Chunk (c_base ch) (c_fmt ch) (ov_set_format (fst (set_scalar mem (c_user ch) off v)) off f)
                         (fst (remove_scalar mem (c_comp ch) off))) in
        Some (change_at s c i (compact_user 1024 50))
    end.
  (* clear_delta_overlay_cell, eval.rs 15401-15424 *)
  Definition clear_user (s : sheet) (r c : N) : option sheet :=
    if (s_rows s <=? r) || (lenN (s_cols s) <=? c) then Some s
    else
      match chunk_of_row s r with
      | None => None
      | Some None => Some s
      | Some (Some (i, off)) =>
          Some (change_at s c i (fun ch => Chunk (c_base ch) (c_fmt ch) (fst (remove_scalar mem (c_user ch) off)) (c_comp ch)))
      end.
  (* write_computed_overlay_value_0based, eval.rs 16081-16134 *)
  Definition write_computed (s : sheet) (r c : N) (v : ov) : option sheet :=
    let s := reach_cell s r c in
    match chunk_of_row s r with
    | None => None
    | Some None => Some s
    | Some (Some (i, off)) =>
        Some (ensure_chunk s c i (fun ch => Chunk (c_base ch) (c_fmt ch) (c_user ch) (fst (set_scalar mem (c_comp ch) off v))))
    end.
  (* write_computed_overlay_format_0based, eval.rs 16054-16079 *)
  Definition write_format (s : sheet) (r c : N) (f : option N) : option sheet :=
    let n := lenN (s_cols s) in
    let s := if n <=? c then insert_cols s n (c + 1 - n) else s in
    let s := if s_rows s <=? r then ensure_rows s (r + 1) else s in
    match chunk_of_row s r with
    | None => None
    | Some None => Some s
    | Some (Some (i, off)) =>
        Some (ensure_chunk s c i (fun ch => Chunk (c_base ch) (c_fmt ch) (c_user ch) (ov_set_format (c_comp ch) off f)))
    end.
  (* clear_computed_overlay_after_row, eval.rs 15555-15614 *)
  Definition clear_from (s : sheet) (start i : N) (ch : chunk) : chunk :=
    match nthN (s_starts s) i with
    | None => ch
    | Some st =>
        let e := N.min (match nthN (s_starts s) (i + 1) with Some e => e | None => s_rows s end) (st + c_len ch) in
        if e <=? start then ch
        else Chunk (c_base ch) (c_fmt ch) (c_user ch)
                   (if start <=? st then fst (clear_all (c_comp ch))
                    else fst (remove_range mem (c_comp ch) (N.min (start - st) (c_len ch)) (c_len ch)))
    end.
  Definition clear_computed_after_row (s : sheet) (start : N) : sheet :=
    if s_rows s <=? start then s
    else set_cols s (map (fun k => Col (map (fun '(i, ch) => clear_from s start i ch) (enumerate (k_dense k)))
                                       (map (fun '(i, ch) => (i, clear_from s start i ch)) (k_sparse k))) (s_cols s)).
  (* clear_computed_overlay_after_col, eval.rs 15616-15640 *)
  Definition clear_comp (ch : chunk) : chunk := Chunk (c_base ch) (c_fmt ch) (c_user ch) (fst (clear_all (c_comp ch))).
  Definition clear_computed_after_col (s : sheet) (start : N) : sheet :=
    set_cols s (firstn (N.to_nat start) (s_cols s)
                ++ map (fun k => Col (map clear_comp (k_dense k)) (map (fun '(i, ch) => (i, clear_comp ch)) (k_sparse k)))
                       (skipn (N.to_nat start) (s_cols s))).

  Definition sstep (s : sheet) (p : sop) : option sheet :=
    match p with
    | WValue r c v f => write_value s r c v f
    | WClear r c => clear_user s r c
    | WComputed r c v => write_computed s r c v
    | WFormat r c f => write_format s r c f
    | WCompactUser c i t d => Some (change_at s c i (compact_user t d))
    | WCompactComputed c i => Some (change_at s c i compact_comp)
    | WInsertRows b n => insert_rows s b n
    | WDeleteRows b n => delete_rows s b n
    | WInsertCols b n => Some (insert_cols s b n)
    | WDeleteCols b n => Some (delete_cols s b n)
    | WClearRows r => Some (clear_computed_after_row s r)
    | WClearCols c => Some (clear_computed_after_col s c)
    end.
  Fixpoint srun (s : sheet) (h : list sop) : option sheet :=
    match h with [] => Some s | p :: r => bind (sstep s p) (fun s => srun s r) end.
End Sheet.
