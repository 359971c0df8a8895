(* The overlays of a column chunk: single cells ("points") and fragments
   (sparse, dense, run-length) laid over the base arrays.
   crates/formualizer-eval/src/arrow_store/mod.rs 18-63 (TypeTag),
   939-1060 (OverlayValue), 1139-1288 (OverlayFragmentPayload), 1289-1962
   (OverlayFragment), 1964-2285 (Overlay), 3426-3500 (lane builders).

   Simplifications.  An f64 is its 64-bit pattern; [f64_eqb] is Rust's [==]
   on these patterns.  usize and u32 are [N]; the additions that saturate at
   usize::MAX are modelled, the conversions "fits in u32" that panic are
   not, but [OvProofs] shows that every fragment built stays below the
   limit.  An Arrow array is a list of optional values.  The memory size of
   the arrays of a payload is a parameter [mem].  isize deltas are integers
   without overflow.  A HashMap is an association list; the order in which
   it is walked is the order of the list.  A slice binary search is a linear
   search and partition_point the length of the longest prefix, which agree
   on the sorted lists that fragments hold. *)
From Coq Require Import List Bool NArith ZArith.
From Verif Require Import Base Maps.
Import ListNotations.
Open Scope N_scope.

(* ---- machine integers ---- *)
Definition USIZE_MAX : N := 18446744073709551615.
Definition U32_MAX : N := 4294967295.
(* usize::saturating_add *)
Definition sat_add (a b : N) : N := N.min (a + b) USIZE_MAX.
(* u32::try_from(x).unwrap_or(u32::MAX) *)
Definition u32_clamp (x : N) : N := if x <=? U32_MAX then x else U32_MAX.

(* ---- iterators ---- *)
(* a..b *)
Definition rangeN (a b : N) : list N := map (fun i => a + N.of_nat i) (seq 0 (N.to_nat (b - a))).
Definition nthN {A} (l : list A) (i : N) : option A := nth_error l (N.to_nat i).
Definition lenN {A} (l : list A) : N := N.of_nat (length l).
Fixpoint filter_map {A B} (f : A -> option B) (l : list A) : list B :=
  match l with
  | [] => []
  | x :: r => match f x with Some y => y :: filter_map f r | None => filter_map f r end
  end.
Fixpoint enum_from {A} (i : N) (l : list A) : list (N * A) :=
  match l with [] => [] | x :: r => (i, x) :: enum_from (i + 1) r end.
Definition enumerate {A} (l : list A) : list (N * A) := enum_from 0 l.
Fixpoint find_map {A B} (f : A -> option B) (l : list A) : option B :=
  match l with [] => None | x :: r => match f x with Some y => Some y | None => find_map f r end end.
(* slice::binary_search(x).ok() *)
Fixpoint search_from (i : N) (l : list N) (x : N) : option N :=
  match l with [] => None | y :: r => if x =? y then Some i else search_from (i + 1) r x end.
Definition binary_search (l : list N) (x : N) : option N := search_from 0 l x.
(* slice::partition_point *)
Fixpoint partition_point {A} (f : A -> bool) (l : list A) : N :=
  match l with [] => 0 | x :: r => if f x then 1 + partition_point f r else 0 end.
Definition opt_list {A} (o : option A) : list A := match o with Some x => [x] | None => [] end.
Definition is_some {A} (o : option A) : bool := match o with Some _ => true | None => false end.
(* Range::is_empty, Range::contains *)
Definition range_empty (a b : N) : bool := b <=? a.
Definition range_contains (a b x : N) : bool := (a <=? x) && (x <? b).

(* ---- values (939-960) ---- *)
Inductive ov :=
| OvEmpty
| OvNumber (f : N)
| OvDateTime (f : N)
| OvDuration (f : N)
| OvBoolean (b : bool)
| OvText (t : text)
| OvError (code : N)
| OvPending.

Definition SIGN : N := 9223372036854775808.
Definition f64_is_nan (a : N) : bool := 9218868437227405312 <? a mod SIGN.
Definition f64_is_zero (a : N) : bool := a mod SIGN =? 0.
(* f64 == f64 *)
Definition f64_eqb (a b : N) : bool :=
  negb (f64_is_nan a) && negb (f64_is_nan b) && ((a =? b) || (f64_is_zero a && f64_is_zero b)).
(* the derived PartialEq *)
Definition ov_eqb (a b : ov) : bool :=
  match a, b with
  | OvEmpty, OvEmpty => true
  | OvNumber x, OvNumber y => f64_eqb x y
  | OvDateTime x, OvDateTime y => f64_eqb x y
  | OvDuration x, OvDuration y => f64_eqb x y
  | OvBoolean x, OvBoolean y => Bool.eqb x y
  | OvText x, OvText y => text_eqb x y
  | OvError x, OvError y => x =? y
  | OvPending, OvPending => true
  | _, _ => false
  end.

(* estimated_payload_bytes, 981-992 *)
Definition ov_bytes (v : ov) : N :=
  match v with
  | OvEmpty | OvPending => 0
  | OvNumber _ | OvDateTime _ | OvDuration _ => 8
  | OvBoolean _ | OvError _ => 1
  | OvText s => lenN s
  end.

(* TypeTag, 18-27; type_tag, 995-1006 *)
Inductive tag := TEmpty | TNumber | TBoolean | TText | TError | TDateTime | TDuration | TPending.
Definition tag_u8 (t : tag) : N :=
  match t with
  | TEmpty => 0 | TNumber => 1 | TBoolean => 2 | TText => 3 | TError => 4
  | TDateTime => 5 | TDuration => 6 | TPending => 7
  end.
(* TypeTag::from_u8, 48-62 *)
Definition tag_of_u8 (b : N) : tag :=
  if b =? 0 then TEmpty else if b =? 1 then TNumber else if b =? 2 then TBoolean
  else if b =? 3 then TText else if b =? 4 then TError else if b =? 5 then TDateTime
  else if b =? 6 then TDuration else if b =? 7 then TPending else TEmpty.
Definition ov_tag (v : ov) : tag :=
  match v with
  | OvEmpty => TEmpty | OvNumber _ => TNumber | OvDateTime _ => TDateTime
  | OvDuration _ => TDuration | OvBoolean _ => TBoolean | OvText _ => TText
  | OvError _ => TError | OvPending => TPending
  end.
(* numeric_lane_value .. error_lane_value, 1009-1039 *)
Definition ov_num (v : ov) : option N :=
  match v with OvNumber n | OvDateTime n | OvDuration n => Some n | _ => None end.
Definition ov_bool (v : ov) : option bool := match v with OvBoolean b => Some b | _ => None end.
Definition ov_text (v : ov) : option text := match v with OvText s => Some s | _ => None end.
Definition ov_err (v : ov) : option N := match v with OvError c => Some c | _ => None end.

(* ---- payloads (1139-1288) ---- *)
Record payload := Payload {
  p_tags : list N;
  p_nums : option (list (option N));
  p_bools : option (list (option bool));
  p_text : option (list (option text));
  p_errs : option (list (option N)) }.

(* append_overlay_value_to_lane_builders (3426-3500): the entry that one
   value appends to every lane *)
Record lane_entry := Entry { e_tag : N; e_num : option N; e_bool : option bool;
                             e_text : option text; e_err : option N }.
Definition entry_of (v : ov) : lane_entry :=
  match v with
  | OvEmpty => Entry (tag_u8 TEmpty) None None None None
  | OvNumber n => Entry (tag_u8 TNumber) (Some n) None None None
  | OvDateTime n => Entry (tag_u8 TDateTime) (Some n) None None None
  | OvDuration n => Entry (tag_u8 TDuration) (Some n) None None None
  | OvBoolean b => Entry (tag_u8 TBoolean) None (Some b) None None
  | OvText s => Entry (tag_u8 TText) None None (Some s) None
  | OvError c => Entry (tag_u8 TError) None None None (Some c)
  | OvPending => Entry (tag_u8 TPending) None None None None
  end.
(* a lane is kept when its non-null counter is positive *)
Definition lane {A} (l : list (option A)) : option (list (option A)) :=
  if existsb is_some l then Some l else None.
Definition lanes_of (es : list lane_entry) : payload :=
  Payload (map e_tag es) (lane (map e_num es)) (lane (map e_bool es))
          (lane (map e_text es)) (lane (map e_err es)).
(* from_values, 1150-1229 *)
Definition from_values (vs : list ov) : payload := lanes_of (map entry_of vs).

(* number_at .. error_at, 1253-1275 *)
Definition lane_at {A} (l : option (list (option A))) (i : N) : option A :=
  match l with Some a => match nthN a i with Some x => x | None => None end | None => None end.
(* overlay_value, 1231-1245 *)
Definition overlay_value (p : payload) (i : N) : option ov :=
  match nthN (p_tags p) i with
  | None => None
  | Some t =>
      match tag_of_u8 t with
      | TEmpty => Some OvEmpty
      | TNumber => option_map OvNumber (lane_at (p_nums p) i)
      | TDateTime => option_map OvDateTime (lane_at (p_nums p) i)
      | TDuration => option_map OvDuration (lane_at (p_nums p) i)
      | TBoolean => option_map OvBoolean (lane_at (p_bools p) i)
      | TText => option_map OvText (lane_at (p_text p) i)
      | TError => option_map OvError (lane_at (p_errs p) i)
      | TPending => Some OvPending
      end
  end.
(* values_slice, 1278-1282 *)
Definition values_slice (p : payload) (start len : N) : list ov :=
  filter_map (overlay_value p) (rangeN start (sat_add start len)).

(* ---- fragments (1289-1305) ---- *)
Inductive frag :=
| Sparse (offs : list N) (p : payload)
| Dense (start len : N) (p : payload)
| Run (start len : N) (ends : list N) (p : payload).

Definition MAX_SPLIT : N := 128.

(* BTreeMap::insert on the sorted list of entries *)
Fixpoint bt_insert {V} (m : list (N * V)) (k : N) (v : V) : list (N * V) :=
  match m with
  | [] => [(k, v)]
  | (k', v') :: r =>
      if k <? k' then (k, v) :: (k', v') :: r
      else if k =? k' then (k, v) :: r
      else (k', v') :: bt_insert r k v
  end.
Definition bt_of {V} (items : list (N * V)) (m : list (N * V)) : list (N * V) :=
  fold_left (fun m kv => bt_insert m (fst kv) (snd kv)) items m.

(* sparse_offsets, 1311-1332 *)
Definition sparse_offsets (items : list (N * ov)) : option frag :=
  match bt_of items [] with
  | [] => None
  | m => Some (Sparse (map fst m) (from_values (map snd m)))
  end.
(* dense_range, 1345-1355 *)
Definition dense_range (start : N) (vs : list ov) : option frag :=
  match vs with
  | [] => None
  | _ => Some (Dense start (lenN vs) (from_values vs))
  end.
(* the loop of run_range_from_parts, 1391-1406: [ends] and [vals] are the
   merged lists in reverse order *)
Fixpoint merge_runs (len prev : N) (parts : list (N * ov)) (ends : list N) (vals : list ov)
  : option (N * list N * list ov) :=
  match parts with
  | [] => Some (prev, rev ends, rev vals)
  | (e, v) :: r =>
      if (e <=? prev) || (len <? e) then None
      else
        match vals, ends with
        | last :: _, _ :: es =>
            if ov_eqb last v then merge_runs len e r (e :: es) vals
            else merge_runs len e r (e :: ends) (v :: vals)
        | _, _ => merge_runs len e r (e :: ends) (v :: vals)
        end
  end.
(* run_range_from_parts, 1378-1416 *)
Definition run_range_from_parts (start len : N) (ends : list N) (vals : list ov) : option frag :=
  if (len =? 0) || (lenN ends =? 0) || negb (lenN ends =? lenN vals) then None
  else
    match merge_runs len 0 (combine ends vals) [] [] with
    | None => None
    | Some (prev, ends', vals') =>
        if negb (prev =? len) || negb (last ends' 0 =? len) then None
        else Some (Run start len ends' (from_values vals'))
    end.
(* the loop of run_range, 1362-1371 *)
Fixpoint split_runs (i : N) (cur : ov) (vs : list ov) : list N * list ov :=
  match vs with
  | [] => ([i], [cur])
  | v :: r =>
      if ov_eqb v cur then split_runs (i + 1) cur r
      else let '(ends, vals) := split_runs (i + 1) v r in (i :: ends, cur :: vals)
  end.
(* run_range, 1357-1376 *)
Definition run_range (start : N) (vs : list ov) : option frag :=
  match vs with
  | [] => None
  | v :: r => let '(ends, vals) := split_runs 1 v r in run_range_from_parts start (lenN vs) ends vals
  end.

(* interval_coverage, 1457-1466 *)
Definition interval_coverage (f : frag) : option (N * N) :=
  match f with
  | Dense s l _ | Run s l _ _ => Some (s, sat_add s l)
  | Sparse _ _ => None
  end.
(* coverage_len, 1436-1443 *)
Definition coverage_len (f : frag) : N :=
  match f with Sparse offs _ => lenN offs | Dense _ l _ | Run _ l _ _ => l end.

Definition overlaps (a b c d : N) : bool := (a <? d) && (c <? b).
(* the first offset not below [a] is below [b] *)
Definition sparse_hits (offs : list N) (a b : N) : bool :=
  match nthN offs (partition_point (fun o => o <? u32_clamp a) offs) with
  | Some o => o <? b
  | None => false
  end.
(* has_any_in_range, 1475-1491, and intersects_interval, 1503-1519, which
   have the same body *)
Definition frag_has_any (f : frag) (a b : N) : bool :=
  if range_empty a b then false
  else
    match f with
    | Sparse offs _ => sparse_hits offs a b
    | Dense _ _ _ | Run _ _ _ _ =>
        match interval_coverage f with Some (s, e) => overlaps s e a b | None => false end
    end.
(* sorted_offsets_intersect, 1541-1552 *)
Fixpoint sorted_intersect (a : list N) : list N -> bool :=
  match a with
  | [] => fun _ => false
  | x :: a' =>
      fix go (b : list N) : bool :=
        match b with
        | [] => false
        | y :: b' =>
            if x =? y then true
            else if x <? y then sorted_intersect a' (y :: b')
            else go b'
        end
  end.
(* intersects_sparse_offsets, 1521-1539 *)
Definition intersects_sparse (f : frag) (offs : list N) : bool :=
  match offs with
  | [] => false
  | _ =>
      match f with
      | Sparse own _ => sorted_intersect own offs
      | Dense _ _ _ | Run _ _ _ _ =>
          match interval_coverage f with Some (s, e) => sparse_hits offs s e | None => false end
      end
  end.
(* intersects_fragment_exact, 1493-1501 *)
Definition intersects_frag (f r : frag) : bool :=
  match r with
  | Sparse offs _ => intersects_sparse f offs
  | Dense _ _ _ | Run _ _ _ _ =>
      match interval_coverage r with Some (a, b) => frag_has_any f a b | None => false end
  end.

(* get_scalar, 1558-1593 *)
Definition frag_get (f : frag) (off : N) : option ov :=
  match f with
  | Sparse offs p =>
      if off <=? U32_MAX then
        match binary_search offs off with Some i => overlay_value p i | None => None end
      else None
  | Dense s l p =>
      if off <? s then None else if l <=? off - s then None else overlay_value p (off - s)
  | Run s l ends p =>
      if off <? s then None else if l <=? off - s then None
      else if off - s <=? U32_MAX then
        overlay_value p (partition_point (fun e => e <=? off - s) ends)
      else None
  end.

(* cells, 1886-1921 *)
Definition frag_cells (f : frag) : list (N * ov) :=
  match f with
  | Sparse offs p =>
      filter_map (fun '(i, o) => option_map (fun v => (o, v)) (overlay_value p i)) (enumerate offs)
  | Dense s l p =>
      filter_map (fun i => option_map (fun v => (sat_add s i, v)) (overlay_value p i)) (rangeN 0 l)
  | Run s l _ _ =>
      filter_map (fun i => option_map (fun v => (sat_add s i, v)) (frag_get f (sat_add s i))) (rangeN 0 l)
  end.

(* dense_segment_with_start, 1811-1829 *)
Definition dense_segment (f : frag) (new_start a b : N) : option frag :=
  match f with
  | Dense s _ p =>
      if b <=? a then None
      else if a <? s then None
      else dense_range new_start (values_slice p (a - s) (b - a))
  | _ => None
  end.
(* the loop of run_segment_with_start, 1857-1875 *)
Fixpoint seg_runs (p : payload) (rs re : N) (i prev : N) (ends : list N) : list N * list ov :=
  match ends with
  | [] => ([], [])
  | e :: r =>
      let is := N.max prev rs in
      let ie := N.min e re in
      let '(es, vs) := if re <=? e then ([], []) else seg_runs p rs re (i + 1) e r in
      if is <? ie then (ie - rs :: es, opt_list (overlay_value p i) ++ vs) else (es, vs)
  end.
(* run_segment_with_start, 1831-1884 *)
Definition run_segment (f : frag) (new_start a b : N) : option frag :=
  match f with
  | Run s l ends p =>
      if b <=? a then None
      else if (a <? s) || (sat_add s l <? b) then None
      else
        let '(es, vs) := seg_runs p (a - s) (b - s) 0 0 ends in
        run_range_from_parts new_start (b - a) es vs
  | _ => None
  end.
Definition segment (f : frag) (new_start a b : N) : option frag :=
  match f with
  | Dense _ _ _ => dense_segment f new_start a b
  | Run _ _ _ _ => run_segment f new_start a b
  | Sparse _ _ => None
  end.

(* sparse_remainder_excluding_offsets, 1802-1809 *)
Definition sparse_remainder (f : frag) (holes : list N) : list frag :=
  opt_list (sparse_offsets (filter (fun c => negb (is_some (binary_search holes (fst c)))) (frag_cells f))).

(* sparse_holes_in_interval, 1714-1734 *)
Fixpoint holes_loop (b : N) (last : option N) (offs : list N) : list N :=
  match offs with
  | [] => []
  | o :: r =>
      if b <=? o then []
      else if match last with Some l => l =? o | None => false end then holes_loop b last r
      else o :: holes_loop b (Some o) r
  end.
Definition sparse_holes (offs : list N) (a b : N) : list N :=
  if range_empty a b then []
  else holes_loop b None (skipn (N.to_nat (partition_point (fun o => o <? u32_clamp a) offs)) offs).

(* the loops of subtract_sparse_offsets_from_dense/_run, 1752-1766, 1787-1799 *)
Fixpoint split_at_holes (f : frag) (seg_start own_end : N) (holes : list N) : list frag :=
  match holes with
  | [] => if seg_start <? own_end then opt_list (segment f seg_start seg_start own_end) else []
  | h :: r =>
      (if seg_start <? h then opt_list (segment f seg_start seg_start h) else [])
      ++ split_at_holes f (sat_add h 1) own_end r
  end.

(* subtract_sparse_offsets, 1685-1712 *)
Definition subtract_sparse (f : frag) (offs : list N) : list frag :=
  match offs with
  | [] => [f]
  | _ =>
      match f with
      | Sparse own p =>
          opt_list (sparse_offsets
            (filter_map (fun '(i, o) => if is_some (binary_search offs o) then None
                                         else option_map (fun v => (o, v)) (overlay_value p i))
                        (enumerate own)))
      | Dense _ _ _ | Run _ _ _ _ =>
          match interval_coverage f with
          | None => [f]
          | Some (s, e) =>
              let holes := sparse_holes offs s e in
              match holes with
              | [] => [f]
              | _ =>
                  if MAX_SPLIT <? lenN holes + 1 then sparse_remainder f holes
                  else split_at_holes f s e holes
              end
          end
      end
  end.

(* subtract_interval, 1619-1683 *)
Definition subtract_interval (f : frag) (a b : N) : list frag :=
  if range_empty a b then [f]
  else
    match f with
    | Sparse own p =>
        opt_list (sparse_offsets
          (filter_map (fun '(i, o) => if range_contains a b o then None
                                       else option_map (fun v => (o, v)) (overlay_value p i))
                      (enumerate own)))
    | Dense _ _ _ | Run _ _ _ _ =>
        match interval_coverage f with
        | None => [f]
        | Some (s, e) =>
            if (e <=? a) || (b <=? s) then [f]
            else
              let cut_start := N.max a s in
              let cut_end := N.min b e in
              (if s <? cut_start then opt_list (segment f s s cut_start) else [])
              ++ (if cut_end <? e then opt_list (segment f cut_end cut_end e) else [])
        end
    end.
(* subtract_offset, 1605-1617 *)
Definition subtract_offset (f : frag) (off : N) : list frag :=
  match f with
  | Sparse _ _ => if off <=? U32_MAX then subtract_sparse f [off] else [f]
  | Dense _ _ _ | Run _ _ _ _ => subtract_interval f off (sat_add off 1)
  end.
(* subtract_fragment, 1595-1603 *)
Definition subtract_frag (f r : frag) : list frag :=
  match r with
  | Sparse offs _ => subtract_sparse f offs
  | Dense _ _ _ | Run _ _ _ _ =>
      match interval_coverage r with Some (a, b) => subtract_interval f a b | None => [f] end
  end.

(* slice, 1923-1961 *)
Definition frag_slice (f : frag) (off len : N) : option frag :=
  let e := sat_add off len in
  if len =? 0 then None
  else
    match f with
    | Sparse offs p =>
        let lo := partition_point (fun o => o <? u32_clamp off) offs in
        let hi := partition_point (fun o => o <? e) offs in
        sparse_offsets
          (filter_map (fun i => match nthN offs i with
                                | Some o => option_map (fun v => (o - off, v)) (overlay_value p i)
                                | None => None
                                end) (rangeN lo hi))
    | Dense _ _ _ | Run _ _ _ _ =>
        match interval_coverage f with
        | None => None
        | Some (s, t) =>
            let a := N.max s off in
            let b := N.min t e in
            if b <=? a then None else segment f (a - off) a b
        end
    end.

(* ---- overlays (1964-2285) ---- *)
Record overlay := Overlay {
  o_points : list (N * ov);
  o_formats : list (N * N);
  o_frags : list frag;
  o_est : N }.
Definition ov_new : overlay := Overlay [] [] [] 0.

Definition ENTRY_BASE : N := 32.
Definition FRAGMENT_BASE : N := 48.
Definition point_est (v : ov) : N := ENTRY_BASE + ov_bytes v.

Notation pget := (mget N.eqb).
Notation pdel := (mdel N.eqb).
Notation pput := (mput N.eqb).

(* get_scalar, 2003-2008 *)
Definition ov_get (o : overlay) (off : N) : option ov :=
  match pget (o_points o) off with
  | Some v => Some v
  | None => find_map (fun f => frag_get f off) (rev (o_frags o))
  end.
(* get_format, set_format, 2016-2035 *)
Definition ov_get_format (o : overlay) (off : N) : option N := pget (o_formats o) off.
Definition GENERAL : N := 0.
Definition ov_set_format (o : overlay) (off : N) (format : option N) : overlay :=
  Overlay (o_points o)
    (match format with
     | Some id => if id =? GENERAL then pdel (o_formats o) off else pput (o_formats o) off id
     | None => pdel (o_formats o) off
     end) (o_frags o) (o_est o).

(* adjust_estimated_bytes, 1994-2001 *)
Definition adjust (est : N) (delta : Z) : N := Z.to_N (Z.of_N est + delta).

Section Accounting.
  (* the sum of get_array_memory_size over the arrays of a payload
     (OverlayFragmentPayload::estimated_bytes) *)
  Variable mem : payload -> N.

  (* OverlayFragment::estimated_bytes, 1419-1433 *)
  Definition frag_est (f : frag) : N :=
    match f with
    | Sparse offs p => FRAGMENT_BASE + lenN offs * 4 + mem p
    | Dense _ _ p => FRAGMENT_BASE + mem p
    | Run _ _ ends p => FRAGMENT_BASE + lenN ends * 4 + mem p
    end.
  Definition frags_est (fs : list frag) : N := fold_right (fun f n => frag_est f + n) 0 fs.

  (* Removing keys one after the other; the second component sums the
     estimates of the entries that were there. *)
  Fixpoint remove_keys (ps : list (N * ov)) (keys : list N) : list (N * ov) * N :=
    match keys with
    | [] => (ps, 0)
    | k :: r =>
        match pget ps k with
        | Some old => let '(ps', n) := remove_keys (pdel ps k) r in (ps', point_est old + n)
        | None => remove_keys ps r
        end
    end.
  Definition keys_in (ps : list (N * ov)) (a b : N) : list N :=
    filter (range_contains a b) (map fst ps).

  (* Replacing every fragment by fragments: the list and the change of the
     estimate. *)
  Fixpoint replace_frags (g : frag -> option (list frag)) (fs : list frag) : list frag * Z :=
    match fs with
    | [] => ([], 0%Z)
    | f :: r =>
        let '(fs', d) := replace_frags g r in
        match g f with
        | None => (f :: fs', d)
        | Some rs => (rs ++ fs', (Z.of_N (frags_est rs) - Z.of_N (frag_est f) + d)%Z)
        end
    end.

  (* remove_points_covered_by_fragment, 2061-2089 *)
  Definition remove_points_covered (o : overlay) (f : frag) : overlay * Z :=
    let '(ps, n) :=
      match f with
      | Sparse offs _ => remove_keys (o_points o) offs
      | Dense _ _ _ | Run _ _ _ _ =>
          match interval_coverage f with
          | Some (a, b) => remove_keys (o_points o) (keys_in (o_points o) a b)
          | None => (o_points o, 0)
          end
      end in
    (Overlay ps (o_formats o) (o_frags o) (o_est o - n), (- Z.of_N n)%Z).

  (* remove_fragments_covered_by_fragment, 2091-2116 *)
  Definition remove_frags_covered (o : overlay) (r : frag) : overlay * Z :=
    match o_frags o with
    | [] => (o, 0%Z)
    | _ =>
        let '(fs, d) :=
          replace_frags (fun f => if intersects_frag f r then Some (subtract_frag f r) else None)
                        (o_frags o) in
        (Overlay (o_points o) (o_formats o) fs (adjust (o_est o) d), d)
    end.

  (* apply_fragment, 2051-2059 *)
  Definition apply_fragment (o : overlay) (f : frag) : overlay * Z :=
    let '(o1, d1) := remove_points_covered o f in
    let '(o2, d2) := remove_frags_covered o1 f in
    (Overlay (o_points o2) (o_formats o2) (o_frags o2 ++ [f]) (adjust (o_est o2) (Z.of_N (frag_est f))),
     (d1 + d2 + Z.of_N (frag_est f))%Z).

  (* remove_scalar, 2119-2149 *)
  Definition remove_scalar (o : overlay) (off : N) : overlay * Z :=
    let '(ps, est, d) :=
      match pget (o_points o) off with
      | Some old => (pdel (o_points o) off, o_est o - point_est old, (- Z.of_N (point_est old))%Z)
      | None => (o_points o, o_est o, 0%Z)
      end in
    match o_frags o with
    | [] => (Overlay ps (o_formats o) [] est, d)
    | _ =>
        let '(fs, d') :=
          replace_frags (fun f => if is_some (frag_get f off) then Some (subtract_offset f off) else None)
                        (o_frags o) in
        (Overlay ps (o_formats o) fs (adjust est (d + d')%Z), (d + d')%Z)
    end.
  (* set_scalar, 2038-2044 *)
  Definition set_scalar (o : overlay) (off : N) (v : ov) : overlay * Z :=
    let '(o1, d) := remove_scalar o off in
    (Overlay (pput (o_points o1) off v) (o_formats o1) (o_frags o1)
             (adjust (o_est o1) (Z.of_N (point_est v))), (d + Z.of_N (point_est v))%Z).

  (* remove_range, 2156-2195 *)
  Definition remove_range (o : overlay) (a b : N) : overlay * Z :=
    if range_empty a b then (o, 0%Z)
    else
      let '(ps, n) := remove_keys (o_points o) (keys_in (o_points o) a b) in
      let est := o_est o - n in
      match o_frags o with
      | [] => (Overlay ps (o_formats o) [] est, (- Z.of_N n)%Z)
      | _ =>
          let '(fs, d) := replace_frags (fun f => Some (subtract_interval f a b)) (o_frags o) in
          (Overlay ps (o_formats o) fs (adjust est d), (- Z.of_N n + d)%Z)
      end.

  (* clear_all, 2198-2204: the formats stay *)
  Definition clear_all (o : overlay) : overlay * N := (Overlay [] (o_formats o) [] 0, o_est o).

  (* slice, 2245-2264 *)
  Definition ov_slice (o : overlay) (off len : N) : overlay :=
    let e := sat_add off len in
    let o1 := fold_left (fun out f => match frag_slice f off len with
                                      | Some s => fst (apply_fragment out s)
                                      | None => out end) (o_frags o) ov_new in
    let o2 := fold_left (fun out kv => if (off <=? fst kv) && (fst kv <? e)
                                       then fst (set_scalar out (fst kv - off) (snd kv)) else out)
                        (o_points o) o1 in
    fold_left (fun out kv => if (off <=? fst kv) && (fst kv <? e)
                             then ov_set_format out (fst kv - off) (Some (snd kv)) else out)
              (o_formats o) o2.

  (* debug_recomputed_estimated_bytes, 2331-2344 (test code): the specification of the counter *)
  Definition recomputed (o : overlay) : N :=
    fold_right (fun kv n => point_est (snd kv) + n) 0 (o_points o) + frags_est (o_frags o).
End Accounting.

(* len, 2212-2219 *)
Definition ov_len (o : overlay) : N :=
  lenN (o_points o) + fold_right (fun f n => coverage_len f + n) 0 (o_frags o).
(* is_empty, 2227-2229 *)
Definition ov_is_empty (o : overlay) : bool :=
  match o_points o, o_frags o with [], [] => true | _, _ => false end.
(* has_any_in_range, 2232-2238 *)
Definition ov_has_any (o : overlay) (a b : N) : bool :=
  existsb (fun kv => range_contains a b (fst kv)) (o_points o)
  || existsb (fun f => frag_has_any f a b) (o_frags o).
(* iter, 2267-2278 *)
Definition ov_iter (o : overlay) : list (N * ov) :=
  bt_of (o_points o) (fold_left (fun m f => bt_of (frag_cells f) m) (o_frags o) []).

(* The calls that change an overlay, for statements about histories.  A
   fragment is built from its cells by the three public constructors. *)
Inductive oop :=
| OSet (off : N) (v : ov)
| ORemove (off : N)
| OSparse (items : list (N * ov))
| ODense (start : N) (vs : list ov)
| ORun (start : N) (vs : list ov)
| ORemoveRange (a b : N)
| OClear
| OSlice (off len : N)
| OFormat (off : N) (format : option N).
Definition apply_opt (mem : payload -> N) (o : overlay) (f : option frag) : overlay :=
  match f with Some f => fst (apply_fragment mem o f) | None => o end.
Definition ov_step (mem : payload -> N) (o : overlay) (p : oop) : overlay :=
  match p with
  | OSet off v => fst (set_scalar mem o off v)
  | ORemove off => fst (remove_scalar mem o off)
  | OSparse items => apply_opt mem o (sparse_offsets items)
  | ODense start vs => apply_opt mem o (dense_range start vs)
  | ORun start vs => apply_opt mem o (run_range start vs)
  | ORemoveRange a b => fst (remove_range mem o a b)
  | OClear => fst (clear_all o)
  | OSlice off len => ov_slice mem o off len
  | OFormat off format => ov_set_format o off format
  end.
Definition ov_run (mem : payload -> N) (h : list oop) : overlay := fold_left (ov_step mem) h ov_new.
