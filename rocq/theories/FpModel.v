(** Regions of the formula plane, the projection of changes on formula spans, the region
    index and the dirty closure.
    Models crates/formualizer-eval/src/formula_plane/region_index.rs:16-1700 and
    crates/formualizer-eval/src/formula_plane/producer.rs:24-1507.

    Simplifications: u32 coordinates and sheet numbers are N (the places where the code
    clamps to u32::MAX do so here); i64 offsets are Z with the code's overflow checks; a
    BTreeMap or hash map is an association list, the map of maps [rows_from] is one map
    with pairs as keys; the order in which a hash set of candidates is walked is the
    parameter [ord]; the debug assertions of constructors, the statistics, the epochs,
    the memory estimates and the checkpoints that may cancel the closure are left out. *)
From Verif Require Import Base Maps IntervalModel.

Definition umax : N := 4294967295.
Definition i64min : Z := -9223372036854775808.
Definition i64max : Z := 9223372036854775807.

(** AxisRange, region_index.rs:286-293. *)
Inductive axis := Pt (p : N) | Sp (s e : N) | Fr (s : N) | To (e : N) | All.

(** AxisRange::intersects, 296-330. *)
Definition ax_meets (a b : axis) : bool :=
  match a, b with
  | Pt p, Pt q => N.eqb p q
  | Pt p, Sp s e => N.leb s p && N.leb p e
  | Pt p, Fr s => N.leb s p
  | Pt p, To e => N.leb p e
  | Pt _, All => true
  | Sp s e, Pt q => N.leb s q && N.leb q e
  | Sp s e, Sp s2 e2 => N.leb s e2 && N.leb s2 e
  | Sp _ e, Fr s2 => N.leb s2 e
  | Sp s _, To e2 => N.leb s e2
  | Sp _ _, All => true
  | Fr s, Pt q => N.leb s q
  | Fr s, Sp _ e2 => N.leb s e2
  | Fr _, Fr _ => true
  | Fr s, To e2 => N.leb s e2
  | Fr _, All => true
  | To e, Pt q => N.leb q e
  | To e, Sp s2 _ => N.leb s2 e
  | To e, Fr s2 => N.leb s2 e
  | To _, To _ => true
  | To _, All => true
  | All, _ => true
  end.

(** AxisRange::contains, 333-341. *)
Definition ax_has (a : axis) (x : N) : bool :=
  match a with
  | Pt p => N.eqb x p
  | Sp s e => N.leb s x && N.leb x e
  | Fr s => N.leb s x
  | To e => N.leb x e
  | All => true
  end.

(** AxisRange::query_bounds, 375-383. *)
Definition ax_bounds (a : axis) : N * N :=
  match a with
  | Pt p => (p, p)
  | Sp s e => (s, e)
  | Fr s => (s, umax)
  | To e => (0, e)%N
  | All => (0, umax)%N
  end.
Definition lo_open (a : axis) : bool := match a with To _ | All => true | _ => false end.
Definition hi_open (a : axis) : bool := match a with Fr _ | All => true | _ => false end.

(** AxisRange::intersection, 344-365. *)
Definition ax_inter (a b : axis) : option axis :=
  let low := N.max (fst (ax_bounds a)) (fst (ax_bounds b)) in
  let high := N.min (snd (ax_bounds a)) (snd (ax_bounds b)) in
  if N.ltb high low then None
  else Some (match negb (lo_open a) || negb (lo_open b), negb (hi_open a) || negb (hi_open b) with
             | false, false => All
             | true, false => Fr low
             | false, true => To high
             | true, true => if N.eqb low high then Pt low else Sp low high
             end).

(** AxisRange::contains_range, 368-372. *)
Definition ax_covers (a b : axis) : bool :=
  N.leb (fst (ax_bounds a)) (fst (ax_bounds b)) && N.leb (snd (ax_bounds b)) (snd (ax_bounds a)).

(** AxisRange::is_bounded and normalized, 386-388 and 431-436. *)
Definition ax_bounded (a : axis) : bool := match a with Pt _ | Sp _ _ => true | _ => false end.
Definition ax_norm (a : axis) : axis :=
  match a with Sp s e => if N.eqb s e then Pt s else a | _ => a end.

(** [i64::saturating_add] and the clamp to u32, 391-401. *)
Definition sat_add (v : N) (off : Z) : Z := Z.max i64min (Z.min i64max (Z.of_N v + off)).
Definition clamp32 (z : Z) : N := if Z.ltb z 0 then 0%N else if Z.ltb (Z.of_N umax) z then umax else Z.to_N z.

(** AxisRange::project_through_offset, 390-427. *)
Definition ax_shift (off : Z) (a : axis) : option axis :=
  match a with
  | Pt p => let q := sat_add p off in
            if Z.leb 0 q && Z.leb q (Z.of_N umax) then Some (Pt (Z.to_N q)) else None
  | Sp s e => let s' := sat_add s off in let e' := sat_add e off in
              if Z.ltb e' 0 || Z.ltb (Z.of_N umax) s' then None else Some (Sp (clamp32 s') (clamp32 e'))
  | Fr s => let s' := sat_add s off in if Z.ltb s' 0 then Some All else Some (Fr (clamp32 s'))
  | To e => let e' := sat_add e off in if Z.ltb e' 0 then None else Some (To (clamp32 e'))
  | All => Some All
  end.

(** Region, 74-79, and RegionKey, 16-21. *)
Record region := Rg { sh : N; rows : axis; cols : axis }.
Record cell := Cl { csh : N; crow : N; ccol : N }.

(** Region::intersects, intersection, contains_region, contains_key, 97-130. *)
Definition meets (a b : region) : bool :=
  N.eqb (sh a) (sh b) && ax_meets (rows a) (rows b) && ax_meets (cols a) (cols b).
Definition inter (a b : region) : option region :=
  if negb (N.eqb (sh a) (sh b)) then None
  else match ax_inter (rows a) (rows b), ax_inter (cols a) (cols b) with
       | Some r, Some c => Some (Rg (sh a) r c)
       | _, _ => None
       end.
Definition covers (a b : region) : bool :=
  N.eqb (sh a) (sh b) && ax_covers (rows a) (rows b) && ax_covers (cols a) (cols b).
Definition has (a : region) (c : cell) : bool :=
  N.eqb (sh a) (csh c) && ax_has (rows a) (crow c) && ax_has (cols a) (ccol c).
(** Region::normalized and project_through_axis_shift, 252-283. *)
Definition norm (a : region) : region := Rg (sh a) (ax_norm (rows a)) (ax_norm (cols a)).
Definition shift (dr dc : Z) (a : region) : option region :=
  match ax_shift dr (rows a), ax_shift dc (cols a) with
  | Some r, Some c => Some (Rg (sh a) r c)
  | _, _ => None
  end.
Definition point (c : cell) : region := Rg (csh c) (Pt (crow c)) (Pt (ccol c)).

(** PlacementDomain (runtime.rs:62-81) and Region::from_domain, 213-235. *)
Inductive domain :=
| RowRun (s r0 r1 c : N)
| ColRun (s r c0 c1 : N)
| RectDom (s r0 r1 c0 c1 : N).
Definition of_domain (d : domain) : region :=
  match d with
  | RowRun s r0 r1 c => Rg s (Sp r0 r1) (Pt c)
  | ColRun s r c0 c1 => Rg s (Pt r) (Sp c0 c1)
  | RectDom s r0 r1 c0 c1 => Rg s (Sp r0 r1) (Sp c0 c1)
  end.

(** Equality of regions, for [contains] and hash sets. *)
Definition ax_eqb (a b : axis) : bool :=
  match a, b with
  | Pt p, Pt q => N.eqb p q
  | Sp s e, Sp s2 e2 => N.eqb s s2 && N.eqb e e2
  | Fr s, Fr s2 => N.eqb s s2
  | To e, To e2 => N.eqb e e2
  | All, All => true
  | _, _ => false
  end.
Definition rg_eqb (a b : region) : bool := N.eqb (sh a) (sh b) && ax_eqb (rows a) (rows b) && ax_eqb (cols a) (cols b).
Definition cl_eqb (a b : cell) : bool := N.eqb (csh a) (csh b) && N.eqb (crow a) (crow b) && N.eqb (ccol a) (ccol b).

(** * The region index, region_index.rs:596-1640 *)

Definition k2 : Type := (N * N)%type.
Definition k3 : Type := (N * N * N)%type.
Definition k2_eqb (a b : k2) : bool := N.eqb (fst a) (fst b) && N.eqb (snd a) (snd b).
Definition k3_eqb (a b : k3) : bool := k2_eqb (fst a) (fst b) && N.eqb (snd a) (snd b).

(** SheetRegionIndex, 596-615. *)
Record rindex (T : Type) := RIndex {
  entries : list (region * T);
  by_row : list (k3 * list N);   (* points_by_row: (sheet, row, col) *)
  by_col : list (k3 * list N);   (* points_by_col: (sheet, col, row) *)
  col_iv : list (k2 * itree);
  row_iv : list (k2 * itree);
  rects : list (k3 * list N);    (* rect_buckets: (sheet, row bucket, col bucket) *)
  rects_c : list (k3 * list N);  (* rect_buckets_by_col: (sheet, col bucket, row bucket) *)
  rows_fr : list (k2 * list N);
  cols_fr : list (k2 * list N);
  whole_r : list (k2 * list N);
  whole_c : list (k2 * list N);
  whole_s : list (N * list N);
  brows : N; bcols : N }.
Arguments RIndex {T}. Arguments entries {T}. Arguments by_row {T}. Arguments by_col {T}.
Arguments col_iv {T}. Arguments row_iv {T}. Arguments rects {T}. Arguments rects_c {T}.
Arguments rows_fr {T}. Arguments cols_fr {T}. Arguments whole_r {T}. Arguments whole_c {T}.
Arguments whole_s {T}. Arguments brows {T}. Arguments bcols {T}.

(** new, 626-664: buckets of 64 rows and 16 columns by default. *)
Definition ri_empty {T} (br bc : N) : rindex T := RIndex [] [] [] [] [] [] [] [] [] [] [] [] br bc.
Definition ri_new {T} : rindex T := ri_empty 64 16.

(** [map.entry(k).or_default().push(id)]. *)
Definition mpush {K} (eqb : K -> K -> bool) (m : list (K * list N)) (k : K) (id : N) : list (K * list N) :=
  mput eqb m k (match mget eqb m k with Some l => l ++ [id] | None => [id] end).
Definition tpush (m : list (k2 * itree)) (k : k2) (low high id : N) : list (k2 * itree) :=
  mput k2_eqb m k (it_insert low high id (match mget k2_eqb m k with Some t => t | None => it_empty end)).

(** [a..=b]. *)
Definition upto (a b : N) : list N := map (fun i => (a + N.of_nat i)%N) (seq 0 (N.to_nat (b + 1 - a))).
(** rect_buckets_for_rect, 1623-1637. *)
Definition buckets (br bc s r0 r1 c0 c1 : N) : list k3 :=
  flat_map (fun rb => map (fun cb => (s, rb, cb)) (upto (c0 / bc) (c1 / bc))) (upto (r0 / br) (r1 / br)).

(** index_entry, 1124-1221. *)
Definition index_entry {T} (id : N) (r : region) (x : rindex T) : rindex T :=
  let '(RIndex en br_ bc_ ci ri rb rbc rf cf wr wc ws nb mb) := x in
  let s := sh r in
  match rows r, cols r with
  | Pt a, Pt b => RIndex en (mpush k3_eqb br_ (s, a, b) id) (mpush k3_eqb bc_ (s, b, a) id) ci ri rb rbc rf cf wr wc ws nb mb
  | Sp a a', Pt b => RIndex en br_ bc_ (tpush ci (s, b) a a' id) ri rb rbc rf cf wr wc ws nb mb
  | Pt a, Sp b b' => RIndex en br_ bc_ ci (tpush ri (s, a) b b' id) rb rbc rf cf wr wc ws nb mb
  | Sp a a', Sp b b' =>
      let bs := buckets nb mb s a a' b b' in
      RIndex en br_ bc_ ci ri
        (fold_left (fun m k => mpush k3_eqb m k id) bs rb)
        (fold_left (fun m (k : k3) => mpush k3_eqb m (fst (fst k), snd k, snd (fst k)) id) bs rbc)
        rf cf wr wc ws nb mb
  | Fr a, All => RIndex en br_ bc_ ci ri rb rbc (mpush k2_eqb rf (s, a) id) cf wr wc ws nb mb
  | All, Fr b => RIndex en br_ bc_ ci ri rb rbc rf (mpush k2_eqb cf (s, b) id) wr wc ws nb mb
  | Pt a, All => RIndex en br_ bc_ ci ri rb rbc rf cf (mpush k2_eqb wr (s, a) id) wc ws nb mb
  | All, Pt b => RIndex en br_ bc_ ci ri rb rbc rf cf wr (mpush k2_eqb wc (s, b) id) ws nb mb
  | _, _ => RIndex en br_ bc_ ci ri rb rbc rf cf wr wc (mpush N.eqb ws s id) nb mb
  end.

(** insert, 666-678, and clear, 680-696. *)
Definition ri_insert {T} (r : region) (v : T) (x : rindex T) : rindex T :=
  let id := N.of_nat (length (entries x)) in
  let '(RIndex en br_ bc_ ci ri rb rbc rf cf wr wc ws nb mb) := x in
  index_entry id (norm r) (RIndex (en ++ [(r, v)]) br_ bc_ ci ri rb rbc rf cf wr wc ws nb mb).
Definition ri_clear {T} (x : rindex T) : rindex T := ri_empty (brows x) (bcols x).

(** The collectors, 1430-1621. *)
Definition got {K} (eqb : K -> K -> bool) (m : list (K * list N)) (k : K) : list N :=
  match mget eqb m k with Some l => l | None => [] end.
Definition tree_ids (t : itree) (low high : N) : list N := flat_map snd (it_query low high t).
Definition tree_got (m : list (k2 * itree)) (k : k2) (low high : N) : list N :=
  match mget k2_eqb m k with Some t => tree_ids t low high | None => [] end.
(** Walks over a whole map with a test on the key. *)
Definition walk2 (m : list (k2 * list N)) (s : N) (p : N -> bool) : list N :=
  flat_map (fun e => if N.eqb (fst (fst e)) s && p (snd (fst e)) then snd e else []) m.
Definition walk3 (m : list (k3 * list N)) (s : N) (p : N -> N -> bool) : list N :=
  flat_map (fun e => if N.eqb (fst (fst (fst e))) s && p (snd (fst (fst e))) (snd (fst e)) then snd e else []) m.
Definition walkt (m : list (k2 * itree)) (s : N) (p : N -> bool) (low high : N) : list N :=
  flat_map (fun e => if N.eqb (fst (fst e)) s && p (snd (fst e)) then tree_ids (snd e) low high else []) m.
Definition btw (a b x : N) : bool := N.leb a x && N.leb x b.
Definition any1 : N -> bool := fun _ => true.
Definition any2 : N -> N -> bool := fun _ _ => true.

(** collect_candidates, 1223-1428. *)
Definition candidates {T} (q : region) (x : rindex T) : list N :=
  let s := sh q in
  let rb n := (n / brows x)%N in
  let cb n := (n / bcols x)%N in
  let fr_r n := walk2 (rows_fr x) s (fun a => N.leb a n) in
  let fr_c n := walk2 (cols_fr x) s (fun a => N.leb a n) in
  let sheet := got N.eqb (whole_s x) s in
  match rows q, cols q with
  | Pt r, Pt c =>
      got k3_eqb (by_row x) (s, r, c) ++ tree_got (col_iv x) (s, c) r r ++ tree_got (row_iv x) (s, r) c c
      ++ got k3_eqb (rects x) (s, rb r, cb c) ++ fr_r r ++ fr_c c
      ++ got k2_eqb (whole_r x) (s, r) ++ got k2_eqb (whole_c x) (s, c) ++ sheet
  | Sp r0 r1, Pt c =>
      walk3 (by_row x) s (fun a b => btw r0 r1 a && N.eqb b c) ++ tree_got (col_iv x) (s, c) r0 r1
      ++ walkt (row_iv x) s (btw r0 r1) c c
      ++ flat_map (fun b => got k3_eqb (rects x) (s, b, cb c)) (upto (rb r0) (rb r1))
      ++ fr_r r1 ++ fr_c c ++ walk2 (whole_r x) s (btw r0 r1) ++ got k2_eqb (whole_c x) (s, c) ++ sheet
  | Pt r, Sp c0 c1 =>
      walk3 (by_row x) s (fun a b => N.eqb a r && btw c0 c1 b) ++ walkt (col_iv x) s (btw c0 c1) r r
      ++ tree_got (row_iv x) (s, r) c0 c1
      ++ flat_map (fun b => got k3_eqb (rects x) (s, rb r, b)) (upto (cb c0) (cb c1))
      ++ fr_r r ++ fr_c c1 ++ got k2_eqb (whole_r x) (s, r) ++ walk2 (whole_c x) s (btw c0 c1) ++ sheet
  | Sp r0 r1, Sp c0 c1 =>
      walk3 (by_row x) s (fun a b => btw r0 r1 a && btw c0 c1 b) ++ walkt (col_iv x) s (btw c0 c1) r0 r1
      ++ walkt (row_iv x) s (btw r0 r1) c0 c1
      ++ flat_map (got k3_eqb (rects x)) (buckets (brows x) (bcols x) s r0 r1 c0 c1)
      ++ fr_r r1 ++ fr_c c1 ++ walk2 (whole_r x) s (btw r0 r1) ++ walk2 (whole_c x) s (btw c0 c1) ++ sheet
  | Fr r, All =>
      walk3 (by_row x) s (fun a _ => N.leb r a) ++ walkt (col_iv x) s any1 r umax
      ++ walkt (row_iv x) s (N.leb r) 0 umax ++ walk3 (rects x) s (fun a _ => N.leb (rb r) a)
      ++ fr_r umax ++ fr_c umax ++ walk2 (whole_r x) s (N.leb r) ++ walk2 (whole_c x) s any1 ++ sheet
  | All, Fr c =>
      walk3 (by_row x) s (fun _ b => N.leb c b) ++ walkt (col_iv x) s (N.leb c) 0 umax
      ++ walkt (row_iv x) s any1 c umax ++ walk3 (rects x) s (fun _ b => N.leb (cb c) b)
      ++ fr_r umax ++ fr_c umax ++ walk2 (whole_r x) s any1 ++ walk2 (whole_c x) s (N.leb c) ++ sheet
  | Pt r, All =>
      walk3 (by_row x) s (fun a _ => N.eqb a r) ++ walkt (col_iv x) s any1 r r
      ++ tree_got (row_iv x) (s, r) 0 umax ++ walk3 (rects x) s (fun a _ => N.eqb a (rb r))
      ++ fr_r r ++ fr_c umax ++ got k2_eqb (whole_r x) (s, r) ++ walk2 (whole_c x) s any1 ++ sheet
  | All, Pt c =>
      walk3 (by_row x) s (fun _ b => N.eqb b c) ++ tree_got (col_iv x) (s, c) 0 umax
      ++ walkt (row_iv x) s any1 c c ++ walk3 (rects x) s (fun _ b => N.eqb b (cb c))
      ++ fr_r umax ++ fr_c c ++ walk2 (whole_r x) s any1 ++ got k2_eqb (whole_c x) (s, c) ++ sheet
  | All, All =>
      walk3 (by_row x) s any2 ++ walkt (col_iv x) s any1 0 umax ++ walkt (row_iv x) s any1 0 umax
      ++ walk3 (rects x) s any2 ++ fr_r umax ++ fr_c umax
      ++ walk2 (whole_r x) s any1 ++ walk2 (whole_c x) s any1 ++ sheet
  | _, _ => map (fun p => N.of_nat (fst p))
              (filter (fun p => N.eqb (sh (fst (snd p))) s) (combine (seq 0 (length (entries x))) (entries x)))
  end.

(** The exact filter of query, 722-735; [self.entries[id]] panics for a bad id. *)
Fixpoint exact {T} (q : region) (en : list (region * T)) (ids : list N) : res unit (list (region * T)) :=
  match ids with
  | [] => Ok []
  | id :: r =>
      match nth_error en (N.to_nat id) with
      | None => Panic
      | Some e => rbind (exact q en r) (fun l => Ok (if meets (fst e) q then e :: l else l))
      end
  end.

(** visit_bounded_candidates, 791-1122, as the list of visits: [None] counts an index
    entry inspected (a node of an interval tree or a filtered point), [Some id] accepts
    a candidate; [visit] is both.  [None] as a whole: the query shape is not supported. *)
Definition visits (ids : list N) : list (option N) := flat_map (fun id => [None; Some id]) ids.
(** IntervalTree::visit_query, interval_tree.rs:159-178. *)
Definition tree_visits (t : itree) (low high : N) : list (option N) :=
  flat_map (fun p => flat_map (fun n => None :: (if N.ltb (fst n) low then [] else map Some (snd n))) (snd p))
           (filter (fun p => N.leb (fst p) high) (imap t)).
Definition vgot {K} (eqb : K -> K -> bool) (m : list (K * list N)) (k : K) := visits (got eqb m k).
Definition vtree (m : list (k2 * itree)) (k : k2) (low high : N) : list (option N) :=
  match mget k2_eqb m k with Some t => tree_visits t low high | None => [] end.
Definition vwalkt (m : list (k2 * itree)) (s : N) (p : N -> bool) (low high : N) : list (option N) :=
  flat_map (fun e => if N.eqb (fst (fst e)) s && p (snd (fst e)) then tree_visits (snd e) low high else []) m.
(** A range walk over the points that inspects all and accepts those within, 968-999. *)
Definition vfilter (m : list (k3 * list N)) (s : N) (p q : N -> bool) : list (option N) :=
  flat_map (fun e => if N.eqb (fst (fst (fst e))) s && p (snd (fst (fst e)))
                     then flat_map (fun id => None :: (if q (snd (fst e)) then [Some id] else [])) (snd e) else []) m.
Definition common {T} (x : rindex T) (s re ce r0 r1 c0 c1 : N) : list (option N) :=
  visits (walk2 (rows_fr x) s (fun a => N.leb a re)) ++ visits (walk2 (cols_fr x) s (fun a => N.leb a ce))
  ++ visits (walk2 (whole_r x) s (btw r0 r1)) ++ visits (walk2 (whole_c x) s (btw c0 c1))
  ++ vgot N.eqb (whole_s x) s.
Definition bounded_visits {T} (q : region) (x : rindex T) : option (list (option N)) :=
  let s := sh q in
  let rb n := (n / brows x)%N in
  let cb n := (n / bcols x)%N in
  match rows q, cols q with
  | Pt r, Pt c => Some
      (vgot k3_eqb (by_row x) (s, r, c) ++ vtree (col_iv x) (s, c) r r ++ vtree (row_iv x) (s, r) c c
       ++ vgot k3_eqb (rects x) (s, rb r, cb c) ++ common x s r c r r c c)
  | Sp r0 r1, Pt c => Some
      (visits (walk3 (by_col x) s (fun a b => N.eqb a c && btw r0 r1 b)) ++ vtree (col_iv x) (s, c) r0 r1
       ++ vwalkt (row_iv x) s (btw r0 r1) c c
       ++ visits (flat_map (fun b => got k3_eqb (rects x) (s, b, cb c)) (upto (rb r0) (rb r1)))
       ++ common x s r1 c r0 r1 c c)
  | Pt r, Sp c0 c1 => Some
      (visits (walk3 (by_row x) s (fun a b => N.eqb a r && btw c0 c1 b)) ++ vwalkt (col_iv x) s (btw c0 c1) r r
       ++ vtree (row_iv x) (s, r) c0 c1
       ++ visits (flat_map (fun b => got k3_eqb (rects x) (s, rb r, b)) (upto (cb c0) (cb c1)))
       ++ common x s r c1 r r c0 c1)
  | Sp r0 r1, Sp c0 c1 => Some
      ((if N.leb (r1 - r0) (c1 - c0) then vfilter (by_row x) s (btw r0 r1) (btw c0 c1)
        else vfilter (by_col x) s (btw c0 c1) (btw r0 r1))
       ++ vwalkt (col_iv x) s (btw c0 c1) r0 r1 ++ vwalkt (row_iv x) s (btw r0 r1) c0 c1
       ++ visits (flat_map (fun a => flat_map (fun b => got k3_eqb (rects x) (s, a, b)) (upto (cb c0) (cb c1)))
                           (upto (rb r0) (rb r1)))
       ++ common x s r1 c1 r0 r1 c0 c1)
  | Sp r0 r1, All => Some
      (visits (walk3 (by_row x) s (fun a b => btw r0 r1 a && btw 0 umax b)) ++ vwalkt (col_iv x) s (btw 0 umax) r0 r1
       ++ vwalkt (row_iv x) s (btw r0 r1) 0 umax
       ++ visits (walk3 (rects x) s (fun a b => btw (rb r0) (rb r1) a && btw 0 umax b))
       ++ common x s r1 umax r0 r1 0 umax)
  | All, Sp c0 c1 => Some
      (visits (walk3 (by_col x) s (fun a b => btw c0 c1 a && btw 0 umax b)) ++ vwalkt (col_iv x) s (btw c0 c1) 0 umax
       ++ vwalkt (row_iv x) s (btw 0 umax) c0 c1
       ++ visits (walk3 (rects_c x) s (fun a b => btw (cb c0) (cb c1) a && btw 0 umax b))
       ++ common x s umax c1 0 umax c0 c1)
  | All, All => Some
      (visits (walk3 (by_row x) s (fun a b => btw 0 umax a && btw 0 umax b)) ++ vwalkt (col_iv x) s (btw 0 umax) 0 umax
       ++ vwalkt (row_iv x) s (btw 0 umax) 0 umax
       ++ visits (walk3 (rects x) s (fun a b => btw 0 umax a && btw 0 umax b))
       ++ common x s umax umax 0 umax 0 umax)
  | _, _ => None
  end.
(** BoundedCandidateVisitor, 565-595: [None] when the walk was stopped. *)
Fixpoint visit (max visited : N) (ids : list N) (vs : list (option N)) : option (list N) :=
  match vs with
  | [] => Some ids
  | None :: r => if N.ltb max (visited + 1) then None else visit max (visited + 1) ids r
  | Some id :: r =>
      if memN id ids then visit max visited ids r
      else if N.eqb (N.of_nat (length ids)) max then None else visit max visited (ids ++ [id]) r
  end.
(** query_bounded, 745-781: [Err] is Incomplete. *)
Definition query_bounded {T} (q : region) (max : N) (x : rindex T) : res unit (list (region * T)) :=
  match bounded_visits (norm q) x with
  | None => Err tt
  | Some vs => match visit max 0 [] vs with None => Err tt | Some ids => exact q (entries x) ids end
  end.

(** query, 712-743, with the order of the hash set of candidates given. *)
Section Query.
  Variable ord : list N -> list N.
  Definition query {T} (q : region) (x : rindex T) : res unit (list (region * T)) :=
    exact q (entries x) (ord (nodup N.eq_dec (candidates (norm q) x))).
End Query.

(** * Dirty domains and projections, producer.rs *)

(** ProducerDirtyDomain, 36-41. *)
Inductive dirty := Whole | Cells (l : list cell) | Regions (l : list region).

(** append_unique, 127-138. *)
Fixpoint append_unique {A} (eqb : A -> A -> bool) (old new : list A) : list A :=
  match new with
  | [] => old
  | a :: r => append_unique eqb (if existsb (eqb a) old then old else old ++ [a]) r
  end.
(** merge, 58-86. *)
Definition merge (a b : dirty) : dirty :=
  match a, b with
  | Whole, _ | _, Whole => Whole
  | Cells x, Cells y => Cells (append_unique cl_eqb x y)
  | Regions x, Regions y => Regions (append_unique rg_eqb x y)
  | Cells x, Regions y => Regions (append_unique rg_eqb (map point x) y)
  | Regions x, Cells y => Regions (append_unique rg_eqb x (map point y))
  end.
Fixpoint list_eqb {A} (eqb : A -> A -> bool) (a b : list A) : bool :=
  match a, b with
  | [], [] => true
  | x :: a, y :: b => eqb x y && list_eqb eqb a b
  | _, _ => false
  end.
Definition dirty_eqb (a b : dirty) : bool :=
  match a, b with
  | Whole, Whole => true
  | Cells x, Cells y => list_eqb cl_eqb x y
  | Regions x, Regions y => list_eqb rg_eqb x y
  | _, _ => false
  end.
(** result_regions, 88-98. *)
Definition result_regions (d : dirty) (result : region) : list region :=
  match d with
  | Whole => [result]
  | Cells l => map point l
  | Regions l => l
  end.
(** intersect_demanded, 100-125. *)
Definition demanded_regions (ds ms : list region) : list region :=
  fold_left (fun acc d => fold_left (fun acc m =>
    match inter d m with
    | Some r => if existsb (rg_eqb r) acc then acc else acc ++ [r]
    | None => acc
    end) ms acc) ds [].
Definition intersect_demanded (d : dirty) (result : region) (ms : list region) : option dirty :=
  match ms with
  | [] => None
  | _ =>
      match demanded_regions (result_regions d result) ms with
      | [] => None
      | [r] => match d with
               | Whole => if rg_eqb r result then Some Whole else Some (Regions [r])
               | _ => Some (Regions [r])
               end
      | l => Some (Regions l)
      end
  end.

(** AxisProjection, 804-808, and DirtyProjectionRule, 621-638. *)
Inductive proj := Rel (off : Z) | Abs (i : N).
Inductive rule :=
| ACell (r c : proj)
| ARange (r0 r1 c0 c1 : proj)
| WCols (c0 c1 : proj)
| WResult.
Inductive reason :=
| UnsupportedSummary | UnsupportedSheet | UnsupportedAxis | UnboundedResult | Overflow
| NeedsRegion | MissingResult | IterationLimit.
Definition is_i64 (z : Z) : bool := Z.leb i64min z && Z.leb z i64max.

(** add_offset, 1380-1386. *)
Definition add_offset (v : N) (off : Z) : res reason N :=
  let z := (Z.of_N v + off)%Z in
  if is_i64 z && Z.leb 0 z && Z.leb z (Z.of_N umax) then Ok (Z.to_N z) else Err Overflow.
(** BoundedRange::from_axis_range and bounded_extents, 1263-1269 and 1304-1310. *)
Definition extent (a : axis) : option (N * N) :=
  match a with Pt p => Some (p, p) | Sp s e => Some (s, e) | _ => None end.
Definition extents (r : region) : option ((N * N) * (N * N)) :=
  match extent (rows r), extent (cols r) with Some a, Some b => Some (a, b) | _, _ => None end.
(** source_extent_for_result, 826-837. *)
Definition source_extent (p : proj) (e : N * N) : res reason (N * N) :=
  match p with
  | Rel off => rbind (add_offset (fst e) off) (fun a => rbind (add_offset (snd e) off) (fun b => Ok (a, b)))
  | Abs i => Ok (i, i)
  end.
(** range_source_extent_for_result, 868-883. *)
Definition range_extent (a b : proj) (e : N * N) : res reason (N * N) :=
  rbind (source_extent a e) (fun x => rbind (source_extent b e) (fun y =>
    Ok (N.min (fst x) (fst y), N.max (snd x) (snd y)))).
(** region_from_bounded_extents, 1360-1371. *)
Definition ext_axis (e : N * N) : axis := if N.eqb (fst e) (snd e) then Pt (fst e) else Sp (fst e) (snd e).
Definition ext_region (s : N) (r c : N * N) : region := Rg s (ext_axis r) (ext_axis c).

(** read_region_for_result, 683-717. *)
Definition read_region (ru : rule) (s : N) (result : region) : res reason region :=
  match ru with
  | WResult => Err NeedsRegion
  | WCols _ _ => Err UnsupportedAxis
  | ACell r c =>
      match extents result with
      | None => Err UnboundedResult
      | Some (er, ec) => rbind (source_extent r er) (fun a => rbind (source_extent c ec) (fun b => Ok (ext_region s a b)))
      end
  | ARange r0 r1 c0 c1 =>
      match extents result with
      | None => Err UnboundedResult
      | Some (er, ec) => rbind (range_extent r0 r1 er) (fun a => rbind (range_extent c0 c1 ec) (fun b => Ok (ext_region s a b)))
      end
  end.
(** read_regions_for_result, 719-747. *)
Definition read_regions (ru : rule) (s : N) (result : region) : res reason (list region) :=
  match ru with
  | ACell _ _ | ARange _ _ _ _ => rbind (read_region ru s result) (fun r => Ok [r])
  | WResult => Err NeedsRegion
  | WCols c0 c1 =>
      match extents result with
      | None => Err UnboundedResult
      | Some (_, ec) => rbind (range_extent c0 c1 ec) (fun b =>
          if N.ltb (snd b) (fst b) then Err Overflow
          else if N.ltb umax (snd b - fst b + 1) then Err Overflow
          else if N.ltb 256 (snd b - fst b + 1) then Err UnsupportedAxis
          else Ok (map (fun c => Rg s All (Pt c)) (upto (fst b) (snd b))))
      end
  end.

(** normalize_axis_range, axis_range_from_u32_bounds, axis_range_from_shifted_bounds,
    intersect_axis_ranges, 1436-1490. *)
Definition norm2 (a : axis) : axis :=
  match a with
  | Sp s e => if N.eqb s e then Pt s else a
  | Fr s => if N.eqb s 0 then All else a
  | To e => if N.eqb e umax then All else a
  | _ => a
  end.
Definition from_bounds (low high : N) : axis :=
  norm2 (if N.eqb low high then Pt low
         else if N.eqb low 0 && N.eqb high umax then All
         else if N.eqb high umax then Fr low
         else if N.eqb low 0 then To high
         else Sp low high).
Definition from_shifted (low high : Z) : option axis :=
  if Z.ltb high low || Z.ltb high 0 || Z.ltb (Z.of_N umax) low then None
  else Some (from_bounds (clamp32 low) (clamp32 high)).
Definition ax_isect (a b : axis) : option axis :=
  match a, b with
  | All, r | r, All => Some (norm2 r)
  | Fr x, Fr y => Some (norm2 (Fr (N.max x y)))
  | To x, To y => Some (norm2 (To (N.min x y)))
  | _, _ =>
      let low := N.max (fst (ax_bounds a)) (fst (ax_bounds b)) in
      let high := N.min (snd (ax_bounds a)) (snd (ax_bounds b)) in
      if N.leb low high then Some (from_bounds low high) else None
  end.
(** shifted_coord_for_clip and checked_shift_to_u32, 1492-1499. *)
Definition clip_shift (v : N) (off : Z) : Z := let z := (Z.of_N v + off)%Z in if is_i64 z then z else i64max.
Definition checked_shift (v : N) (off : Z) : option N :=
  let z := (Z.of_N v + off)%Z in
  if is_i64 z && Z.leb 0 z && Z.leb z (Z.of_N umax) then Some (Z.to_N z) else None.
(** project_axis_range_through_offset, 1388-1418. *)
Definition through (a : axis) (off : Z) : option axis :=
  match a with
  | Pt p => option_map Pt (checked_shift p off)
  | Sp s e => from_shifted (clip_shift s off) (clip_shift e off)
  | Fr s => let z := clip_shift s off in if Z.ltb z 0 then Some All else Some (norm2 (Fr (clamp32 z)))
  | To e => let z := clip_shift e off in if Z.ltb z 0 then None else Some (norm2 (To (clamp32 z)))
  | All => Some All
  end.
(** [i64::checked_neg]. *)
Definition neg (off : Z) : res reason Z := if Z.eqb off i64min then Err Overflow else Ok (- off)%Z.
(** project_axis_interval_through_offsets, 1420-1434. *)
Definition through2 (s e : N) (lo hi : Z) : res reason (option axis) :=
  rbind (neg lo) (fun nl => rbind (neg hi) (fun nh => Ok (from_shifted (clip_shift s nl) (clip_shift e nh)))).
Definition obind {A B} (o : option A) (f : A -> option B) : option B := match o with Some a => f a | None => None end.

(** project_changed_axis, 839-858. *)
Definition dirty_axis (p : proj) (changed result : axis) : res reason (option axis) :=
  match p with
  | Rel off => rbind (neg off) (fun n => Ok (obind (through changed n) (fun d => ax_isect d result)))
  | Abs i => Ok (if ax_has changed i then Some result else None)
  end.
(** project_changed_range_axis, 885-969. *)
Definition dirty_range (a b : proj) (changed result : axis) : res reason (option axis) :=
  match a, b with
  | Rel x, Rel y =>
      let mn := Z.min x y in
      let mx := Z.max x y in
      rbind (match changed with
             | All => Ok (Some All)
             | Pt p => through2 p p mx mn
             | Sp s e => through2 s e mx mn
             | Fr s => rbind (neg mx) (fun n => Ok (through (Fr s) n))
             | To e => rbind (neg mn) (fun n => Ok (through (To e) n))
             end) (fun d => Ok (obind d (fun d => ax_isect d result)))
  | Abs i, Abs j => Ok (if ax_meets (Sp (N.min i j) (N.max i j)) changed then Some result else None)
  | Rel off, Abs i | Abs i, Rel off =>
      let lo := fst (ax_bounds changed) in
      let hi := snd (ax_bounds changed) in
      rbind (neg off) (fun n =>
        let d := if N.leb lo i && N.leb i hi then Some All
                 else if N.ltb i lo then through (Fr lo) n else through (To hi) n in
        Ok (obind d (fun d => ax_isect d result)))
  end.

(** ProjectionResult, 971-980. *)
Inductive outcome := Exact (d : dirty) | Conservative (d : dirty) (r : reason) | NoInter | Unsupported (r : reason).

(** region_from_axis_ranges, 1331-1358, and dirty_domain_from_region, 1373-1378. *)
Definition axes_region (s : N) (r c : axis) : region :=
  match r, c with
  | Pt _, Pt _ | Sp _ _, Pt _ | Pt _, Sp _ _ | Sp _ _, Sp _ _ | Fr _, All | All, Fr _
  | Pt _, All | All, Pt _ | All, All => Rg s r c
  | _, _ => ext_region s (ax_bounds r) (ax_bounds c)
  end.
Definition region_dirty (r : region) : dirty :=
  match rows r, cols r with Pt a, Pt b => Cells [Cl (sh r) a b] | _, _ => Regions [r] end.
(** projection_result_from_axis_ranges, 1312-1329 ([region_from_axis_ranges] never fails). *)
Definition axes_outcome (s : N) (r c : axis) (bounded : bool) : outcome :=
  if negb bounded && ax_bounded r && ax_bounded c then Unsupported UnboundedResult
  else Exact (region_dirty (axes_region s r c)).

Definition both (s : N) (bounded : bool) (r c : res reason (option axis)) : outcome :=
  match r with
  | Err e => Unsupported e
  | Ok None | Panic => NoInter
  | Ok (Some dr) =>
      match c with
      | Err e => Unsupported e
      | Ok None | Panic => NoInter
      | Ok (Some dc) => axes_outcome s dr dc bounded
      end
  end.

(** project_changed_region, 749-825. *)
Definition project (ru : rule) (changed read result : region) : outcome :=
  if negb (meets changed read) then NoInter
  else
    let b := match extents result with Some _ => true | None => false end in
    match ru with
    | WResult => Exact Whole
    | WCols _ _ => Exact (Regions [result])
    | ACell r c => both (sh result) b (dirty_axis r (rows changed) (rows result)) (dirty_axis c (cols changed) (cols result))
    | ARange r0 r1 c0 c1 =>
        both (sh result) b (dirty_range r0 r1 (rows changed) (rows result)) (dirty_range c0 c1 (cols changed) (cols result))
    end.

(** with_relative_offsets_shifted, 650-681. *)
Definition i64_sat (z : Z) : Z := Z.max i64min (Z.min i64max z).
Definition proj_shift (d : Z) (p : proj) : proj := match p with Rel off => Rel (i64_sat (off + d)) | Abs i => Abs i end.
Definition rule_shift (dr dc : Z) (ru : rule) : rule :=
  match ru with
  | ACell r c => ACell (proj_shift dr r) (proj_shift dc c)
  | ARange r0 r1 c0 c1 => ARange (proj_shift dr r0) (proj_shift dr r1) (proj_shift dc c0) (proj_shift dc c1)
  | WCols c0 c1 => WCols (proj_shift dc c0) (proj_shift dc c1)
  | WResult => WResult
  end.

(** * Summaries of reads, producer.rs:447-563 *)

(** AxisRef (template_canonical.rs:94-103); a precedent with its sheet resolved
    ([None]: the name is not known). *)
Inductive axref := RelPl (off : Z) | AbsVc (i : N) | OpenStart | OpenEnd | WholeAxis | UnsupportedRef.
Inductive precedent :=
| PCell (s : option N) (r c : axref)
| PRange (s : option N) (r0 r1 c0 c1 : axref).

(** from_axis_ref, 811-824: absolute coordinates are counted from 1. *)
Definition from_ref (a : axref) : res reason proj :=
  match a with
  | RelPl off => Ok (Rel off)
  | AbsVc i => if N.eqb i 0 then Err Overflow else Ok (Abs (i - 1))
  | _ => Err UnsupportedAxis
  end.
Definition finite_ref (a : axref) : bool := match a with RelPl _ | AbsVc _ => true | _ => false end.
Definition is_whole (a : axref) : bool := match a with WholeAxis => true | _ => false end.
Definition dep : Type := (region * rule)%type.
Definition proj_eqb (a b : proj) : bool :=
  match a, b with Rel x, Rel y => Z.eqb x y | Abs i, Abs j => N.eqb i j | _, _ => false end.
Definition rule_eqb (a b : rule) : bool :=
  match a, b with
  | ACell r c, ACell r' c' => proj_eqb r r' && proj_eqb c c'
  | ARange r0 r1 c0 c1, ARange r0' r1' c0' c1' => proj_eqb r0 r0' && proj_eqb r1 r1' && proj_eqb c0 c0' && proj_eqb c1 c1'
  | WCols c0 c1, WCols c0' c1' => proj_eqb c0 c0' && proj_eqb c1 c1'
  | WResult, WResult => true
  | _, _ => false
  end.
Definition dep_eqb (a b : dep) : bool := rg_eqb (fst a) (fst b) && rule_eqb (snd a) (snd b).

(** The rule of a precedent and the sheet it reads, 462-517. *)
Definition precedent_rule (p : precedent) : res reason (N * rule) :=
  match p with
  | PCell None _ _ | PRange None _ _ _ _ => Err UnsupportedSheet
  | PCell (Some s) r c => rbind (from_ref r) (fun r => rbind (from_ref c) (fun c => Ok (s, ACell r c)))
  | PRange (Some s) r0 r1 c0 c1 =>
      if is_whole c0 && is_whole c1 then Err UnsupportedAxis
      else if is_whole r0 && is_whole r1 && finite_ref c0 && finite_ref c1
      then rbind (from_ref c0) (fun c0 => rbind (from_ref c1) (fun c1 => Ok (s, WCols c0 c1)))
      else rbind (from_ref r0) (fun r0 => rbind (from_ref r1) (fun r1 =>
           rbind (from_ref c0) (fun c0 => rbind (from_ref c1) (fun c1 => Ok (s, ARange r0 r1 c0 c1)))))
  end.
(** from_formula_summary for an accepted summary, 455-563. *)
Fixpoint summary_deps (result : region) (ps : list precedent) (acc : list dep) : res reason (list dep) :=
  match ps with
  | [] => Ok acc
  | p :: r =>
      rbind (precedent_rule p) (fun sr =>
      rbind (read_regions (snd sr) (fst sr) result) (fun rs =>
        summary_deps result r (append_unique dep_eqb acc (map (fun x => (x, snd sr)) rs))))
  end.
Definition summary (d : domain) (ps : list precedent) : res reason (list dep) := summary_deps (of_domain d) ps [].

(** * The dirty closure, producer.rs:1034-1243 *)

(** FormulaProducerId, 24-28, as a number. *)
Definition producer := N.
(** FormulaConsumerReadEntry, 251-257. *)
Record rentry := REntry { consumer : producer; eread : region; eresult : region; erule : rule }.
(** FormulaConsumerReadIndex, 268-320. *)
Record cindex := CIndex { cidx : rindex N; centries : list rentry }.
Definition ci_empty : cindex := CIndex ri_new [].
Definition insert_read (e : rentry) (x : cindex) : cindex :=
  CIndex (ri_insert (eread e) (N.of_nat (length (centries x))) (cidx x)) (centries x ++ [e]).

Record closure := Closure {
  work : list (producer * dirty);
  changed_out : list region;
  fallbacks : list (producer * region * reason);
  incomplete : bool }.
(** The variables of the loop, 1063-1089. *)
Record cstate := CState {
  queue : list region; seen : list region;
  cdirty : list (producer * dirty); cout : list region; cfall : list (producer * region * reason) }.

Section Closure.
  Variable ord : list N -> list N.
  Variable result_of : producer -> option region.

  (** The emissions of apply_dirty_projection, 1232-1241. *)
  Definition emit (st : cstate) (r : region) : cstate :=
    if existsb (rg_eqb r) (seen st) then st
    else CState (queue st ++ [r]) (seen st ++ [r]) (cdirty st) (cout st ++ [r]) (cfall st).
  (** apply_dirty_projection, 1200-1243. *)
  Definition apply_dirty (c : producer) (changed : region) (d : dirty) (st : cstate) : cstate :=
    let '(m, grew) :=
      match mget N.eqb (cdirty st) c with
      | Some old => let m := merge old d in (m, negb (dirty_eqb m old))
      | None => (d, true)
      end in
    let st1 := CState (queue st) (seen st) (mput N.eqb (cdirty st) c m) (cout st) (cfall st) in
    if negb grew then st1
    else match result_of c with
         | None => CState (queue st1) (seen st1) (cdirty st1) (cout st1) (cfall st1 ++ [(c, changed, MissingResult)])
         | Some r => fold_left emit (result_regions d r) st1
         end.
  Definition fall (c : producer) (changed : region) (r : reason) (st : cstate) : cstate :=
    CState (queue st) (seen st) (cdirty st) (cout st) (cfall st ++ [(c, changed, r)]).

  (** The body for one candidate, query_changed_region 322-360 and 1122-1177. *)
  Definition candidate (changed : region) (st : cstate) (e : rentry) : cstate :=
    match project (erule e) changed (eread e) (eresult e) with
    | Exact d => apply_dirty (consumer e) changed d st
    | Conservative d r => apply_dirty (consumer e) changed d (fall (consumer e) changed r st)
    | NoInter => st
    | Unsupported r => fall (consumer e) changed r st
    end.
  Fixpoint lookups (en : list rentry) (l : list (region * N)) : res unit (list rentry) :=
    match l with
    | [] => Ok []
    | (_, id) :: r => match nth_error en (N.to_nat id) with
                      | None => Panic
                      | Some e => rbind (lookups en r) (fun l => Ok (e :: l))
                      end
    end.
  Definition changed_matches (x : cindex) (changed : region) : res unit (list rentry) :=
    rbind (query ord changed (cidx x)) (lookups (centries x)).

  (** The loop, 1091-1179; [limit] is DIRTY_CLOSURE_ITERATION_LIMIT (100000). *)
  Fixpoint closure_loop (limit : nat) (x : cindex) (st : cstate) : res unit closure :=
    match queue st with
    | [] => Ok (Closure (cdirty st) (cout st) (cfall st) false)
    | changed :: q =>
        match limit with
        | O => Ok (Closure [] [] [(0%N, changed, IterationLimit)] true)
        | S n =>
            rbind (changed_matches x changed) (fun ms =>
              closure_loop n x
                (fold_left (candidate changed) ms (CState q (seen st) (cdirty st) (cout st) (cfall st))))
        end
    end.
  (** The inputs without repetitions, 1066-1084. *)
  Definition dirty_closure (limit : nat) (x : cindex) (changed : list region) : res unit closure :=
    let inputs := append_unique rg_eqb [] changed in
    closure_loop limit x (CState inputs inputs [] [] []).
End Closure.
