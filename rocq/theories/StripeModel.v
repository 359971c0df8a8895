(** Compressed range dependencies: which stripes a formula that reads a large range is
    filed under, and which formulas a changed cell or rectangle finds.
    Models crates/formualizer-eval/src/engine/graph/range_deps.rs:555-725
    (add_range_dependent_edges), 728-906 (add_range_deps_from_keys),
    crates/formualizer-eval/src/engine/graph/mod.rs:118-142 (StripeKey, block_index),
    3223-3322 (the stripe part of remove_dependent_edges), 3789-3897
    (collect_range_dependents_for_vertex, ..._for_rect) and
    crates/formualizer-eval/src/engine/ingest_builder.rs:78-118 (range_key_from_shared).

    Simplifications: a range carries the sheet its locator resolves to (dependency
    extraction stores sheet ids, formula_analysis.rs:110-150); stripe_to_dependents is the
    list of its (key, dependent) pairs, an empty entry being the same as none; u32
    arithmetic is exact on sheet coordinates; the self-loop record is in DirtyModel.v. *)
From Verif Require Import Base Maps IntervalModel.

Record rng := Rng { rng_sheet : N; r_sr : option N; r_er : option N; r_sc : option N; r_ec : option N }.

Inductive stype := SRow | SCol | SBlock.
Definition skey : Type := (N * stype * N)%type.
Definition stype_eqb (a b : stype) : bool :=
  match a, b with SRow, SRow | SCol, SCol | SBlock, SBlock => true | _, _ => false end.
Definition skey_eqb (a b : skey) : bool :=
  N.eqb (fst (fst a)) (fst (fst b)) && stype_eqb (snd (fst a)) (snd (fst b)) && N.eqb (snd a) (snd b).

(** a..=b *)
Definition upto (a b : N) : list N := map (fun i => (a + N.of_nat i)%N) (seq 0 (N.to_nat (b + 1 - a))).
Definition is_none {A} (o : option A) : bool := match o with None => true | Some _ => false end.
Definition is_some {A} (o : option A) : bool := match o with None => false | Some _ => true end.
Definition or_else (o : option N) (d : N) : N := match o with Some x => x | None => d end.

Definition BLOCK : N := 256.
(** mod.rs:137-141; the shift drops bits above 32. *)
Definition block_index (row col : N) : N :=
  N.lor (N.modulo (N.shiftl (N.div row BLOCK) 16) 4294967296) (N.div col BLOCK).
Definition block_keys (sheet r0 r1 c0 c1 : N) : list skey :=
  flat_map (fun br => map (fun bc => (sheet, SBlock, block_index (br * BLOCK) (bc * BLOCK)))
                          (upto (N.div c0 BLOCK) (N.div c1 BLOCK)))
           (upto (N.div r0 BLOCK) (N.div r1 BLOCK)).
Definition col_keys (sheet a b : N) : list skey := map (fun c => (sheet, SCol, c)) (upto a b).
Definition row_keys (sheet a b : N) : list skey := map (fun r => (sheet, SRow, r)) (upto a b).

(** range_deps.rs:592-722, and the same in mod.rs:3226-3305 *)
Definition stripes_of (blocks : bool) (r : rng) : list skey :=
  let col_stripes := (is_none (r_sr r) && is_none (r_er r))
    || (is_some (r_sc r) && is_some (r_ec r) && (is_none (r_sr r) || is_none (r_er r))) in
  let row_stripes := (is_none (r_sc r) && is_none (r_ec r))
    || (is_some (r_sr r) && is_some (r_er r) && (is_none (r_sc r) || is_none (r_ec r))) in
  if col_stripes && negb row_stripes then
    let sc := or_else (r_sc r) 0 in col_keys (rng_sheet r) sc (or_else (r_ec r) sc)
  else if row_stripes && negb col_stripes then
    let sr := or_else (r_sr r) 0 in row_keys (rng_sheet r) sr (or_else (r_er r) sr)
  else
    let sr := or_else (r_sr r) 0 in
    let sc := or_else (r_sc r) 0 in
    let er := or_else (r_er r) sr in
    let ec := or_else (r_ec r) sc in
    let height := (er - sr + 1)%N in
    let width := (ec - sc + 1)%N in
    if blocks && N.ltb 1 height && N.ltb 1 width then block_keys (rng_sheet r) sr er sc ec
    else if N.ltb width height then col_keys (rng_sheet r) sc ec
    else row_keys (rng_sheet r) sr er.

Record rindex := RIndex { ranges_of : list (N * list rng); stripes : list (skey * N) }.
Definition rindex_new : rindex := RIndex [] [].

(** add_range_dependent_edges *)
Definition add_ranges (blocks : bool) (dep : N) (rs : list rng) (x : rindex) : rindex :=
  match rs with
  | [] => x
  | _ => RIndex (mput N.eqb (ranges_of x) dep rs)
                (map (fun k => (k, dep)) (flat_map (stripes_of blocks) rs) ++ stripes x)
  end.

(** remove_dependent_edges *)
Definition remove_ranges (blocks : bool) (dep : N) (x : rindex) : rindex :=
  match mget N.eqb (ranges_of x) dep with
  | None => x
  | Some rs =>
      let gone := flat_map (stripes_of blocks) rs in
      RIndex (mdel N.eqb (ranges_of x) dep)
             (filter (fun e => negb (N.eqb (snd e) dep && existsb (skey_eqb (fst e)) gone)) (stripes x))
  end.

Definition U32_MAX : N := 4294967295.
(** The precision check, mod.rs:3862-3888 *)
Definition overlaps (r : rng) (sheet r0 c0 r1 c1 : N) : bool :=
  N.eqb (rng_sheet r) sheet
  && N.leb (or_else (r_sr r) 0) r1 && N.leb r0 (or_else (r_er r) U32_MAX)
  && N.leb (or_else (r_sc r) 0) c1 && N.leb c0 (or_else (r_ec r) U32_MAX).

(** collect_range_dependents_for_rect *)
Definition collect (blocks : bool) (sheet r0 c0 r1 c1 : N) (x : rindex) : list N :=
  let keys := col_keys sheet c0 c1 ++ row_keys sheet r0 r1 ++ (if blocks then block_keys sheet r0 r1 c0 c1 else []) in
  let candidates := nodup N.eq_dec (flat_map (fun k => map snd (filter (fun e => skey_eqb (fst e) k) (stripes x))) keys) in
  filter (fun d => match mget N.eqb (ranges_of x) d with
                   | Some rs => existsb (fun r => overlaps r sheet r0 c0 r1 c1) rs
                   | None => false
                   end) candidates.

Inductive rop := RAdd (dep : N) (rs : list rng) | RRemove (dep : N).
Definition rstep (blocks : bool) (o : rop) (x : rindex) : rindex :=
  match o with
  | RAdd dep rs => add_ranges blocks dep rs x
  | RRemove dep => remove_ranges blocks dep x
  end.
Definition rrun (blocks : bool) (os : list rop) (x : rindex) : rindex := fold_left (fun x o => rstep blocks o x) os x.

(** ** The bulk loader's range keys *)
Inductive range_key :=
| RKRect (sheet r0 c0 r1 c1 : N)
| RKWholeRow (sheet row : N)
| RKWholeCol (sheet col : N)
| RKOpen (sheet : N) (start stop : option (N * N)).

Definition zip {A B} (a : option A) (b : option B) : option (A * B) :=
  match a, b with Some x, Some y => Some (x, y) | _, _ => None end.

(** range_key_from_shared *)
Definition key_of_range (r : rng) : range_key :=
  let other := RKOpen (rng_sheet r) (zip (r_sr r) (r_sc r)) (zip (r_er r) (r_ec r)) in
  match r_sr r, r_sc r, r_er r, r_ec r with
  | Some a, Some b, Some c, Some d => RKRect (rng_sheet r) a b c d
  | None, Some b, None, Some d => if N.eqb b d then RKWholeCol (rng_sheet r) (b + 1) else other
  | Some a, None, Some c, None => if N.eqb a c then RKWholeRow (rng_sheet r) (a + 1) else other
  | _, _, _, _ => other
  end.

(** from_parts refuses a reversed pair of bounds. *)
Definition in_order (a b : option N) : bool := match a, b with Some x, Some y => N.leb x y | _, _ => true end.
Definition from_parts (sheet : N) (sr sc er ec : option N) : option rng :=
  if in_order sr er && in_order sc ec then Some (Rng sheet sr er sc ec) else None.
(** range_deps.rs:748-782 *)
Definition range_of_key (k : range_key) : option rng :=
  match k with
  | RKRect s a b c d => from_parts s (Some a) (Some b) (Some c) (Some d)
  | RKWholeRow s row => from_parts s (Some (row - 1)%N) None (Some (row - 1)%N) None
  | RKWholeCol s col => from_parts s None (Some (col - 1)%N) None (Some (col - 1)%N)
  | RKOpen s a b => from_parts s (option_map fst a) (option_map snd a) (option_map fst b) (option_map snd b)
  end.
Definition bulk_ranges (rs : list rng) : list rng :=
  flat_map (fun r => match range_of_key (key_of_range r) with Some r' => [r'] | None => [] end) rs.
