(** Evaluating the placements of a formula span: once for a constant span, once per group of
    placements with the same parameters, or one by one.
    crates/formualizer-eval/src/formula_plane/span_eval.rs 115-120, 218-391 (evaluate_task),
    393-560 (one by one), 528-585 (should_try_memoization), 604-743 (memo groups) and
    838-945 (parameter keys); placement.rs 1006-1010 (constant spans).

    Simplifications.  A placement is a row and a column counted from one; the sheet of the
    span is fixed.  The interpreter is any function of what it can see at a placement: the
    template with its references at their places, or their values where the function contract
    takes a value, and the literals of the placement.  Reading a cell gives a literal that is
    not an array and does not fail; the epoch, cancellation and thread pool are left out
    (they only pick an order or stop the task).  The hash map of groups is a list in order of
    insertion, given back in an arbitrary order. *)
From Coq Require Import List Bool NArith ZArith String.
From Verif Require Import Base LexModel RtModel TkModel.
Import ListNotations.
Open Scope N_scope.

Definition place : Type := N * N.

(** * What a formula sees at a placement *)

(** An axis of a reference at a placement (instantiate_axis, span_eval.rs:899-909;
    shift_axis_for_offset, interpreter.rs:1702). *)
Inductive fixed := At (z : Z) | AtOpenStart | AtOpenEnd | AtWhole | AtNone.
Definition fix_axis (x : axis) (p : N) : fixed :=
  match x with
  | XRel o => At (Z.of_N p + o)
  | XAbs i => At (Z.of_N i)
  | XOpenStart => AtOpenStart
  | XOpenEnd => AtOpenEnd
  | XWhole => AtWhole
  | XUnsupported => AtNone
  end.
Inductive dref :=
| DCell (s : sheetb) (row col : fixed)
| DRange (s : sheetb) (sr sc er ec : fixed)
| DNamed (n : text)
| DUnsup (k : unsup) (t : text).
Definition fix_ref (r : cref) (p : place) : dref :=
  match r with
  | KCell s x y => DCell s (fix_axis x (fst p)) (fix_axis y (snd p))
  | KRange s a b c d => DRange s (fix_axis a (fst p)) (fix_axis b (snd p)) (fix_axis c (fst p)) (fix_axis d (snd p))
  | KNamed n => DNamed n
  | KUnsup k t => DUnsup k t
  end.
(** The template at a placement; a literal is a hole that the literals of the placement
    fill in order. *)
Inductive dexpr :=
| DHole
| DArray (v : lit)
| DOmit
| DValue (v : lit)
| DAt (c : refctx) (r : dref)
| DUn (op : text) (e : dexpr)
| DBin (op : text) (l r : dexpr)
| DFn (f : fid) (args : list dexpr)
| DCall (callee : dexpr) (args : list dexpr)
| DArr (rows : list (list dexpr)).

Section Span.
(** The cells: get_cell_value of a sheet at a row and a column. *)
Variable world : sheetb -> fixed -> fixed -> lit.

Definition read (r : dref) : lit :=
  match r with DCell s row col => world s row col | _ => LEmpty end.

(** A relative cell in a value context is taken by value, other references as places. *)
Fixpoint seen (p : place) (e : cexpr) : dexpr :=
  match e with
  | ELit v => if is_array v then DArray v else DHole
  | EOmit => DOmit
  | ERef c r => if value_context c && finite_relative r then DValue (read (fix_ref r p)) else DAt c (fix_ref r p)
  | EUn op x => DUn op (seen p x)
  | EBin op l r => DBin op (seen p l) (seen p r)
  | EFn f args => DFn f (map (seen p) args)
  | ECall x args => DCall (seen p x) (map (seen p) args)
  | EArr rows => DArr (map (map (seen p)) rows)
  end.

(** The template of the span and the literals of each placement. *)
Variable e : cexpr.
Variable bindings : place -> list lit.

(** * Parameter keys, span_eval.rs:838-870 *)
Record pkey := PKey { pk_lits : list lit; pk_values : list lit; pk_row : option N; pk_col : option N }.
Definition parameter_key (p : place) : pkey :=
  PKey (bindings p) (map (fun r => read (fix_ref r p)) (value_slots e))
       (if fst (residual e) then Some (fst p) else None)
       (if snd (residual e) then Some (snd p) else None).
(** parameter_key with no deltas, as the sampling calls it (576) *)
Definition sample_key (p : place) : pkey :=
  PKey (bindings p) (map (fun r => read (fix_ref r p)) (value_slots e))
       (if fst (residual e) then Some 0 else None) (if snd (residual e) then Some 0 else None).
Fixpoint lits_eqb (a b : list lit) : bool :=
  match a, b with
  | [], [] => true
  | x :: a, y :: b => lit_eqb x y && lits_eqb a b
  | _, _ => false
  end.
Definition on_eqb (a b : option N) : bool :=
  match a, b with Some x, Some y => x =? y | None, None => true | _, _ => false end.
Definition pkey_eqb (a b : pkey) : bool :=
  lits_eqb (pk_lits a) (pk_lits b) && lits_eqb (pk_values a) (pk_values b) &&
  on_eqb (pk_row a) (pk_row b) && on_eqb (pk_col a) (pk_col b).

(** * Groups, 604-650 *)
Record group := Group { g_key : pkey; g_rep : place; g_places : list place }.
Fixpoint add_group (p : place) (k : pkey) (l : list group) : list group :=
  match l with
  | [] => [Group k p [p]]
  | g :: r => if pkey_eqb k (g_key g) then Group (g_key g) (g_rep g) (g_places g ++ [p]) :: r else g :: add_group p k r
  end.
Definition has_key (k : pkey) (l : list group) : bool := existsb (fun g => pkey_eqb k (g_key g)) l.
Definition MAX_ENTRIES : N := 16384.
(** [None]: too many groups for the placements, the caller goes one by one. *)
Fixpoint groups (writable : N) (l : list place) (acc : list group) : option (list group) :=
  match l with
  | [] => Some acc
  | p :: r =>
      let k := parameter_key p in
      if negb (has_key k acc) && (MAX_ENTRIES <=? len acc) then None
      else let acc := add_group p k acc in
           if writable * 3 <? len acc * 4 then None else groups writable r acc
  end.

(** should_try_memoization, 528-585; [reads_spans] is reads_formula_plane_result and
    [dictionary] says that the literals are kept in a dictionary of that many entries. *)
Variable reads_spans : bool.
Variable dictionary : option N.
Definition distinct (l : list pkey) : list pkey :=
  fold_left (fun acc k => if existsb (pkey_eqb k) acc then acc else acc ++ [k]) l [].
Definition should_try (writable : list place) : bool :=
  if reads_spans then false
  else if len writable <? 2 then false
  else if match value_slots e with [] => true | _ => false end &&
          match dictionary with Some n => n =? len writable | None => false end then false
  else let n := N.min (len writable) 64 in
       let u := len (distinct (map sample_key (firstn (N.to_nat n) writable))) in
       (u <? n) && (u * 4 <=? n * 3).

(** * evaluate_task, 218-391 *)
Variable value : Type.
(** The interpreter, and whether it evaluates without an error: a format is then recorded. *)
Variable interp : dexpr -> list lit -> value.
Variable fine : dexpr -> list lit -> bool.
(** Placements that an overlay formula covers. *)
Variable covered : place -> bool.
(** The origin of the template, its literals, and is_constant_result. *)
Variable origin : place.
Variable constant : bool.
Variable order : list group -> list group.
Variable cancellable : bool.

Record report := Report { r_writes : list (place * value); r_formats : list place }.
Definition value_at (p : place) : value := interp (seen p e) (bindings p).
(** evaluate_placement_value, 404-468: the value is written and its format recorded. *)
Definition formatted (p : place) : list place := if fine (seen p e) (bindings p) then [p] else [].
Definition one_by_one (l : list place) : report :=
  Report (map (fun p => (p, value_at p)) l) (flat_map formatted l).
(** 690-760: a group is evaluated at its representative. *)
Definition memoized (gs : list group) : report :=
  Report (flat_map (fun g => map (fun p => (p, value_at (g_rep g))) (g_places g)) gs)
         (flat_map (fun g => formatted (g_rep g)) gs).
(** 266-322: the tree of the origin, with its own literals. *)
Definition constant_report (l : list place) : report :=
  match l with
  | [] => Report [] []
  | first :: _ =>
      Report (map (fun p => (p, interp (seen origin e) (bindings origin))) l)
             (if fine (seen origin e) (bindings origin) then [first] else [])
  end.
Definition evaluate_task (placements : list place) : report :=
  let writable := filter (fun p => negb (covered p)) placements in
  if constant then constant_report writable
  else if negb cancellable && should_try writable then
         match groups (len writable) writable [] with
         | Some gs => memoized (order gs)
         | None => one_by_one writable
         end
       else one_by_one writable.

(** is_constant_result, placement.rs:1006-1010: no placement is read through, and the
    placements of the family have the literals of the first. *)
Definition constant_result (family : list place) : bool :=
  match residual e with (false, false) => true | _ => false end &&
  match value_slots e with [] => true | _ => false end &&
  forallb (fun p => lits_eqb (bindings p) (bindings origin)) family.
End Span.
