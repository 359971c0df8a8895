(** Functions that return arrays.
    crates/formualizer-eval/src/builtins/lookup/dynamic.rs (51-66 limits, 929-1042
    SORT, 1157-1280 SORTBY, 2608-2672 FILTER, 2778-2862 UNIQUE, 2971-3025 SEQUENCE,
    3106-3134 TRANSPOSE, 3240-3321 TAKE, 3424-3491 DROP), lookup/stack.rs (126-200
    HSTACK, 287-358 VSTACK), lookup/array_shape.rs (95-216 TOCOL, TOROW),
    lookup/choose.rs (282-345 CHOOSECOLS, 438-500 CHOOSEROWS), builtins/utils.rs
    (293-305), engine/range_view.rs (226-280) and formualizer-common/src/value.rs
    (31-87, 169-184).

    Simplifications, beside those of [LookupModel].  An argument is already
    evaluated: a range is a [view], a scalar a [lval]; an error raised while
    evaluating it is not represented.  A function that returns [Err e] and one that
    returns the error value [e] are the same outcome.  Error messages are dropped.
    [usize] is unbounded; [i64] arithmetic that would overflow is [Panic] (what a
    build with overflow checks does; without them it wraps).  [slice::sort_by] is a
    parameter that returns [None] when it panics.  A duration counts as [LOther]. *)
From Coq Require Import QArith Qabs Qround.
From Verif Require Import Base Maps LookupModel.
Close Scope Q_scope.

(** The error kinds these functions produce themselves. *)
Definition K_VALUE : N := 3%N.
Definition K_NUM : N := 6%N.
Definition K_CALC : N := 10%N.

Definition I64_MIN : Z := (- 2 ^ 63)%Z.
Definition I64_MAX : Z := (2 ^ 63 - 1)%Z.
Definition in_i64 (z : Z) : bool := ((I64_MIN <=? z) && (z <=? I64_MAX))%Z.

(** ** Views *)

(** A cell of a range read back: ranges keep integers in the number lane. *)
Definition stored (v : lval) : lval :=
  match v with LInt z => LNum (Fin (inject_Z z)) | _ => v end.

Record view := mkView { v_rows : nat; v_cols : nat; v_at : nat -> nat -> lval }.

(** range_view.rs, [RangeView::get_cell]: blank out of bounds. *)
Definition get_cell (w : view) (r c : nat) : lval :=
  if (r <? v_rows w) && (c <? v_cols w) then stored (v_at w r c) else LEmpty.

Definition row_of (w : view) (r : nat) : list lval := map (get_cell w r) (seq 0 (v_cols w)).
Definition col_of (w : view) (c : nat) : list lval := map (fun r => get_cell w r c) (seq 0 (v_rows w)).

(** range_view.rs, [RangeView::for_each_row] collected. *)
Definition rows_of (w : view) : list (list lval) := map (row_of w) (seq 0 (v_rows w)).

(** range_view.rs:226-280, [RangeView::from_owned_rows]: short rows are filled with blanks. *)
Definition of_rows (rows : list (list lval)) : view :=
  let nrows := length rows in
  let ncols := fold_right Nat.max 0 (map (@length lval) rows) in
  if (nrows =? 0) || (ncols =? 0) then mkView 0 0 (fun _ _ => LEmpty)
  else mkView nrows ncols (fun r c => nth c (nth r rows []) LEmpty).

(** [CalcValue] *)
Inductive calc := Scalar (v : lval) | Range (w : view).
Definition out := res unit calc.
Definition fail (k : N) : out := Ok (Scalar (LErr k)).
Definition empty_range : out := Ok (Range (of_rows [])).

(** builtins/utils.rs:293-305 *)
Definition collapse_if_scalar (rows : list (list lval)) : calc :=
  match rows with
  | [[v]] => Scalar v
  | _ => Range (of_rows rows)
  end.

(** [ArgumentHandle::range_view_or_scalar]: a scalar is a one-cell range. *)
Definition as_view (a : calc) : view :=
  match a with Scalar v => of_rows [[v]] | Range w => w end.

(** ** Scalar arguments *)

(** [x as i64]: truncated, saturated, 0 for NaN. *)
Definition as_i64 (x : fnum) : Z :=
  match x with
  | Fin q => Z.max I64_MIN (Z.min I64_MAX (Z.quot (Qnum q) (Zpos (Qden q))))
  | PInf => I64_MAX
  | NInf => I64_MIN
  | NaN => 0
  end%Z.

(** The number of an optional argument: [dflt] when it is absent or no number. *)
Definition int_arg (dflt : Z) (a : option lval) : Z :=
  match a with
  | Some (LInt i) => i
  | Some (LNum x) => as_i64 x
  | _ => dflt
  end.
Definition true_arg (a : option lval) : bool := match a with Some (LBool true) => true | _ => false end.

(** ** SORT and SORTBY *)
Section Sorting.
  Variable lower : text -> text.
  Variable parse : text -> option fnum.
  Variable sort_by : forall A : Type, (A -> A -> comparison) -> list A -> option (list A).

  (** dynamic.rs:997-1001: [cmp_for_lookup(..).unwrap_or(0)], turned round when descending. *)
  Definition cmp0 (a b : lval) : comparison :=
    match cmp_for_lookup lower parse a b with Some c => c | None => Eq end.
  Definition turned (ascending : bool) (c : comparison) : comparison :=
    if ascending then c else CompOpp c.

  (** dynamic.rs:977, 1012: [(sort_index - 1).max(0) as usize]; [None] is an overflow. *)
  Definition sort_idx (i : Z) : option nat :=
    if in_i64 (i - 1) then Some (Z.to_nat (Z.max (i - 1) 0)) else None.

  (** dynamic.rs:929-1042.  The index that goes with each column is never read and is left out. *)
  Definition f_sort (w : view) (index order by_col : option lval) : out :=
    if (v_rows w =? 0) || (v_cols w =? 0) then empty_range else
    let ascending := (0 <=? int_arg 1 order)%Z in
    match sort_idx (int_arg 1 index) with
    | None => Panic
    | Some k =>
        if true_arg by_col then
          if v_rows w <=? k then fail K_VALUE else
          match sort_by (list lval)
                  (fun a b => turned ascending (cmp0 (nth k a LEmpty) (nth k b LEmpty)))
                  (map (col_of w) (seq 0 (v_cols w))) with
          | None => Panic
          | Some columns =>
              (* out[r].push(val), column by column *)
              Ok (collapse_if_scalar
                    (map (fun r => map (fun col => nth r col LEmpty) columns) (seq 0 (v_rows w))))
          end
        else
          if v_cols w <=? k then fail K_VALUE else
          match sort_by (list lval)
                  (fun a b => turned ascending (cmp0 (nth k a LEmpty) (nth k b LEmpty)))
                  (rows_of w) with
          | None => Panic
          | Some rows => Ok (collapse_if_scalar rows)
          end
    end.

  (** dynamic.rs:1188-1208: the values of a by-array, [None] for #VALUE!. *)
  Definition by_values (rows : nat) (b : view) : option (list lval) :=
    if v_cols b =? 1 then (if v_rows b =? rows then Some (col_of b 0) else None)
    else if v_rows b =? 1 then (if v_cols b =? rows then Some (row_of b 0) else None)
    else None.

  (** dynamic.rs:1212-1234: the order that follows a by-array, and the arguments left. *)
  Definition next_order (args : list calc) : bool * list calc :=
    match args with
    | Scalar (LInt i) :: rest => ((0 <=? i)%Z, rest)
    | Scalar (LNum x) :: rest => (fle (Fin 0%Q) x, rest)
    | _ => (true, args)
    end.

  (** dynamic.rs:1180-1237; the fuel is the number of arguments. *)
  Fixpoint criteria (fuel rows : nat) (args : list calc) : option (list (list lval * bool)) :=
    match args, fuel with
    | [], _ => Some []
    | _, O => None
    | a :: rest, S f =>
        match by_values rows (as_view a) with
        | None => None
        | Some vs =>
            let '(asc, rest') := next_order rest in
            match criteria f rows rest' with
            | None => None
            | Some cs => Some ((vs, asc) :: cs)
            end
        end
    end.

  (** dynamic.rs:1256-1267: the first criterion that decides. *)
  Fixpoint by_criteria (cs : list (list lval * bool)) (i j : nat) : comparison :=
    match cs with
    | [] => Eq
    | (vs, asc) :: cs' =>
        match cmp0 (nth i vs LEmpty) (nth j vs LEmpty) with
        | Eq => by_criteria cs' i j
        | c => turned asc c
        end
    end.

  (** dynamic.rs:1157-1280 *)
  Definition f_sortby (w : view) (args : list calc) : out :=
    match args with
    | [] => fail K_VALUE
    | _ =>
        if (v_rows w =? 0) || (v_cols w =? 0) then empty_range else
        match criteria (length args) (v_rows w) args with
        | None | Some [] => fail K_VALUE
        | Some cs =>
            match sort_by (nat * list lval)%type
                    (fun a b => by_criteria cs (fst a) (fst b))
                    (map (fun r => (r, row_of w r)) (seq 0 (v_rows w))) with
            | None => Panic
            | Some l => Ok (collapse_if_scalar (map snd l))
            end
        end
    end.
End Sorting.

(** ** FILTER *)

(** value.rs:169-184, [LiteralValue::is_truthy] *)
Definition is_truthy (v : lval) : bool :=
  match v with
  | LBool b => b
  | LInt i => negb (i =? 0)%Z
  | LNum (Fin q) => negb (Qeq_bool q 0)
  | LNum _ => true
  | LText s => negb (length s =? 0)
  | LSerial _ => true
  | LOther => true
  | LErr _ => false
  | LEmpty => false
  end.

(** dynamic.rs:2608-2672.  The result is not collapsed. *)
Definition f_filter (w incl : view) (if_empty : option calc) : out :=
  if (v_rows w =? 0) || (v_cols w =? 0) then empty_range else
  if negb (v_rows incl =? v_rows w) && negb (v_rows incl =? 1) then fail K_VALUE else
  let kept := filter (fun r =>
      let ir := if v_rows incl =? v_rows w then r else 0 in
      existsb (fun c => is_truthy (get_cell incl ir c)) (seq 0 (v_cols incl)))
    (seq 0 (v_rows w)) in
  match kept with
  | [] => match if_empty with Some v => Ok v | None => fail K_CALC end
  | _ => Ok (Range (of_rows (map (row_of w) kept)))
  end.

(** ** UNIQUE *)

(** [f64 == f64] *)
Definition feq (x y : fnum) : bool :=
  match x, y with
  | Fin a, Fin b => Qeq_bool a b
  | PInf, PInf | NInf, NInf => true
  | _, _ => false
  end.
(** value.rs:32, the derived [PartialEq]; the hash of equal values is equal (value.rs:49-66). *)
Definition veq (a b : lval) : bool :=
  match a, b with
  | LNum x, LNum y => feq x y
  | LInt x, LInt y => (x =? y)%Z
  | LText x, LText y => text_eqb x y
  | LBool x, LBool y => Bool.eqb x y
  | LSerial x, LSerial y => Qeq_bool x y
  | LEmpty, LEmpty => true
  | LErr x, LErr y => N.eqb x y
  | LOther, LOther => true
  | _, _ => false
  end.
Fixpoint key_eq (a b : list lval) : bool :=
  match a, b with
  | [], [] => true
  | x :: a', y :: b' => veq x y && key_eq a' b'
  | _, _ => false
  end.

(** [HashMap<RowKey, usize>], as a list of entries. *)
Definition counts := list (list lval * nat).
Fixpoint count_get (m : counts) (k : list lval) : option nat :=
  match m with
  | [] => None
  | (k', n) :: m' => if key_eq k k' then Some n else count_get m' k
  end.
(** [*counts.entry(k).or_insert(0) += 1] *)
Fixpoint count_add (m : counts) (k : list lval) : counts :=
  match m with
  | [] => [(k, 1)]
  | (k', n) :: m' => if key_eq k k' then (k', S n) :: m' else (k', n) :: count_add m' k
  end.

(** dynamic.rs:2839-2850 *)
Fixpoint tally (keys : list (list lval)) (order : list (list lval)) (m : counts) : list (list lval) * counts :=
  match keys with
  | [] => (order, m)
  | k :: ks =>
      let order' := match count_get m k with Some _ => order | None => order ++ [k] end in
      tally ks order' (count_add m k)
  end.
(** dynamic.rs:2852-2858 *)
Definition distinct (once : bool) (keys : list (list lval)) : list (list lval) :=
  let '(order, m) := tally keys [] [] in
  filter (fun k => negb once || match count_get m k with Some 1 => true | _ => false end) order.

(** dynamic.rs:2778-2862 *)
Definition f_unique (w : view) (by_col once : option lval) : out :=
  if (v_rows w =? 0) || (v_cols w =? 0) then empty_range else
  if true_arg by_col then
    Ok (collapse_if_scalar (distinct (true_arg once) (map (col_of w) (seq 0 (v_cols w)))))
  else
    Ok (collapse_if_scalar (distinct (true_arg once) (rows_of w))).

(** ** SEQUENCE *)

(** dynamic.rs:51-66 *)
Definition MAX_ROWS : Z := 1048576%Z.
Definition MAX_COLS : Z := 16384%Z.
Definition MAX_CELLS : Z := (2 ^ 24)%Z.
Definition generated_array_too_large (rows cols : Z) : bool :=
  ((MAX_ROWS <? rows) || (MAX_COLS <? cols) ||
   negb (in_i64 (rows * cols) && (rows * cols <=? MAX_CELLS)))%Z.

(** dynamic.rs:3009-3014, the value pushed: an integer when nothing is left of the point.
    The running sum is exact. *)
Definition seq_value (q : Q) : lval :=
  let t := Z.quot (Qnum q) (Zpos (Qden q)) in
  if negb (Qle_bool TOL (Qabs (q - inject_Z t))) && negb (Qle_bool (inject_Z (2 ^ 63)) (Qabs q))
  then LInt t else LNum (Fin q).
Fixpoint seq_row (n : nat) (cur step : Q) : list lval * Q :=
  match n with
  | O => ([], cur)
  | S n' => let '(l, q) := seq_row n' (cur + step)%Q step in (seq_value cur :: l, q)
  end.
Fixpoint seq_rows (m n : nat) (cur step : Q) : list (list lval) :=
  match m with
  | O => []
  | S m' => let '(l, q) := seq_row n cur step in l :: seq_rows m' n q step
  end.

(** A number argument of SEQUENCE. *)
Definition num_arg (v : lval) : option fnum :=
  match v with LInt i => Some (Fin (inject_Z i)) | LNum x => Some x | _ => None end.
Definition num_opt (dflt : fnum) (a : option lval) : option fnum :=
  match a with None => Some dflt | Some v => num_arg v end.

(** dynamic.rs:2971-3025; an infinite or undefined start or step is not represented ([Err tt]). *)
Definition f_sequence (rows : lval) (cols start step : option lval) : out :=
  match num_arg rows, num_opt (Fin 1%Q) cols, num_opt (Fin 1%Q) start, num_opt (Fin 1%Q) step with
  | Some r, Some c, Some a, Some d =>
      let r := as_i64 r in
      let c := as_i64 c in
      if ((r <=? 0) || (c <=? 0))%Z then fail K_VALUE else
      if generated_array_too_large r c then fail K_NUM else
      match a, d with
      | Fin a, Fin d => Ok (collapse_if_scalar (seq_rows (Z.to_nat r) (Z.to_nat c) a d))
      | _, _ => Err tt
      end
  | _, _, _, _ => fail K_VALUE
  end.

(** ** TRANSPOSE, TAKE and DROP *)

(** dynamic.rs:3106-3134 *)
Definition f_transpose (w : view) : out :=
  if (v_rows w =? 0) || (v_cols w =? 0) then empty_range else
  Ok (collapse_if_scalar (map (col_of w) (seq 0 (v_cols w)))).

(** The rectangle [r0..r1] x [c0..c1] of a view. *)
Definition cut_out (w : view) (r0 r1 c0 c1 : nat) : out :=
  if (r1 <=? r0) || (c1 <=? c0) then empty_range else
  Ok (collapse_if_scalar
    (map (fun r => map (get_cell w r) (seq c0 (c1 - c0))) (seq r0 (r1 - r0)))).

(** dynamic.rs:3268-3296: the part of an axis of length [n] that TAKE keeps.
    [k.abs()] overflows on the least integer. *)
Inductive part := Part (lo hi : nat) | TooFar | Overflow.
Definition take_part (n : nat) (k : Z) : part :=
  if negb (in_i64 (Z.abs k)) then Overflow else
  if (Z.of_nat n <? Z.abs k)%Z then TooFar else
  if (0 <=? k)%Z then Part 0 (Z.to_nat k)
  else Part (Z.to_nat (Z.of_nat n + k)) n.
(** dynamic.rs:3240-3321 *)
Definition f_take (w : view) (rows : option lval) (cols : option lval) : out :=
  if (v_rows w =? 0) || (v_cols w =? 0) then empty_range else
  match take_part (v_rows w) (int_arg 0 rows) with
  | Overflow => Panic
  | TooFar => fail K_VALUE
  | Part r0 r1 =>
      match cols with
      | None => cut_out w r0 r1 0 (v_cols w)
      | Some _ =>
          match take_part (v_cols w) (int_arg 0 cols) with
          | Overflow => Panic
          | TooFar => fail K_VALUE
          | Part c0 c1 => cut_out w r0 r1 c0 c1
          end
      end
  end.

(** dynamic.rs:3452-3468: the part of an axis that DROP keeps. *)
Definition drop_part (n : nat) (k : Z) : nat * nat :=
  if (0 <=? k)%Z then (Nat.min (Z.to_nat k) n, n)
  else (0, Z.to_nat (Z.max (Z.of_nat n + k) 0)).
(** dynamic.rs:3424-3491 *)
Definition f_drop (w : view) (rows : option lval) (cols : option lval) : out :=
  if (v_rows w =? 0) || (v_cols w =? 0) then empty_range else
  let '(r0, r1) := drop_part (v_rows w) (int_arg 0 rows) in
  let '(c0, c1) := match cols with
                   | None => (0, v_cols w)
                   | Some _ => drop_part (v_cols w) (int_arg 0 cols)
                   end in
  cut_out w r0 r1 c0 c1.

(** ** HSTACK and VSTACK *)

(** stack.rs:142-178, 303-339: empty ranges are skipped, the others must agree with
    the first along [axis] (a scalar counts 1); [None] is #VALUE!. *)
Fixpoint collect (axis : view -> nat) (target : option nat) (args : list calc) : option (option nat * list calc) :=
  match args with
  | [] => Some (target, [])
  | a :: rest =>
      let go (n : nat) :=
        match target with
        | Some t => if n =? t then
                      match collect axis target rest with Some (t', es) => Some (t', a :: es) | None => None end
                    else None
        | None => match collect axis (Some n) rest with Some (t', es) => Some (t', a :: es) | None => None end
        end in
      match a with
      | Range w => if (v_rows w =? 0) || (v_cols w =? 0) then collect axis target rest else go (axis w)
      | Scalar _ => go 1
      end
  end.

(** stack.rs:344-357 *)
Definition vstack_rows (e : calc) : list (list lval) :=
  match e with Range w => rows_of w | Scalar v => [[v]] end.
(** stack.rs:287-358 *)
Definition f_vstack (args : list calc) : out :=
  match collect v_cols None args with
  | None => fail K_VALUE
  | Some (_, []) => empty_range
  | Some (_, es) => Ok (collapse_if_scalar (flat_map vstack_rows es))
  end.

(** stack.rs:186-199: one entry pushed on the rows of the result. *)
Definition hpush (result : list (list lval)) (e : calc) : list (list lval) :=
  match e with
  | Range w => map (fun '(r, row) => if r <? v_rows w then row ++ row_of w r else row)
                   (combine (seq 0 (length result)) result)
  | Scalar v => match result with [] => [] | row :: rest => (row ++ [v]) :: rest end
  end.
(** stack.rs:126-203 *)
Definition f_hstack (args : list calc) : out :=
  match collect v_rows None args with
  | None => fail K_VALUE
  | Some (_, []) => empty_range
  | Some (None, _) => Panic
  | Some (Some n, es) => Ok (collapse_if_scalar (fold_left hpush es (repeat [] n)))
  end.

(** ** TOCOL and TOROW *)

(** array_shape.rs:155-164 *)
Definition include_cell (ignore : Z) (v : lval) : bool :=
  let is_blank := match v with LEmpty => true | _ => false end in
  let is_error := match v with LErr _ => true | _ => false end in
  if (ignore =? 1)%Z then negb is_blank
  else if (ignore =? 2)%Z then negb is_error
  else if (ignore =? 3)%Z then negb is_blank && negb is_error
  else true.

(** array_shape.rs:166-205; [ignore] and [by_col] are the converted arguments. *)
Definition flatten_array (a : calc) (ignore : Z) (by_col : bool) : res N (list lval) :=
  if negb ((0 <=? ignore) && (ignore <=? 3))%Z then Err K_VALUE else
  let data := match a with Range w => rows_of w | Scalar v => [[v]] end in
  let cols := fold_right Nat.max 0 (map (@length lval) data) in
  let flat :=
    if by_col
    then flat_map (fun c => filter (include_cell ignore) (map (fun row => nth c row LEmpty) data)) (seq 0 cols)
    else flat_map (fun row => filter (include_cell ignore) (map (fun c => nth c row LEmpty) (seq 0 cols))) data in
  match flat with [] => Err K_CALC | _ => Ok flat end.

Definition f_tocol (a : calc) (ignore : Z) (by_col : bool) : out :=
  match flatten_array a ignore by_col with
  | Ok flat => Ok (collapse_if_scalar (map (fun v => [v]) flat))
  | Err k => fail k
  | Panic => Panic
  end.
Definition f_torow (a : calc) (ignore : Z) (by_col : bool) : out :=
  match flatten_array a ignore by_col with
  | Ok flat => Ok (collapse_if_scalar [flat])
  | Err k => fail k
  | Panic => Panic
  end.

(** ** CHOOSECOLS and CHOOSEROWS *)

(** choose.rs:300-335, 456-491: the positions picked on an axis of length [n]. *)
Fixpoint pick (n : nat) (args : list lval) : res N (list nat) :=
  match args with
  | [] => Ok []
  | v :: rest =>
      match v with
      | LErr e => Err e
      | LInt _ | LNum _ =>
          let raw := int_arg 0 (Some v) in
          if (raw =? 0)%Z then Err K_VALUE else
          let adj := (if 0 <? raw then raw - 1 else Z.of_nat n + raw)%Z in
          if ((adj <? 0) || (Z.of_nat n <=? adj))%Z then Err K_VALUE else
          rbind (pick n rest) (fun l => Ok (Z.to_nat adj :: l))
      | _ => Err K_VALUE
      end
  end.

(** choose.rs:282-345 *)
Definition f_choosecols (w : view) (args : list lval) : out :=
  match args with
  | [] => fail K_VALUE
  | _ =>
      if (v_rows w =? 0) || (v_cols w =? 0) then empty_range else
      match pick (v_cols w) args with
      | Ok idx => Ok (collapse_if_scalar (map (fun r => map (get_cell w r) idx) (seq 0 (v_rows w))))
      | Err k => fail k
      | Panic => Panic
      end
  end.
(** choose.rs:438-500 *)
Definition f_chooserows (w : view) (args : list lval) : out :=
  match args with
  | [] => fail K_VALUE
  | _ =>
      if (v_rows w =? 0) || (v_cols w =? 0) then empty_range else
      match pick (v_rows w) args with
      | Ok idx => Ok (collapse_if_scalar (map (row_of w) idx))
      | Err k => fail k
      | Panic => Panic
      end
  end.
