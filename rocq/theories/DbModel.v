(** Database functions (DSUM, DAVERAGE, DCOUNT, DMAX, DMIN, DPRODUCT, DVAR, DVARP, DSTDEV,
    DSTDEVP, DGET, DCOUNTA): crates/formualizer-eval/src/builtins/database.rs 44-88
    (resolve_field_index), 90-151 (parse_criteria_range), 153-183 (row_matches_criteria),
    185-333 (eval_d_function), 344-479 (eval_d_stat_function), 481-563 (eval_dget), 565-666
    (eval_dcounta).

    Criteria and values are those of CrModel.v, with its exact numbers.  A view is a list of
    rows; the number of columns is that of the first row, and a missing cell is blank, as
    [RangeView::get_cell] has it.  Floating-point sums, products, quotients, squared
    deviations and square roots are parameters.  Omitted: how an argument becomes a view,
    the number of arguments, calendar values, messages. *)
From Coq Require Import List Bool NArith ZArith QArith Arith.
From Verif Require Import Base Maps WildModel CrModel.
Import ListNotations.
Close Scope Q_scope.

Definition K_VALUE : N := 3%N.
Definition K_DIV : N := 4%N.
Definition K_NUM : N := 6%N.

Definition record := list value.
Definition table := list record.
Definition width (t : table) : nat := length (hd [] t).
Definition field_of (r : record) (i : nat) : value := nth i r VEmpty.
(** [(0..db_cols).map(|c| db_view.get_cell(0, c))] *)
Definition headers_of (t : table) : list value := hd [] t.

(** [f64 as i64]: towards zero, saturating, NaN is 0. *)
Definition I64_MAX : Z := 9223372036854775807%Z.
Definition I64_MIN : Z := (-9223372036854775808)%Z.
Definition to_i64 (n : num) : Z :=
  match n with
  | Fin q => Z.max I64_MIN (Z.min I64_MAX (Z.quot (Qnum q) (Zpos (Qden q))))
  | PInf => I64_MAX
  | NInf => I64_MIN
  | NaN => 0%Z
  end.

(** [f64::max] and [f64::min] *)
Definition f_max (a b : num) : num :=
  match a, b with NaN, _ => b | _, NaN => a | _, _ => if n_le a b then b else a end.
Definition f_min (a b : num) : num :=
  match a, b with NaN, _ => b | _, NaN => a | _, _ => if n_le a b then a else b end.
Definition of_nat (n : nat) : num := Fin (inject_Z (Z.of_nat n)).

(** [Err] outside: the evaluation fails; [Err] inside: an error is the value. *)
Definition answer (A : Type) := res N (res N A).

Inductive agg := DSum | DAverage | DCount | DMax | DMin | DProduct.
Inductive stat := VarSample | VarPop | StdevSample | StdevPop.

Section Database.
Variable lower : text -> text.
Variable pf : text -> option num.
Variable show : num -> text.
Variable showz : Z -> text.
Variable sum : list num -> num.
Variable product : list num -> num.
Variable divide : num -> num -> num.
Variable deviation : num -> num -> num.   (* (x - mean).powi(2) *)
Variable sqrt : num -> num.

(** The loop over headers: the first text header equal up to case. *)
Fixpoint find_header (name : text) (i : nat) (hs : list value) : option nat :=
  match hs with
  | [] => None
  | VText h :: hs => if text_eqb (lower h) (lower name) then Some i else find_header name (S i) hs
  | _ :: hs => find_header name (S i) hs
  end.
Definition by_number (z : Z) (n : nat) : res N nat :=
  if ((z <? 1) || (Z.of_nat n <? z))%Z then Err K_VALUE else Ok (Z.to_nat (z - 1)).
Definition resolve_field (f : value) (hs : list value) : res N nat :=
  match f with
  | VText name => match find_header name 0 hs with Some i => Ok i | None => Err K_VALUE end
  | VNum n => by_number (to_i64 n) (length hs)
  | VInt z => by_number z (length hs)
  | _ => Err K_VALUE
  end.

(** [crit_col_map] *)
Definition column_map (hs crit_heads : list value) : list (option nat) :=
  map (fun h => match h with VText name => find_header name 0 hs | _ => None end) crit_heads.
Fixpoint parse_row (cols : list (option nat)) (row : record) : res N (list (nat * pred)) :=
  match cols with
  | [] => Ok []
  | col :: cols =>
      let v := hd VEmpty row in
      let rest := parse_row cols (tl row) in
      match v, col with
      | VEmpty, _ | _, None => rest
      | _, Some i => rbind (parse_criteria pf v) (fun p => rbind rest (fun ps => Ok ((i, p) :: ps)))
      end
  end.
Fixpoint parse_rows (cols : list (option nat)) (rows : table) : res N (list (list (nat * pred))) :=
  match rows with
  | [] => Ok []
  | row :: rows =>
      rbind (parse_row cols row) (fun ps =>
      rbind (parse_rows cols rows) (fun pss =>
      Ok (match ps with [] => pss | _ => ps :: pss end)))
  end.
Definition parse_criteria_range (crit : table) (hs : list value) : res N (list (list (nat * pred))) :=
  if (length crit <? 1)%nat || (width crit <? 1)%nat then Ok []
  else parse_rows (column_map hs (hd [] crit)) (tl crit).

(** [row_matches_criteria] *)
Definition meets (r : record) (ps : list (nat * pred)) : bool :=
  forallb (fun ip => criteria_match lower pf show showz (snd ip) (field_of r (fst ip))) ps.
Definition row_matches (r : record) (pss : list (list (nat * pred))) : bool :=
  match pss with [] => true | _ => existsb (meets r) pss end.

(** What all functions begin with: the field cells of the matching records, in order. *)
Definition chosen (db : table) (field : value) (crit : table) : answer (list value) :=
  if (length db <? 2)%nat || (width db <? 1)%nat then Ok (Err K_VALUE)
  else rbind (resolve_field field (headers_of db)) (fun i =>
       rbind (parse_criteria_range crit (headers_of db)) (fun pss =>
       Ok (Ok (map (fun r => field_of r i) (filter (fun r => row_matches r pss) (tl db)))))).
Definition then_ {A B} (a : answer A) (f : A -> res N B) : answer B := rbind a (fun x => Ok (rbind x f)).

(** The values of eval_d_function; [bools]: a truth value is a number. *)
Fixpoint collect (bools : bool) (vs : list value) : res N (list num) :=
  match vs with
  | [] => Ok []
  | v :: vs =>
      match v with
      | VNum n => rbind (collect bools vs) (fun ns => Ok (n :: ns))
      | VInt z => rbind (collect bools vs) (fun ns => Ok (Fin (inject_Z z) :: ns))
      | VBool b => if bools then rbind (collect bools vs) (fun ns => Ok (Fin (if b then 1 else 0)%Q :: ns)) else collect bools vs
      | VText _ => match to_num pf v with
                   | Some n => rbind (collect bools vs) (fun ns => Ok (n :: ns))
                   | None => collect bools vs
                   end
      | VErr e => Err e
      | VEmpty | VPending => collect bools vs
      end
  end.
Definition aggregate (a : agg) (ns : list num) : res N num :=
  match a with
  | DSum => Ok (sum ns)
  | DAverage => match ns with [] => Err K_DIV | _ => Ok (divide (sum ns) (of_nat (length ns))) end
  | DCount => Ok (of_nat (length ns))
  | DMax => match ns with [] => Ok (Fin 0%Q) | _ => Ok (fold_left f_max ns NInf) end
  | DMin => match ns with [] => Ok (Fin 0%Q) | _ => Ok (fold_left f_min ns PInf) end
  | DProduct => match ns with [] => Ok (Fin 0%Q) | _ => Ok (product ns) end
  end.
Definition is_count (a : agg) : bool := match a with DCount => true | _ => false end.
Definition d_function (a : agg) (db : table) (field : value) (crit : table) : answer num :=
  then_ (chosen db field crit) (fun vs => rbind (collect (negb (is_count a)) vs) (aggregate a)).

Definition variance (ns : list num) (den : nat) : num :=
  let mean := divide (sum ns) (of_nat (length ns)) in
  divide (sum (map (fun x => deviation x mean) ns)) (of_nat den).
Definition statistic (s : stat) (ns : list num) : res N num :=
  match s with
  | VarSample => if (length ns <? 2)%nat then Err K_DIV else Ok (variance ns (length ns - 1))
  | StdevSample => if (length ns <? 2)%nat then Err K_DIV else Ok (sqrt (variance ns (length ns - 1)))
  | VarPop => match ns with [] => Err K_DIV | _ => Ok (variance ns (length ns)) end
  | StdevPop => match ns with [] => Err K_DIV | _ => Ok (sqrt (variance ns (length ns))) end
  end.
Definition d_stat (s : stat) (db : table) (field : value) (crit : table) : answer num :=
  then_ (chosen db field crit) (fun vs => rbind (collect true vs) (statistic s)).

Definition is_blank (v : value) : bool := match v with VEmpty => true | _ => false end.
Definition get_one (vs : list value) : res N value :=
  match filter (fun v => negb (is_blank v)) vs with
  | [] => Err K_VALUE
  | [v] => Ok v
  | _ => Err K_NUM
  end.
Definition dget (db : table) (field : value) (crit : table) : answer value := then_ (chosen db field crit) get_one.

Fixpoint count_all (n : nat) (vs : list value) : res N nat :=
  match vs with
  | [] => Ok n
  | VEmpty :: vs => count_all n vs
  | VErr e :: _ => Err e
  | _ :: vs => count_all (S n) vs
  end.
Definition dcounta (db : table) (field : value) (crit : table) : answer num :=
  then_ (chosen db field crit) (fun vs => rbind (count_all 0 vs) (fun n => Ok (of_nat n))).
End Database.
