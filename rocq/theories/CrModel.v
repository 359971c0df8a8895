(** Criteria and the functions that count and add by them (COUNTIF, COUNTIFS,
    SUMIF, SUMIFS, AVERAGEIF, AVERAGEIFS).

    crates/formualizer-eval/src/args.rs:57-176 (parse_criteria),
    builtins/utils.rs:308-460 (criteria_match and its helpers),
    engine/eval.rs:2328-2510, 24490-24506 (compute_criteria_mask, build_criteria_mask),
    engine/range_view.rs (get_cell, row chunks, slices),
    builtins/math/criteria_aggregates.rs:88-705 (eval_if_family).

    Text is a list of code points.  [str::to_lowercase], [str::parse::<f64>] and
    [f64::to_string] are parameters.  Numbers are exact: a finite f64 is a
    rational, [x - y] is not rounded, and -0 is not told from 0. *)
From Coq Require Import String QArith.
From Verif Require Import Base Maps WildModel.
Close Scope Q_scope.

Fixpoint tx (s : string) : text :=
  match s with
  | EmptyString => []
  | String a r => Ascii.N_of_ascii a :: tx r
  end.

(** * Numbers *)

Inductive num := Fin (q : Q) | PInf | NInf | NaN.

(** [x <= y] and [x < y] of f64. *)
Definition n_le (a b : num) : bool :=
  match a, b with
  | NaN, _ | _, NaN => false
  | NInf, _ | _, PInf => true
  | Fin x, Fin y => Qle_bool x y
  | _, _ => false
  end.
Definition n_lt (a b : num) : bool :=
  match a, b with
  | NaN, _ | _, NaN => false
  | Fin x, Fin y => negb (Qle_bool y x)
  | NInf, NInf => false
  | NInf, _ => true
  | Fin _, PInf => true
  | _, _ => false
  end.

(** [(x - y).abs() < 1e-12]; the difference is infinite or NaN unless both are finite. *)
Definition tiny : Q := Qmake 1 1000000000000.
Definition close (a b : num) : bool :=
  match a, b with
  | Fin x, Fin y =>
      negb (Qle_bool tiny (Qminus x y)) && negb (Qle_bool tiny (Qminus y x))
  | _, _ => false
  end.

(** Arrow's comparison kernels order floats totally, NaN above all. *)
Definition rank (a : num) : Z :=
  match a with NInf => 0%Z | Fin _ => 1%Z | PInf => 2%Z | NaN => 3%Z end.
Definition t_le (a b : num) : bool :=
  match a, b with Fin x, Fin y => Qle_bool x y | _, _ => (rank a <=? rank b)%Z end.
Definition t_eq (a b : num) : bool := t_le a b && t_le b a.

(** * Values: LiteralValue without arrays and calendar variants (a calendar
    value stored in a sheet is read back as its serial number). *)
Inductive value :=
| VEmpty
| VNum (n : num)
| VInt (z : Z)
| VBool (b : bool)
| VText (t : text)
| VErr (e : N)
| VPending.

(** args.rs:57-72; the three type tests are never built by [parse_criteria]. *)
Inductive pred :=
| PEq (v : value) | PNe (v : value)
| PGt (n : num) | PGe (n : num) | PLt (n : num) | PLe (n : num)
| PLike (pattern : text)       (* case_insensitive is always true *)
| PBlank.

(** [char::is_whitespace] *)
Definition is_ws (c : N) : bool :=
  ((9 <=? c) && (c <=? 13) || (c =? 32) || (c =? 133) || (c =? 160) || (c =? 5760)
   || (8192 <=? c) && (c <=? 8202) || (c =? 8232) || (c =? 8233) || (c =? 8239)
   || (c =? 8287) || (c =? 12288))%N.
Fixpoint trim_start (s : text) : text :=
  match s with [] => [] | c :: r => if is_ws c then trim_start r else s end.
(** [str::trim] *)
Definition trim (s : text) : text := rev (trim_start (rev (trim_start s))).

(** Each doubled quote becomes one, args.rs:106. *)
Fixpoint undouble (s : text) : text :=
  match s with
  | 34%N :: (34%N :: r) => 34%N :: undouble r
  | c :: r => c :: undouble r
  | [] => []
  end.

(** args.rs:103-110 *)
Definition unquote (t : text) : text :=
  let t := trim t in
  match t with
  | 34%N :: inner =>
      match rev inner with
      | 34%N :: back => undouble (rev back)
      | _ => t
      end
  | _ => t
  end.

(** args.rs:113, in the order tried *)
Inductive op := OGe | OLe | ONe | OGt | OLt | OEq.
Definition op_text (o : op) : text :=
  match o with
  | OGe => tx ">="%string | OLe => tx "<="%string | ONe => tx "<>"%string
  | OGt => tx ">"%string | OLt => tx "<"%string | OEq => tx "="%string
  end.
Definition ops : list op := [OGe; OLe; ONe; OGt; OLt; OEq].

(** The first operator that is a prefix, and what follows it ([strip] is
    [str::strip_prefix]). *)
Fixpoint split_op (os : list op) (s : text) : option (op * text) :=
  match os with
  | [] => None
  | o :: os => match strip (op_text o) s with Some r => Some (o, r) | None => split_op os s end
  end.

Definition has (c : N) (s : text) : bool := existsb (N.eqb c) s.
Definition ascii_lower (s : text) : text := List.map to_ascii_lower s.

(** * Byte strings for [str::as_bytes] *)
Definition utf8 (c : N) : list N :=
  (if c <? 128 then [c]
   else if c <? 2048 then [192 + c / 64; 128 + c mod 64]
   else if c <? 65536 then [224 + c / 4096; 128 + (c / 64) mod 64; 128 + c mod 64]
   else [240 + c / 262144; 128 + (c / 4096) mod 64; 128 + (c / 64) mod 64; 128 + c mod 64])%N.
Definition bytes (s : text) : list N := flat_map utf8 s.

(** [helper] of wildcard_match, utils.rs:430-458; the [for] loop tries every suffix. *)
Fixpoint helper (p t : list N) : bool :=
  match p with
  | [] => match t with [] => true | _ => false end
  | c :: p' =>
      if N.eqb c STAR then
        (fix any (t : list N) : bool :=
           helper p' t || match t with [] => false | _ :: t' => any t' end) t
      else if N.eqb c QUEST then match t with [] => false | _ :: t' => helper p' t' end
      else match t with d :: t' => N.eqb d c && helper p' t' | [] => false end
  end.
(** utils.rs:427-460 *)
Definition wildcard_match (pat t : text) : bool := helper (bytes pat) (bytes t).

Definition starts_with (pre s : text) : bool :=
  match strip pre s with Some _ => true | None => false end.
Definition ends_with (suf s : text) : bool := starts_with (rev suf) (rev s).
Fixpoint contains (sub s : text) : bool :=
  starts_with sub s || match s with [] => false | _ :: s' => contains sub s' end.

(** utils.rs:392-423, after lowering *)
Definition like (pat t : text) : bool :=
  if negb (has QUEST pat) && negb (contains [TILDE; STAR] pat) && negb (contains [TILDE; QUEST] pat) then
    if ends_with [STAR] pat && negb (has STAR (removelast pat)) then starts_with (removelast pat) t
    else if starts_with [STAR] pat && negb (has STAR (tl pat)) then ends_with (tl pat) t
    else if starts_with [STAR] pat && ends_with [STAR] pat && negb (has STAR (removelast (tl pat)))
      then contains (removelast (tl pat)) t
    else if negb (has STAR pat) then text_eqb t pat
    else wildcard_match pat t
  else wildcard_match pat t.

Section WithLibrary.
Variable lower : text -> text.        (* str::to_lowercase *)
Variable pf : text -> option num.     (* str::parse::<f64>().ok() *)
Variable show : num -> text.          (* f64::to_string *)
Variable showz : Z -> text.           (* i64::to_string *)

(** args.rs:98-176, on the value of the criterion; an array is not modelled.
    [Err e]: the criterion is itself an error. *)
Definition parse_text (s : text) : pred :=
  let s_trim := trim s in
  match split_op ops s_trim with
  | Some (o, rhs) =>
      let rhs_trim := trim rhs in
      match pf rhs_trim with
      | Some n =>
          match o with
          | OGe => PGe n | OLe => PLe n | OGt => PGt n | OLt => PLt n
          | OEq => PEq (VNum n) | ONe => PNe (VNum n)
          end
      | None =>
          match o with
          | OEq => PEq (VText (unquote rhs_trim))
          | ONe => PNe (VText (unquote rhs_trim))
          | _ => PEq (VText s_trim)
          end
      end
  | None =>
      let plain := unquote s_trim in
      if has STAR plain || has QUEST plain then PLike plain
      else if text_eqb (ascii_lower plain) (tx "true"%string) then PEq (VBool true)
      else if text_eqb (ascii_lower plain) (tx "false"%string) then PEq (VBool false)
      else PEq (VText plain)
  end.
Definition parse_criteria (v : value) : res N pred :=
  match v with
  | VText s => Ok (parse_text s)
  | VEmpty => Ok PBlank
  | VNum n => Ok (PEq (VNum n))
  | VInt z => Ok (PEq (VNum (Fin (inject_Z z))))
  | VBool b => Ok (PEq (VBool b))
  | VErr e => Err e
  | VPending => Ok (PEq VPending)
  end.

(** locale.rs:24-32 *)
Definition parse_number (s : text) : option num :=
  let t := trim s in
  match rev t with
  | 37%N :: back =>
      match pf (trim (rev back)) with
      | Some (Fin q) => Some (Fin (Qdiv q 100))
      | Some n => Some n
      | None => None
      end
  | _ => pf t
  end.

(** coercion.rs:10-36 [to_number_lenient] *)
Definition to_num (v : value) : option num :=
  match v with
  | VNum n => Some n
  | VInt z => Some (Fin (inject_Z z))
  | VBool b => Some (Fin (if b then 1 else 0)%Q)
  | VEmpty => Some (Fin 0%Q)
  | VText t => parse_number t
  | VErr _ | VPending => None
  end.

(** formualizer-common/src/value.rs:117-128 [as_serial_number] *)
Definition serial (v : value) : option num :=
  match v with
  | VNum n => Some n
  | VInt z => Some (Fin (inject_Z z))
  | VBool b => Some (Fin (if b then 1 else 0)%Q)
  | _ => None
  end.

Definition num_eq (x : num) (v : value) : bool :=
  match to_num v with Some y => close x y | None => false end.

(** utils.rs:345-375.  The arms are tried in order; the last arms are reached
    with at most one of the two values a number. *)
Definition values_equal (a b : value) : bool :=
  match a, b with
  | VNum x, VNum y => close x y
  | VInt x, VInt y => Z.eqb x y
  | VBool x, VBool y => Bool.eqb x y
  | VText x, VText y => text_eqb (lower x) (lower y)
  | VText [], VEmpty | VEmpty, VText [] | VEmpty, VEmpty => true
  | _, _ =>
      match serial a, serial b with
      | Some x, Some y => close x y
      | _, _ =>
          match a, b with
          | VNum x, _ => num_eq x b
          | _, VNum y => num_eq y a
          | _, _ => false
          end
      end
  end.

(** utils.rs:376-390 *)
Definition like_text (v : value) : option text :=
  match v with
  | VText t => Some t
  | VNum n => Some (show n)
  | VInt z => Some (showz z)
  | VBool b => Some (if b then tx "TRUE"%string else tx "FALSE"%string)
  | VEmpty => Some []
  | VErr _ | VPending => None
  end.
Definition text_like_match (pattern : text) (v : value) : bool :=
  match like_text v with
  | Some s => like (lower pattern) (lower s)
  | None => false
  end.

Definition num_test (f : num -> bool) (v : value) : bool :=
  match to_num v with Some x => f x | None => false end.

(** utils.rs:308-339 *)
Definition criteria_match (p : pred) (v : value) : bool :=
  match p with
  | PEq t => values_equal t v
  | PNe t => negb (values_equal t v)
  | PGt n => num_test (fun x => n_lt n x) v
  | PGe n => num_test (fun x => n_le n x) v
  | PLt n => num_test (fun x => n_lt x n) v
  | PLe n => num_test (fun x => n_le x n) v
  | PLike pattern => text_like_match pattern v
  | PBlank => match v with VEmpty => true | _ => false end
  end.

(** * Sheets and views *)

(** A stored cell: its value, and whether it stands in an overlay (written
    since the chunk was built) or in the base lanes of its chunk. *)
Record cell := { c_over : bool; c_val : value }.
Record sheet := {
  sh_rows : nat; sh_cols : nat;
  sh_starts : list nat;                 (* chunk_starts *)
  sh_at : nat -> nat -> cell            (* row, column; a missing chunk is blank *)
}.
(** range_view.rs:10-50; [er + 1 = sr + rows] *)
Record view := { w_sheet : sheet; w_sr : nat; w_sc : nat; w_rows : nat; w_cols : nat }.

(** range_view.rs:286-302 *)
Definition expand_to (w : view) (rows cols : nat) : view :=
  {| w_sheet := w_sheet w; w_sr := w_sr w; w_sc := w_sc w; w_rows := rows; w_cols := cols |}.

(** range_view.rs:390-485 *)
Definition get_cell (w : view) (r c : nat) : value :=
  if (w_rows w <=? r) || (w_cols w <=? c) then VEmpty
  else if sh_rows (w_sheet w) <=? w_sr w + r then VEmpty
  else if sh_cols (w_sheet w) <=? w_sc w + c then VEmpty
  else c_val (sh_at (w_sheet w) (w_sr w + r) (w_sc w + c)).

(** Chunks as (first row, rows), range_view.rs:85-98 *)
Fixpoint chunks (starts : list nat) (nrows : nat) : list (nat * nat) :=
  match starts with
  | [] => []
  | s :: rest => (s, match rest with [] => nrows | e :: _ => e end - s) :: chunks rest nrows
  end.

(** RowChunkIterator, range_view.rs:65-183: (row_start, row_len) relative to the view *)
Definition row_chunks (w : view) : list (nat * nat) :=
  let stop := Nat.min (w_sr w + w_rows w) (sh_rows (w_sheet w)) in
  flat_map (fun '(s, len) =>
    let is := Nat.max s (w_sr w) in
    let ie := Nat.min (s + len) stop in
    if is <? ie then [(is - w_sr w, ie - is)] else [])
    (chunks (sh_starts (w_sheet w)) (sh_rows (w_sheet w))).

Definition in_sheet (w : view) (r c : nat) : bool :=
  (w_sr w + r <? sh_rows (w_sheet w)) && (w_sc w + c <? sh_cols (w_sheet w)).

(** The numbers lane: base lanes and arrow_store/mod.rs:1009-1016 *)
Definition number_lane (v : value) : option num :=
  match v with VNum n => Some n | _ => None end.
(** The lowered text lane: arrow_store/mod.rs:206-228 for the base lanes,
    :1042-1051, 3105-3116 for an overlay. *)
Definition text_lane (x : cell) : option text :=
  match c_val x with
  | VText t => Some (lower t)
  | VNum n => if c_over x then Some (show n) else None
  | VBool b => if c_over x then Some (if b then tx "true"%string else tx "false"%string) else None
  | _ => None
  end.
Definition number_at (w : view) (r c : nat) : option num :=
  if in_sheet w r c then number_lane (c_val (sh_at (w_sheet w) (w_sr w + r) (w_sc w + c))) else None.
Definition text_at (w : view) (r c : nat) : option text :=
  if in_sheet w r c then text_lane (sh_at (w_sheet w) (w_sr w + r) (w_sc w + c)) else None.

Definition is_none {A} (o : option A) : bool := match o with None => true | Some _ => false end.

(** How many pieces range_view.rs:1043-1152 glues together: one per chunk met,
    and one for rows below the sheet. *)
Definition pieces (w : view) (rs rl : nat) : nat :=
  let a := w_sr w + rs in
  let e := a + rl in
  length (filter (fun '(s, len) => Nat.max s a <? Nat.min (s + len) e)
                 (chunks (sh_starts (w_sheet w)) (sh_rows (w_sheet w))))
  + (if sh_rows (w_sheet w) <? e then 1 else 0).

(** range_view.rs:1043-1152, one column.  The rows are not cut at the end of the
    view.  [None]: no column array. *)
Definition slice_numbers (w : view) (rs rl c : nat) : option (list (option num)) :=
  if w_cols w <=? c then None
  else if sh_cols (w_sheet w) <=? w_sc w + c then None
  else
    let lane := List.map (fun i => number_at w i c) (seq rs rl) in
    if (pieces w rs rl =? 1) && forallb is_none lane then None else Some lane.

(** range_view.rs:1155-1263, one column, rows of one chunk *)
Definition slice_text (w : view) (rs rl c : nat) : option (list (option text)) :=
  if sh_cols (w_sheet w) <=? w_sc w + c then None
  else
    let lane := List.map (fun i => text_at w i c) (seq rs rl) in
    if forallb is_none lane then None else Some lane.

(** * The mask of a criterion over a column: engine/eval.rs:2328-2510 *)

(** eval.rs:2340-2378 on one element; [None]: not a numeric criterion *)
Definition numeric_test (p : pred) : option (num -> bool) :=
  match p with
  | PGt n => Some (fun x => negb (t_le x n))
  | PGe n => Some (fun x => t_le n x)
  | PLt n => Some (fun x => negb (t_le n x))
  | PLe n => Some (fun x => t_le x n)
  | PEq (VNum n) => Some (fun x => t_eq x n)
  | PEq (VInt z) => Some (fun x => t_eq x (Fin (inject_Z z)))
  | PNe (VNum n) => Some (fun x => negb (t_eq x n))
  | PNe (VInt z) => Some (fun x => negb (t_eq x (Fin (inject_Z z))))
  | _ => None
  end.

(** Arrow's LIKE on lowered text: ['%'] any text, ['_'] one character, ['\'] takes
    the next character as it is. *)
Fixpoint sql_like (p t : text) : bool :=
  match p with
  | [] => match t with [] => true | _ => false end
  | c :: p' =>
      if N.eqb c 37 then
        (fix any (t : text) : bool :=
           sql_like p' t || match t with [] => false | _ :: t' => any t' end) t
      else if N.eqb c 95 then match t with [] => false | _ :: t' => sql_like p' t' end
      else if N.eqb c 92 then
        match p' with
        | [] => match t with [d] => N.eqb d 92 | _ => false end
        | x :: p'' => match t with d :: t' => N.eqb d x && sql_like p'' t' | [] => false end
        end
      else match t with d :: t' => N.eqb d c && sql_like p' t' | [] => false end
  end.

(** [p.replace('*', "%").replace('?', "_")], eval.rs:2439-2441 *)
Definition to_sql (p : text) : text :=
  List.map (fun c => if N.eqb c STAR then 37%N else if N.eqb c QUEST then 95%N else c) p.

(** eval.rs:2424-2446: kind, pattern, [empty_special] *)
Inductive kind := KEq | KNe | KLike.
Definition text_plan (p : pred) : option (kind * text * bool) :=
  match p with
  | PEq (VText t) => Some (KEq, lower t, match t with [] => true | _ => false end)
  | PNe (VText t) => Some (KNe, lower t, false)
  | PLike pattern => Some (KLike, to_sql (lower pattern), false)
  | _ => None
  end.

Definition or_kleene (a b : option bool) : option bool :=
  match a, b with
  | Some true, _ | _, Some true => Some true
  | Some false, Some false => Some false
  | _, _ => None
  end.
Definition and_kleene (a b : option bool) : option bool :=
  match a, b with
  | Some false, _ | _, Some false => Some false
  | Some true, Some true => Some true
  | _, _ => None
  end.
Definition omap {A B} (f : A -> B) (o : option A) : option B :=
  match o with Some a => Some (f a) | None => None end.

(** eval.rs:2448-2500, one row chunk *)
Definition text_part (k : kind) (pat : text) (special : bool) (seg : option (list (option text)))
    (rl : nat) : list (option bool) :=
  let ne_blank := match k with KNe => negb (match pat with [] => true | _ => false end) | _ => false end in
  let fold := match k with KEq => special | _ => false end || ne_blank in
  match seg with
  | None => repeat (if fold then Some true else None) rl
  | Some l =>
      let m := List.map (omap (fun t => match k with KNe => negb (sql_like pat t) | _ => sql_like pat t end)) l in
      if fold && existsb is_none l
      then List.map (fun '(a, b) => or_kleene a b) (combine m (List.map (fun o => Some (is_none o)) l))
      else m
  end.

(** eval.rs:2328-2510 *)
Definition compute_mask (w : view) (c : nat) (p : pred) : option (list (option bool)) :=
  match numeric_test p with
  | Some f =>
      let parts :=
        if c <? w_cols w
        then List.map (fun '(rs, rl) => List.map (fun i => omap f (number_at w i c)) (seq rs rl)) (row_chunks w)
        else [] in
      match parts with [] => None | _ => Some (concat parts) end
  | None =>
      match text_plan p with
      | None => None
      | Some (k, pat, special) =>
          if w_cols w <=? c then None
          else
            let parts := List.map (fun '(rs, rl) => text_part k pat special (slice_text w rs rl c) rl) (row_chunks w) in
            match parts with [] => None | _ => Some (concat parts) end
      end
  end.

(** eval.rs:24490-24506 *)
Definition build_mask (w : view) (c : nat) (p : pred) : option (list (option bool)) :=
  if w_cols w =? 0 then None
  else if (sh_rows (w_sheet w) =? 0) || (sh_rows (w_sheet w) <=? w_sr w) then Some []
  else compute_mask w c p.

(** * The aggregation: criteria_aggregates.rs *)

(** A criterion with the range it is asked of, :96-186; [k_val] is the scalar
    in place of a range. *)
Record crit := { k_view : option view; k_pred : pred; k_val : option value }.

(** :279-312 *)
Definition cut (m : list (option bool)) (fill : bool) (rs rl : nat) : list (option bool) :=
  let len := length m in
  if rs + rl <=? len then firstn rl (skipn rs m)
  else if rs <? len then
    let take := Nat.min rl (len - rs) in
    firstn take (skipn rs m) ++ repeat (Some fill) (rl - take)
  else repeat (Some fill) rl.

Definition per_cell (w : view) (c : nat) (p : pred) (rs rl : nat) : list (option bool) :=
  List.map (fun i => Some (criteria_match p (get_cell w i c))) (seq rs rl).
(** Nulls of the vectorised comparison are filled cell by cell, :355-380. *)
Definition filled (w : view) (c : nat) (p : pred) (f : num -> bool) (rs : nat) (l : list (option num))
    : list (option bool) :=
  List.map (fun '(i, o) =>
    match o with
    | Some x => Some (f x)
    | None => Some (criteria_match p (get_cell w i c))
    end) (combine (seq rs (length l)) l).

(** :326-580, when the context builds no mask *)
Definition fallback (w : view) (c : nat) (p : pred) (rs rl : nat) : list (option bool) :=
  match numeric_test p, slice_numbers w rs rl c with
  | Some f, Some l =>
      match p with
      | PEq _ | PNe _ => filled w c p f rs l
      | _ => List.map (omap f) l
      end
  | _, _ => per_cell w c p rs rl
  end.

Inductive bits := Impossible | Skip | Mask (m : list (option bool)).

(** One criterion over column [c], rows [rs .. rs+rl), :255-590.  [engine]: the
    context is an engine, which builds masks; the default context does not. *)
Definition crit_bits (engine : bool) (k : crit) (c rs rl : nat) : bits :=
  match k_view k with
  | None =>
      let v := match k_val k with Some v => v | None => VEmpty end in
      if criteria_match (k_pred k) v then Skip else Impossible
  | Some w =>
      match (if engine then build_mask w c (k_pred k) else None) with
      | Some m => Mask (cut m (criteria_match (k_pred k) VEmpty) rs rl)
      | None => Mask (fallback w c (k_pred k) rs rl)
      end
  end.

(** The loop over the criteria with its early exit, :250-597.  Result [None]:
    impossible; [Some None]: everything matches. *)
Fixpoint all_bits (engine : bool) (ks : list crit) (c rs rl : nat) (acc : option (list (option bool)))
    : option (option (list (option bool))) :=
  match ks with
  | [] => Some acc
  | k :: ks =>
      match crit_bits engine k c rs rl with
      | Impossible => None
      | Skip => all_bits engine ks c rs rl acc
      | Mask m =>
          all_bits engine ks c rs rl
            (Some (match acc with
                   | None => m
                   | Some prev => List.map (fun '(a, b) => and_kleene a b) (combine prev m)
                   end))
      end
  end.

Definition is_true (o : option bool) : bool := match o with Some true => true | _ => false end.

(** What is added up: nothing (COUNT), a range, or a scalar. *)
Inductive target := TCount | TView (w : view) | TScalar (v : value) | TNone.

(** One column of one chunk, :599-665: the numbers that go into the sum.  For
    COUNT each hit contributes a 0. *)
Definition column (t : target) (c rs rl : nat) (mask : option (list (option bool))) : list num :=
  let sel := match mask with Some m => List.map is_true m | None => repeat true rl end in
  match t with
  | TCount => List.map (fun _ => Fin 0%Q) (filter (fun b => b) sel)
  | TView w =>
      match slice_numbers w rs rl c with
      | Some l =>
          flat_map (fun '(o, b) => if b : bool then match o with Some n => [n] | None => [] end else [])
            (combine l sel)
      | None => []
      end
  | TScalar v =>
      match to_num v with
      | Some n => List.map (fun _ => n) (filter (fun b => b) sel)
      | None => []
      end
  | TNone => []
  end.

(** :188-200 *)
Definition dims (t : target) (ks : list crit) : nat * nat :=
  fold_left (fun d k => match k_view k with
                        | Some w => (Nat.max (fst d) (w_rows w), Nat.max (snd d) (w_cols w))
                        | None => d
                        end)
    ks (match t with TView w => (w_rows w, w_cols w) | _ => (1, 1) end).

Fixpoint first_view (ks : list crit) : option view :=
  match ks with
  | [] => None
  | k :: ks => match k_view k with Some w => Some w | None => first_view ks end
  end.

(** :213-228 *)
Definition driver (multi : bool) (t : target) (ks : list crit) : option view :=
  match (match t with TView w => Some w | _ => first_view ks end) with
  | None => None
  | Some d =>
      if multi then Some d
      else match ks with k :: _ => match k_view k with Some w => Some w | None => Some d end | [] => Some d end
  end.

(** eval_if_family after its arguments are resolved, :188-690: the numbers added
    up, in order. *)
Definition collect (engine multi : bool) (t : target) (ks : list crit) : list num :=
  let d := dims t ks in
  match driver multi t ks with
  | Some w =>
      flat_map (fun '(rs, rl) =>
        flat_map (fun c =>
          match all_bits engine ks c rs rl None with
          | None => []
          | Some mask => column t c rs rl mask
          end) (seq 0 (snd d))) (row_chunks w)
  | None =>
      if forallb (fun k => criteria_match (k_pred k) (match k_val k with Some v => v | None => VEmpty end)) ks
      then column t 0 0 (fst d * snd d) None
      else []
  end.

(** The criteria of a COUNTIFS/SUMIFS call: a 1x1 range is a scalar, :135-147, 164-176. *)
Definition broadcast (w : view) (p : pred) : crit :=
  if (w_rows w =? 1) && (w_cols w =? 1)
  then {| k_view := None; k_pred := p; k_val := Some (get_cell w 0 0) |}
  else {| k_view := Some w; k_pred := p; k_val := None |}.

(** The functions, for ranges; :96-186, 692-705. *)
Definition countif (engine : bool) (w : view) (p : pred) : nat :=
  length (collect engine false TCount [{| k_view := Some w; k_pred := p; k_val := None |}]).
Definition countifs (engine : bool) (ps : list (view * pred)) : nat :=
  length (collect engine true TCount (List.map (fun '(w, p) => broadcast w p) ps)).
Definition sumif (engine : bool) (w : view) (p : pred) (t : option view) : list num :=
  collect engine false (TView (match t with Some v => expand_to v (w_rows w) (w_cols w) | None => w end))
    [{| k_view := Some w; k_pred := p; k_val := None |}].
Definition sumifs (engine : bool) (t : view) (ps : list (view * pred)) : list num :=
  collect engine true (TView t) (List.map (fun '(w, p) => broadcast w p) ps).

End WithLibrary.
