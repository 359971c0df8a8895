(** Lookup functions.
    crates/formualizer-eval/src/builtins/lookup/lookup_utils.rs (8-305, 434-633),
    builtins/lookup/core.rs (34-95, 240-406), builtins/lookup/legacy.rs (28-47),
    builtins/lookup/dynamic.rs (293-423, 662-800) and
    engine/lookup_index_cache.rs (28-215).

    Simplifications.  A finite [f64] is an exact rational and subtraction does not
    round; there is no negative zero; [i64 as f64] is exact; dates, date-times
    and times are represented by their serial number; arrays and durations are
    one incomparable value.  [str::to_lowercase] and [str::parse::<f64>] are
    parameters.  A one-row or one-column view is the list of its cells: its
    number lane holds numbers, integers and temporal values, its text lane the
    lowered texts, its boolean lane the booleans. *)
From Coq Require Import QArith Qabs Qround.
From Verif Require Import Base Maps WildModel.
Close Scope Q_scope.

Inductive fnum := Fin (q : Q) | PInf | NInf | NaN.

Inductive lval :=
| LNum (x : fnum)
| LInt (z : Z)
| LText (t : text)
| LBool (b : bool)
| LSerial (q : Q)   (* Date, DateTime, Time *)
| LEmpty
| LErr (k : N)
| LOther.           (* Array, Duration, Pending *)

Definition TOL : Q := (1 # 1000000000000)%Q.

(** [(x - y).abs() < 1e-12] *)
Definition fnear (x y : fnum) : bool :=
  match x, y with
  | Fin a, Fin b => negb (Qle_bool TOL (Qabs (a - b)))
  | _, _ => false
  end.
(** [x < y] on [f64] *)
Definition flt (x y : fnum) : bool :=
  match x, y with
  | NaN, _ | _, NaN => false
  | Fin a, Fin b => negb (Qle_bool b a)
  | NInf, NInf => false
  | NInf, _ => true
  | _, NInf => false
  | PInf, _ => false
  | Fin _, PInf => true
  end.
(** [x <= y] on [f64] *)
Definition fle (x y : fnum) : bool :=
  match x, y with
  | NaN, _ | _, NaN => false
  | _, _ => negb (flt y x)
  end.

(** [str] ordering: byte order of UTF-8, which is code point order. *)
Fixpoint text_cmp (a b : text) : comparison :=
  match a, b with
  | [], [] => Eq
  | [], _ => Lt
  | _, [] => Gt
  | x :: a', y :: b' => match N.compare x y with Eq => text_cmp a' b' | c => c end
  end.

Section Lookup.
  Variable lower : text -> text.
  Variable parse : text -> option fnum.

  (** lookup_utils.rs:17-29 *)
  Definition value_to_f64_lenient (v : lval) : option fnum :=
    match v with
    | LNum x => Some x
    | LInt z => Some (Fin (inject_Z z))
    | LText s => parse s
    | LBool b => Some (Fin (if b then 1 else 0)%Q)
    | LSerial q => Some (Fin q)
    | LEmpty => Some (Fin 0%Q)
    | LErr _ | LOther => None
    end.

  (** lookup_utils.rs:38-65; -1, 0, 1 are [Lt], [Eq], [Gt]. *)
  Definition cmp_for_lookup (a b : lval) : option comparison :=
    match value_to_f64_lenient a, value_to_f64_lenient b with
    | Some x, Some y =>
        if fnear x y then Some Eq else Some (if flt x y then Lt else Gt)
    | _, _ =>
        match a, b with
        | LText x, LText y => Some (text_cmp (lower x) (lower y))
        | LBool x, LBool y => Some (Nat.compare (Nat.b2n x) (Nat.b2n y))
        | _, _ => None
        end
    end.

  Definition is_eq (c : option comparison) : bool := match c with Some Eq => true | _ => false end.
  Definition is_le (c : option comparison) : bool := match c with Some Eq | Some Lt => true | _ => false end.
  Definition is_ge (c : option comparison) : bool := match c with Some Eq | Some Gt => true | _ => false end.

  Definition has_wild (s : text) : bool :=
    existsb (fun c => N.eqb c STAR || N.eqb c QUEST || N.eqb c TILDE) s.

  (** lookup_utils.rs:78-120, [PreparedLookupMatcher::new] and [matches].
      (An exhausted fuel is excluded by the wildcard theorems.) *)
  Definition matches (needle : lval) (wildcard : bool) (cand : lval) : bool :=
    match needle, cand with
    | LText s, LText c =>
        if wildcard && has_wild s then
          match matches_folded (compile (lower s)) (lower c) with Some b => b | None => false end
        else text_eqb (lower c) (lower s)
    | _, _ => is_eq (cmp_for_lookup needle cand)
    end.

  (** [iter().position(p)] *)
  Fixpoint position (p : lval -> bool) (vs : list lval) : option nat :=
    match vs with
    | [] => None
    | v :: r => if p v then Some 0 else option_map S (position p r)
    end.

  (** lookup_utils.rs:435-448 *)
  Definition find_exact_index (vs : list lval) (needle : lval) (wildcard : bool) : option nat :=
    position (matches needle wildcard) vs.

  (** Lanes of a one-dimensional view. *)
  Definition number_lane (v : lval) : option fnum :=
    match v with LNum x => Some x | LInt z => Some (Fin (inject_Z z)) | LSerial q => Some (Fin q) | _ => None end.

  (** lookup_utils.rs:606-633 *)
  Definition find_exact_empty (vs : list lval) : option nat :=
    position (fun v => match v with LEmpty => true | _ => false end) vs.

  (** lookup_utils.rs:488-525 *)
  Definition find_exact_number (vs : list lval) (n : fnum) : option nat :=
    match position (fun v => match number_lane v with Some x => fnear x n | None => false end) vs with
    | Some i => Some i
    | None => if fnear n (Fin 0%Q) then find_exact_empty vs else None
    end.

  (** lookup_utils.rs:527-574 *)
  Definition find_exact_text (vs : list lval) (s : text) (wildcard : bool) : option nat :=
    position (fun v => match v with
      | LText c =>
          if wildcard && has_wild s then
            match matches_folded (compile (lower s)) (lower c) with Some b => b | None => false end
          else text_eqb (lower c) (lower s)
      | _ => false end) vs.

  (** lookup_utils.rs:576-604 *)
  Definition find_exact_boolean (vs : list lval) (b : bool) : option nat :=
    position (fun v => match v with LBool x => Bool.eqb x b | _ => false end) vs.

  (** lookup_utils.rs:452-486, for a one-dimensional view; the error is the needle's. *)
  Definition find_exact_index_in_view (vs : list lval) (needle : lval) (wildcard : bool) : res N (option nat) :=
    match needle with
    | LNum n => Ok (find_exact_number vs n)
    | LInt i => Ok (find_exact_number vs (Fin (inject_Z i)))
    | LText s => Ok (find_exact_text vs s wildcard)
    | LBool b => Ok (find_exact_boolean vs b)
    | LEmpty => Ok (find_exact_empty vs)
    | LErr e => Err e
    | LSerial q => Ok (find_exact_number vs (Fin q))
    | LOther => Ok None
    end.

  (** lookup_utils.rs:140-146 *)
  Definition is_searchable (v needle : lval) : bool :=
    match v with
    | LEmpty => false
    | _ => match cmp_for_lookup v needle with Some _ => true | None => false end
    end.

  (** lookup_utils.rs:155-219 *)
  Record searched := { sv_values : list lval; sv_positions : option (list nat) }.
  Definition searched_new (values : list lval) (needle : lval) : searched :=
    {| sv_values := values;
       sv_positions :=
         option_map
           (fun skip =>
              seq 0 skip ++
              filter (fun i => match nth_error values i with
                               | Some v => is_searchable v needle
                               | None => false end)
                     (seq (S skip) (length values - S skip)))
           (position (fun v => negb (is_searchable v needle)) values) |}.
  Definition sv_len (s : searched) : nat :=
    match sv_positions s with Some p => length p | None => length (sv_values s) end.
  Definition original_position (s : searched) (i : nat) : option nat :=
    match sv_positions s with Some p => nth_error p i | None => Some i end.
  Definition sv_get (s : searched) (i : nat) : option lval :=
    match original_position s i with Some j => nth_error (sv_values s) j | None => None end.

  (** Both sortedness checks, :208-218; [None] stands for an index panic. *)
  Definition sorted_by (ok : option comparison -> bool) (s : searched) : bool :=
    forallb (fun i => match sv_get s (i - 1), sv_get s i with
                      | Some a, Some b => ok (cmp_for_lookup a b)
                      | _, _ => false end)
            (seq 1 (sv_len s - 1)).

  (** The loop at core.rs:62-78 on any comparison function; [Panic] for
      [unreachable!] and out-of-range indexing. *)
  Fixpoint bsearch (f : nat -> option comparison) (fuel lo hi : nat) : res unit nat :=
    match fuel with
    | O => Err tt
    | S fuel =>
        if lo <? hi then
          let mid := (lo + hi) / 2 in
          match f mid with
          | Some Gt => bsearch f fuel lo mid
          | Some _ => bsearch f fuel (mid + 1) hi
          | None => Panic
          end
        else Ok lo
    end.
  Definition cmp_at (s : searched) (needle : lval) (i : nat) : option comparison :=
    match sv_get s i with Some v => cmp_for_lookup v needle | None => None end.

  (** core.rs:82-93, the loop of mode -1. *)
  Fixpoint linear_desc (f : nat -> option comparison) (is : list nat) (best : option nat) : option nat :=
    match is with
    | [] => best
    | i :: r =>
        match f i with
        | Some Eq => Some i
        | Some Gt => linear_desc f r (match best with None => Some i | Some b => if b <? i then Some i else best end)
        | _ => linear_desc f r best
        end
    end.

  (** core.rs:50-95 *)
  Definition binary_search_searched (s : searched) (needle : lval) (mode : Z) : res unit (option nat) :=
    if (Z.eqb mode 0 || (sv_len s =? 0))%bool then Ok None
    else if Z.eqb mode 1 then
      rbind (bsearch (cmp_at s needle) (S (sv_len s)) 0 (sv_len s)) (fun lo =>
      Ok (if lo =? 0 then None else Some (lo - 1)))
    else Ok (linear_desc (cmp_at s needle) (seq 0 (sv_len s)) None).

  Definition to_original (s : searched) (o : option nat) : res unit (option nat) :=
    match o with
    | None => Ok None
    | Some i => match original_position s i with Some j => Ok (Some j) | None => Panic end
    end.

  (** core.rs:34-46 *)
  Definition binary_search_match (values : list lval) (needle : lval) (mode : Z) : res unit (option nat) :=
    if (Z.eqb mode 0 || (length values =? 0))%bool then Ok None
    else
      let s := searched_new values needle in
      rbind (binary_search_searched s needle mode) (to_original s).

  (** core.rs:327-338 *)
  Fixpoint linear_asc (f : nat -> option comparison) (is : list nat) (best : option nat) : option nat :=
    match is with
    | [] => best
    | i :: r =>
        linear_asc f r
          (match f i with
           | Some Eq | Some Lt => match best with None => Some i | Some b => if b <? i then Some i else best end
           | _ => best
           end)
    end.

  (** core.rs:290-367: approximate MATCH over a range; 0-based position, [None] is #N/A. *)
  Definition match_range (values : list lval) (needle : lval) (mt : Z) : res unit (option nat) :=
    let s := searched_new values needle in
    let sorted := if Z.eqb mt 1 then sorted_by is_le s
                  else if Z.eqb mt (-1) then sorted_by is_ge s else true in
    if negb sorted then Ok None
    else
      rbind
        (if sv_len s <? 8 then
           Ok (if Z.eqb mt 1 then linear_asc (cmp_at s needle) (seq 0 (sv_len s)) None
               else linear_desc (cmp_at s needle) (seq 0 (sv_len s)) None)
         else binary_search_searched s needle mt)
        (to_original s).

  (** core.rs:371-405: approximate MATCH over an array literal. *)
  Definition match_array := binary_search_match.

  (** legacy.rs:28-47 *)
  Fixpoint approx_loop (f : nat -> option comparison) (fuel lo hi : nat) : res unit nat :=
    match fuel with
    | O => Err tt
    | S fuel =>
        if lo <? hi then
          let mid := (lo + hi) / 2 in
          match f mid with
          | Some Gt => approx_loop f fuel lo mid
          | Some _ => approx_loop f fuel (mid + 1) hi
          | None => approx_loop f fuel lo mid
          end
        else Ok lo
    end.
  Definition approx_match_ascending (values : list lval) (needle : lval) : res unit (option nat) :=
    if length values =? 0 then Ok None
    else
      rbind (approx_loop (fun i => match nth_error values i with Some v => cmp_for_lookup v needle | None => None end)
                         (S (length values)) 0 (length values))
            (fun lo => Ok (if lo =? 0 then None else Some (lo - 1))).

  (** dynamic.rs:404-413 and 767-779: one step of the best-so-far update. *)
  Definition better (smaller : bool) (needle_num : option fnum) (cand : lval) (best_val : fnum) : option fnum :=
    match needle_num, value_to_f64_lenient cand with
    | Some nn, Some vv =>
        if smaller then if fle vv nn && flt best_val vv then Some vv else None
        else if fle nn vv && flt vv best_val then Some vv else None
    | _, _ => None
    end.

  (** The scan of dynamic.rs:752-781 over (index, candidate) pairs. *)
  Fixpoint approx_scan (smaller : bool) (needle : lval) (cs : list (nat * lval))
      (best : option nat) (best_val : fnum) : option nat :=
    match cs with
    | [] => best
    | (i, c) :: r =>
        if is_eq (cmp_for_lookup c needle) then Some i
        else match better smaller (value_to_f64_lenient needle) c best_val with
             | Some vv => approx_scan smaller needle r (Some i) vv
             | None => approx_scan smaller needle r best best_val
             end
    end.
  Definition indexed (vs : list lval) : list (nat * lval) := combine (seq 0 (length vs)) vs.
  Definition start_val (smaller : bool) : fnum := if smaller then NInf else PInf.

  (** dynamic.rs:377-414: the same scan, checking ascending order on the way;
      [None] is the #N/A of unsorted data. *)
  Fixpoint xlookup_scan (smaller : bool) (needle : lval) (prev : option lval) (cs : list (nat * lval))
      (best : option nat) (best_val : fnum) : option (option nat) :=
    match cs with
    | [] => Some best
    | (i, c) :: r =>
        if match prev with Some p => is_le (cmp_for_lookup p c) | None => true end then
          if is_eq (cmp_for_lookup c needle) then Some (Some i)
          else match better smaller (value_to_f64_lenient needle) c best_val with
               | Some vv => xlookup_scan smaller needle (Some c) r (Some i) vv
               | None => xlookup_scan smaller needle (Some c) r best best_val
               end
        else None
    end.

  (** [for i in (0..n).rev()] with [matches]: the last match. *)
  Definition find_last (needle : lval) (wildcard : bool) (vs : list lval) : option nat :=
    match position (matches needle wildcard) (rev vs) with
    | Some k => Some (length vs - 1 - k)
    | None => None
    end.

  (** dynamic.rs:727-750 *)
  Fixpoint all_sorted (ok : option comparison -> bool) (vs : list lval) : bool :=
    match vs with
    | a :: (b :: _) as r => ok (cmp_for_lookup a b) && all_sorted ok r
    | _ => true
    end.

  Inductive xout := XPos (i : nat) | XNa | XValue | XErr (e : N).
  Definition xopt (o : option nat) : xout := match o with Some i => XPos i | None => XNa end.
  Definition xres (r : res N (option nat)) : xout :=
    match r with Ok o => xopt o | Err e => XErr e | Panic => XValue end.

  (** XMATCH over a non-empty one-dimensional view, dynamic.rs:662-800. *)
  Definition xmatch (vs : list lval) (needle : lval) (match_mode search_mode : Z) : xout :=
    let wildcard := Z.eqb match_mode 2 in
    let rev_mode := (Z.eqb search_mode (-1) || Z.eqb search_mode (-2))%bool in
    if (Z.eqb match_mode 0 || wildcard)%bool then
      if (Z.eqb search_mode 1 || Z.eqb search_mode 2)%bool then xres (find_exact_index_in_view vs needle wildcard)
      else if rev_mode then xopt (find_last needle wildcard vs)
      else xopt (find_exact_index vs needle wildcard)
    else if (Z.eqb match_mode (-1) || Z.eqb match_mode 1)%bool then
      let smaller := Z.eqb match_mode (-1) in
      if (Z.eqb search_mode 2 && negb (all_sorted is_le vs))%bool then XNa
      else if (Z.eqb search_mode (-2) && negb (all_sorted is_ge vs))%bool then XNa
      else
        let cs := if rev_mode then rev (indexed vs) else indexed vs in
        xopt (approx_scan smaller needle cs None (start_val smaller))
    else XValue.

  (** The position XLOOKUP selects in a non-empty one-dimensional view without a
      cached index, dynamic.rs:312-423. *)
  Definition xlookup (vs : list lval) (needle : lval) (match_mode search_mode : Z) : xout :=
    let wildcard := Z.eqb match_mode 2 in
    if (Z.eqb match_mode 0 || wildcard)%bool then
      if Z.eqb search_mode 1 then xres (find_exact_index_in_view vs needle wildcard)
      else if Z.eqb search_mode (-1) then xopt (find_last needle wildcard vs)
      else xopt (find_exact_index vs needle wildcard)
    else if (Z.eqb match_mode (-1) || Z.eqb match_mode 1)%bool then
      let smaller := Z.eqb match_mode (-1) in
      match xlookup_scan smaller needle None (indexed vs) None (start_val smaller) with
      | Some o => xopt o
      | None => XNa
      end
    else XValue.

  (** ** The lookup index, lookup_index_cache.rs *)

  (** :28-34; a bit pattern is the number it denotes. *)
  Inductive hkey := HNum (x : fnum) | HText (t : text) | HBool (b : bool) | HEmpty.
  Definition fnum_eqb (x y : fnum) : bool :=
    match x, y with
    | Fin a, Fin b => Qeq_bool a b
    | PInf, PInf | NInf, NInf | NaN, NaN => true
    | _, _ => false
    end.
  Definition hkey_eqb (a b : hkey) : bool :=
    match a, b with
    | HNum x, HNum y => fnum_eqb x y
    | HText x, HText y => text_eqb x y
    | HBool x, HBool y => Bool.eqb x y
    | HEmpty, HEmpty => true
    | _, _ => false
    end.

  (** :83-93; at half-way points the direction of rounding does not matter here. *)
  Definition normalize_f64 (x : fnum) : fnum :=
    match x with
    | Fin q =>
        let rounded := inject_Z (Qfloor (q + (1 # 2))) in
        if fnear (Fin q) (Fin rounded) then Fin rounded else Fin q
    | _ => x
    end.

  (** :60-80 *)
  Definition key_of_literal (v : lval) : option hkey :=
    match v with
    | LNum n => Some (HNum (normalize_f64 n))
    | LInt i => Some (HNum (normalize_f64 (Fin (inject_Z i))))
    | LText s => Some (HText (lower s))
    | LBool b => Some (HBool b)
    | LEmpty => Some HEmpty
    | LSerial q => Some (HNum (normalize_f64 (Fin q)))
    | LErr _ | LOther => None
    end.

  (** :131-157: [entries] after indexing the cells from position [i] on. *)
  Fixpoint index_entries (i : nat) (vs : list lval) (entries : list (hkey * list nat)) : list (hkey * list nat) :=
    match vs with
    | [] => entries
    | v :: r =>
        index_entries (S i) r
          (match key_of_literal v with
           | Some k => mput hkey_eqb entries k (match mget hkey_eqb entries k with Some l => l | None => [] end ++ [i])
           | None => entries
           end)
    end.

  (** :159-161: no index if an error is present; an empty axis has none either. *)
  Definition index_build (vs : list lval) : option (list (hkey * list nat)) :=
    if (length vs =? 0) || existsb (fun v => match v with LErr _ => true | _ => false end) vs
    then None else Some (index_entries 0 vs []).

  (** :175-190 *)
  Definition find_first_exact (entries : list (hkey * list nat)) (vs : list lval) (needle : lval) : option nat :=
    match key_of_literal needle with
    | None => None
    | Some k =>
        let hits := match mget hkey_eqb entries k with Some l => l | None => [] end in
        match find (fun i => match nth_error vs i with
                             | Some v => is_eq (cmp_for_lookup needle v)
                             | None => false end) hits with
        | Some i => Some i
        | None =>
            match needle with
            | LNum n => if fnear n (Fin 0%Q) then find_exact_empty vs else None
            | LInt z => if fnear (Fin (inject_Z z)) (Fin 0%Q) then find_exact_empty vs else None
            | _ => None
            end
        end
    end.
End Lookup.
