(** Model of crates/formualizer-common/src/coord.rs and of the address tagging in
    crates/formualizer-eval/src/engine/addr.rs.

    A packed word is an [N]; Rust's [u32]/[u64] arguments are [N]s (the theorems
    carry the [< 2^32]/[< 2^64] bounds where the code relies on them).  Strings are
    lists of bytes. *)
From Verif Require Import Base.
Open Scope N_scope.

(* coord.rs:10-27 *)
Definition ROW_BITS : N := 20.
Definition COL_BITS : N := 14.
Definition ROW_MAX : N := 1048575.          (* (1 << 20) - 1 *)
Definition COL_MAX : N := 16383.            (* (1 << 14) - 1 *)
Definition ROW_MAX_1BASED : N := ROW_MAX + 1.
Definition COL_MAX_1BASED : N := COL_MAX + 1.
Definition ROW_SHIFT : N := 24.
Definition COL_SHIFT : N := 10.
Definition ROW_MASK : N := N.shiftl ROW_MAX ROW_SHIFT.
Definition COL_MASK : N := N.shiftl COL_MAX COL_SHIFT.
Definition RESERVED_HIGH_MASK : N := 0xFFFFF00000000000.
Definition RESERVED_LOW_MASK : N := 0x3FF.
Definition ROW_ABS_BIT : N := 1.
Definition COL_ABS_BIT : N := 2.
(* [!m] on u64 is [ldiff (2^64-1) m]. *)
Definition not64 (m : N) : N := N.ldiff (N.ones 64) m.
Definition RELATIVE_RESERVED_LOW_MASK : N :=
  N.land RESERVED_LOW_MASK (not64 (N.lor ROW_ABS_BIT COL_ABS_BIT)).
Definition U64_MAX : N := 0xFFFFFFFFFFFFFFFF.

(* coord.rs:32-38.  Payloads are kept as integers. *)
Inductive coord_error :=
| RowOverflow (r : Z) | ColOverflow (c : Z) | NegativeRow (r : Z) | NegativeCol (c : Z)
| ReservedBitsSet (bits : N).

(* coord.rs:57-66.  [InvalidColumnChar], [InvalidRowChar] and [TrailingCharacters]
   carry the offending bytes rather than a decoded char. *)
Inductive a1_error :=
| A1Empty | MissingColumn | MissingRow | InvalidColumnChar (b : N) | InvalidRowChar (b : N)
| TrailingCharacters (rest : list N) | ColumnOutOfRange (c : N) | RowOutOfRange (r : N)
| A1Reserved (bits : N).

(* coord.rs:101-113.  The [row as u32 + 1] never overflows for the values that
   reach it; modelled unbounded. *)
Definition a1_of_coord_error (e : coord_error) : a1_error :=
  match e with
  | RowOverflow r => RowOutOfRange (z_as_u32 r + 1)
  | ColOverflow c => ColumnOutOfRange (z_as_u32 c + 1)
  | NegativeRow _ => RowOutOfRange 0
  | NegativeCol _ => ColumnOutOfRange 0
  | ReservedBitsSet b => A1Reserved b
  end.

(** ** Coord (coord.rs:117-202) : the packed word. *)
Definition coord := N.
Definition coord_INVALID : coord := U64_MAX.                       (* 120 *)
Definition coord_RESERVED_MASK : N := N.lor RESERVED_HIGH_MASK RESERVED_LOW_MASK. (* 122 *)

(* coord.rs:125-129.  [assert!] failures are [Panic]. *)
Definition coord_new (row col : N) : res coord_error coord :=
  if negb (row <=? ROW_MAX) then Panic
  else if negb (col <=? COL_MAX) then Panic
  else Ok (N.lor (N.shiftl row ROW_SHIFT) (N.shiftl col COL_SHIFT)).

(* coord.rs:133-137; [saturating_sub(1)] is [N.sub]. *)
Definition coord_from_excel (row col : N) : res coord_error coord :=
  coord_new (row - 1) (col - 1).

(* coord.rs:140-148 *)
Definition coord_try_new (row col : N) : res coord_error coord :=
  if ROW_MAX <? row then Err (RowOverflow (Z.of_N row))
  else if COL_MAX <? col then Err (ColOverflow (Z.of_N col))
  else coord_new row col.

(* coord.rs:151-159 *)
Definition coord_from_raw (raw : N) : res coord_error coord :=
  if raw =? U64_MAX then Ok coord_INVALID
  else if negb (N.land raw coord_RESERVED_MASK =? 0)
       then Err (ReservedBitsSet (N.land raw coord_RESERVED_MASK))
       else Ok raw.

(* coord.rs:162-164, 167-169 *)
Definition coord_row (c : coord) : N := trunc_u32 (N.shiftr (N.land c ROW_MASK) ROW_SHIFT).
Definition coord_col (c : coord) : N := trunc_u32 (N.shiftr (N.land c COL_MASK) COL_SHIFT).
Definition coord_is_valid (c : coord) : bool := negb (c =? U64_MAX).  (* 177-179 *)
(* coord.rs:183-185 *)
Definition coord_normalize (c : coord) : coord := N.land c (not64 coord_RESERVED_MASK).

(* coord.rs:218-233: [TryFrom<(i64,i64)>].  Note the truncating casts. *)
Definition coord_try_from_i64 (row col : Z) : res coord_error coord :=
  if (row <? 0)%Z then Err (NegativeRow row)
  else if (col <? 0)%Z then Err (NegativeCol col)
  else coord_try_new (z_as_u32 row) (z_as_u32 col).

(** ** RelativeCoord (coord.rs:247-375) *)
Definition rcoord := N.
Definition rcoord_RESERVED_MASK : N := N.lor RESERVED_HIGH_MASK RELATIVE_RESERVED_LOW_MASK. (* 250 *)

(* coord.rs:252-263 *)
Definition rcoord_new (row col : N) (row_abs col_abs : bool) : res coord_error rcoord :=
  if negb (row <=? ROW_MAX) then Panic
  else if negb (col <=? COL_MAX) then Panic
  else
    let raw := N.lor (N.shiftl row ROW_SHIFT) (N.shiftl col COL_SHIFT) in
    let raw := if row_abs then N.lor raw ROW_ABS_BIT else raw in
    let raw := if col_abs then N.lor raw COL_ABS_BIT else raw in
    Ok raw.

(* coord.rs:265-273 *)
Definition rcoord_try_new (row col : N) (row_abs col_abs : bool) : res coord_error rcoord :=
  if ROW_MAX <? row then Err (RowOverflow (Z.of_N row))
  else if COL_MAX <? col then Err (ColOverflow (Z.of_N col))
  else rcoord_new row col row_abs col_abs.

(* coord.rs:275-280 *)
Definition rcoord_from_raw (raw : N) : res coord_error rcoord :=
  if negb (N.land raw rcoord_RESERVED_MASK =? 0)
  then Err (ReservedBitsSet (N.land raw rcoord_RESERVED_MASK))
  else Ok raw.

(* coord.rs:283-300 *)
Definition rcoord_row (c : rcoord) : N := trunc_u32 (N.shiftr (N.land c ROW_MASK) ROW_SHIFT).
Definition rcoord_col (c : rcoord) : N := trunc_u32 (N.shiftr (N.land c COL_MASK) COL_SHIFT).
Definition rcoord_row_abs (c : rcoord) : bool := negb (N.land c ROW_ABS_BIT =? 0).
Definition rcoord_col_abs (c : rcoord) : bool := negb (N.land c COL_ABS_BIT =? 0).

(* coord.rs:303-320 *)
Definition rcoord_with_row_abs (c : rcoord) (abs : bool) : rcoord :=
  if abs then N.lor c ROW_ABS_BIT else N.land c (not64 ROW_ABS_BIT).
Definition rcoord_with_col_abs (c : rcoord) (abs : bool) : rcoord :=
  if abs then N.lor c COL_ABS_BIT else N.land c (not64 COL_ABS_BIT).

(** An [i32] addition: [None] on overflow.  (Release builds wrap; every wrapped
    value that reaches this code is negative, is cast to a u32 above 2^31 and
    panics in [new] all the same.) *)
Definition i32_add (a b : Z) : option Z :=
  let s := (a + b)%Z in
  if ((- 2 ^ 31 <=? s) && (s <? 2 ^ 31))%Z then Some s else None.

(* coord.rs:324-328 *)
Definition rcoord_offset (c : rcoord) (drow dcol : Z) : res coord_error rcoord :=
  match i32_add (Z.of_N (rcoord_row c)) drow, i32_add (Z.of_N (rcoord_col c)) dcol with
  | Some r, Some k => rcoord_new (z_as_u32 r) (z_as_u32 k) (rcoord_row_abs c) (rcoord_col_abs c)
  | _, _ => Panic
  end.

(* coord.rs:332-346.  The three i32 computations stay far inside i32 because rows
   and columns are below 2^20; modelled over Z, then cast. *)
Definition rcoord_rebase (c origin target : rcoord) : res coord_error rcoord :=
  let drow := (Z.of_N (rcoord_row target) - Z.of_N (rcoord_row origin))%Z in
  let dcol := (Z.of_N (rcoord_col target) - Z.of_N (rcoord_col origin))%Z in
  let new_row := if rcoord_row_abs c then rcoord_row c
                 else z_as_u32 (Z.of_N (rcoord_row c) + drow)%Z in
  let new_col := if rcoord_col_abs c then rcoord_col c
                 else z_as_u32 (Z.of_N (rcoord_col c) + dcol)%Z in
  rcoord_new new_row new_col (rcoord_row_abs c) (rcoord_col_abs c).

(** ** Column letters (coord.rs:404-462) *)

(* coord.rs:404-417.  The loop, as recursion with fuel; letters are consed, which
   is push followed by the final [reverse].  [None] = out of fuel (never for
   fuel 40, see [column_to_letters_fuel] in CoordProofs). *)
Fixpoint col_letters_loop (fuel : nat) (col : N) (buf : list N) : option (list N) :=
  match fuel with
  | O => None
  | S fuel =>
      let rem := col mod 26 in
      let buf := (65 + rem) :: buf in
      let col := col / 26 in
      if col =? 0 then Some buf else col_letters_loop fuel (col - 1) buf
  end.
Definition column_to_letters (col : N) : option (list N) := col_letters_loop 40 col [].

Definition checked_u32 (x : N) : option N := if x <? U32 then Some x else None.

(* coord.rs:424-435.  [idx != s.len() - 1] is "a byte remains". *)
Fixpoint letters_loop (s : list N) (col : N) : option N :=
  match s with
  | [] => Some col
  | byte :: rest =>
      let upper := to_ascii_upper byte in
      if negb (is_ascii_upper upper) then None
      else
        let val := upper - 65 in
        match checked_u32 (col * 26) with
        | None => None
        | Some col =>
            match checked_u32 (col + val) with
            | None => None
            | Some col =>
                match rest with
                | [] => letters_loop rest col
                | _ => match checked_u32 (col + 1) with
                       | None => None
                       | Some col => letters_loop rest col
                       end
                end
            end
        end
  end.
(* coord.rs:419-437 *)
Definition letters_to_column_index (s : list N) : option N :=
  match s with [] => None | _ => letters_loop s 0 end.

(* coord.rs:440-445 *)
Definition col_letters_from_1based (col : N) : res a1_error (list N) :=
  if (col =? 0) || (COL_MAX_1BASED <? col) then Err (ColumnOutOfRange col)
  else match column_to_letters (col - 1) with Some l => Ok l | None => Panic end.

(* coord.rs:448-462.  Works on bytes: a non-ASCII char contributes bytes >= 128,
   which are not alphabetic.  [zero_based + 1] at u32::MAX overflows: [Panic] (a
   debug build; a release build wraps and reports column 0). *)
Definition col_index_from_letters_1based (s : list N) : res a1_error N :=
  match s with
  | [] => Err MissingColumn
  | _ =>
      match find (fun b => negb (is_ascii_alpha b)) s with
      | Some b => Err (InvalidColumnChar b)
      | None =>
          match letters_to_column_index s with
          | Some z =>
              if z <=? COL_MAX then Ok (z + 1)
              else match checked_u32 (z + 1) with
                   | Some c => Err (ColumnOutOfRange c)
                   | None => Panic
                   end
          | None => Err (ColumnOutOfRange (COL_MAX_1BASED + 1))
          end
      end
  end.

(** [str::parse::<u32>] on a non-empty string of ASCII digits. *)
Fixpoint parse_digits (s : list N) (acc : N) : option N :=
  match s with
  | [] => Some acc
  | d :: rest =>
      match checked_u32 (acc * 10 + (d - 48)) with
      | None => None
      | Some a => parse_digits rest a
      end
  end.

(* coord.rs:464-536.  The byte index walk is a walk over the remaining suffix.
   The re-check of digits at 523-526 is dead code (the loop 505-507 accepted only
   digits) and is omitted. *)
Definition parse_a1_components (input : list N) : res a1_error (N * N * bool * bool) :=
  match input with
  | [] => Err A1Empty
  | b0 :: tl0 =>
      let '(col_abs, s1) := if b0 =? 36 then (true, tl0) else (false, input) in
      match col_abs, s1 with
      | true, [] => Err MissingColumn
      | _, _ =>
          let '(letters, s2) := span is_ascii_alpha s1 in
          match letters with
          | [] => Err MissingColumn
          | _ =>
              let '(row_abs, s3) :=
                match s2 with
                | b :: tl => if b =? 36 then (true, tl) else (false, s2)
                | [] => (false, s2)
                end in
              match s3 with
              | [] => Err MissingRow
              | first :: _ =>
                  let '(digits, s4) := span is_ascii_digit s3 in
                  match digits with
                  | [] => if first =? 0 then Err MissingRow else Err (InvalidRowChar first)
                  | _ =>
                      match s4 with
                      | _ :: _ => Err (TrailingCharacters s4)
                      | [] =>
                          rbind (col_index_from_letters_1based letters) (fun col =>
                            match parse_digits digits 0 with
                            | None => Err (RowOutOfRange (ROW_MAX_1BASED + 1))
                            | Some row =>
                                if (row =? 0) || (ROW_MAX_1BASED <? row)
                                then Err (RowOutOfRange row)
                                else Ok (row, col, row_abs, col_abs)
                            end)
                      end
                  end
              end
          end
      end
  end.

(* coord.rs:367-374 *)
Definition rcoord_try_from_a1 (input : list N) : res a1_error rcoord :=
  rbind (parse_a1_components input) (fun '(row, col, row_abs, col_abs) =>
    if row =? 0 then Err (RowOutOfRange 0)
    else if col =? 0 then Err (ColumnOutOfRange 0)
    else rmap_err a1_of_coord_error (rcoord_try_new (row - 1) (col - 1) row_abs col_abs)).

(* coord.rs:194-201 *)
Definition coord_try_from_a1 (input : list N) : res a1_error coord :=
  rbind (parse_a1_components input) (fun '(row, col, _, _) =>
    if row =? 0 then Err (RowOutOfRange 0)
    else if col =? 0 then Err (ColumnOutOfRange 0)
    else rmap_err a1_of_coord_error (coord_try_new (row - 1) (col - 1))).

(** Decimal printing of an unsigned integer ([write!(f, "{}", n)]). *)
Fixpoint dec_loop (fuel : nat) (n : N) (acc : list N) : list N :=
  match fuel with
  | O => acc
  | S fuel =>
      let acc := (48 + n mod 10) :: acc in
      if n / 10 =? 0 then acc else dec_loop fuel (n / 10) acc
  end.
Definition show_u32 (n : N) : list N := dec_loop 20 n [].

(* coord.rs:377-388 *)
Definition rcoord_display (c : rcoord) : option (list N) :=
  match column_to_letters (rcoord_col c) with
  | None => None
  | Some letters =>
      Some ((if rcoord_col_abs c then [36] else []) ++ letters
              ++ (if rcoord_row_abs c then [36] else []) ++ show_u32 (rcoord_row c + 1))
  end.

(** ** Vertex addresses (crates/formualizer-eval/src/engine/addr.rs) *)

Definition SYMBOL_TAG : N := N.shiftl 1 63.                          (* addr.rs:38 *)
Definition SYMBOL_PAYLOAD_MASK : N := not64 RESERVED_HIGH_MASK.      (* addr.rs:41 *)
Definition vaddr := N.
Definition vaddr_INVALID : vaddr := U64_MAX.                         (* addr.rs:144 *)
Definition vaddr_grid (c : coord) : vaddr := c.                      (* addr.rs:148-150 *)
Definition vaddr_symbol (i : N) : vaddr := N.lor SYMBOL_TAG i.       (* addr.rs:154-156 *)

(* addr.rs:206-211; [Coord::new(0,0)] is the word 0. *)
Definition unsafe_coord_from_raw (raw : N) : coord :=
  match coord_from_raw raw with Ok c => c | _ => 0 end.

(* addr.rs:163-182 *)
Definition vaddr_is_grid (a : vaddr) : bool := N.land a RESERVED_HIGH_MASK =? 0.
Definition vaddr_is_symbol (a : vaddr) : bool := N.land a RESERVED_HIGH_MASK =? SYMBOL_TAG.
Definition vaddr_as_grid (a : vaddr) : option coord :=
  if vaddr_is_grid a then Some (unsafe_coord_from_raw a) else None.
Definition vaddr_as_symbol (a : vaddr) : option N :=
  if vaddr_is_symbol a then Some (trunc_u32 (N.land a SYMBOL_PAYLOAD_MASK)) else None.

(* addr.rs:195-201 *)
Definition U32_MAX : N := 4294967295.
Definition vaddr_order_key (a : vaddr) : N * N :=
  match vaddr_as_grid a, vaddr_as_symbol a with
  | Some g, _ => (coord_row g, coord_col g)
  | _, Some s => (U32_MAX, s)
  | _, _ => (U32_MAX, U32_MAX)
  end.
