(** Hidden rows: eval/src/engine/row_visibility.rs (whole file, 1-249).
    Row numbers are u32 (0-based), words are u64; both are [N] here. *)
From Verif Require Import Base.
Local Open Scope N_scope.

Definition U32MAX : N := 4294967295.
Definition U64MAX : N := 18446744073709551615.

(** :16-18 [RowBitSet { words }] *)
Definition rowset := list N.

Definition word_idx (row0 : N) : nat := N.to_nat (row0 / 64).
Definition bit_mask (row0 : N) : N := N.shiftl 1 (row0 mod 64).

(** :21-23 *)
Definition rs_is_empty (ws : rowset) : bool := forallb (fun w => w =? 0) ws.

(** :25-32 *)
Definition rs_get (ws : rowset) (row0 : N) : bool :=
  match nth_error ws (word_idx row0) with
  | Some w => negb (N.land w (bit_mask row0) =? 0)
  | None => false
  end.

(** :155-159 *)
Fixpoint trim (ws : rowset) : rowset :=
  match ws with
  | [] => []
  | w :: r => match trim r with
              | [] => if w =? 0 then [] else [w]
              | r' => w :: r'
              end
  end.

Fixpoint update {A} (l : list A) (i : nat) (a : A) : list A :=
  match l, i with
  | [], _ => []
  | _ :: r, O => a :: r
  | x :: r, S j => x :: update r j a
  end.

(** [Vec::resize(n, 0)] when growing *)
Definition resize (ws : rowset) (n : nat) : rowset := ws ++ repeat 0 (n - length ws).

(** :34-59; result is (new set, changed).  [!mask] on u64 clears the bit: [N.ldiff]. *)
Definition rs_set (ws : rowset) (row0 : N) (hidden : bool) : rowset * bool :=
  let i := word_idx row0 in
  if (length ws <=? i)%nat && negb hidden then (ws, false) else
  let ws := if (length ws <=? i)%nat then resize ws (S i) else ws in
  let mask := bit_mask row0 in
  let word := nth i ws 0 in
  let old := negb (N.land word mask =? 0) in
  if Bool.eqb old hidden then (ws, false)
  else if hidden then (update ws i (N.lor word mask), true)
  else (trim (update ws i (N.ldiff word mask)), true).

(** :67-70 the loop over [start..=end], [n] rows of it *)
Fixpoint set_loop (ws : rowset) (row0 : N) (n : nat) (hidden changed : bool) : rowset * bool :=
  match n with
  | O => (ws, changed)
  | S k => let '(ws', c) := rs_set ws row0 hidden in
           set_loop ws' (row0 + 1) k hidden (changed || c)
  end.

(** :61-71 *)
Definition rs_set_range (ws : rowset) (start_row0 end_row0 : N) (hidden : bool) : rowset * bool :=
  if end_row0 <? start_row0 then (ws, false)
  else set_loop ws start_row0 (N.to_nat (end_row0 - start_row0 + 1)) hidden false.

(** [u64::trailing_zeros] of a non-zero word *)
Fixpoint ctz (p : positive) : N :=
  match p with xO q => 1 + ctz q | _ => 0 end.

(** :138-143 the bit loop; at most 64 iterations, [fuel] is 64 *)
Fixpoint word_rows (fuel : nat) (base bits : N) : list N :=
  match fuel, bits with
  | S f, Npos p => (base + ctz p) :: word_rows f base (N.land bits (bits - 1))
  | _, _ => []
  end.

(** :135-146.  [(word_idx as u32) * 64 + tz] stays below 2^32 for a set that only
    ever received u32 rows. *)
Fixpoint collect_from (i : N) (ws : rowset) : list N :=
  match ws with
  | [] => []
  | w :: r => word_rows 64 (i * 64) w ++ collect_from (i + 1) r
  end.
Definition collect_set_rows (ws : rowset) : list N := collect_from 0 ws.

(** :148-153 *)
Definition rebuild (rows : list N) : rowset :=
  fold_left (fun ws r => fst (rs_set ws r true)) rows [].

Definition sat_add (a b : N) : N := N.min (a + b) U32MAX.

(** :73-99 *)
Definition rs_insert (ws : rowset) (before0 count : N) : rowset * bool :=
  if count =? 0 then (ws, false) else
  let old := collect_set_rows ws in
  match old with
  | [] => (ws, false)
  | _ =>
      let changed := existsb (fun r => before0 <=? r) old in
      let rows := map (fun r => if before0 <=? r then sat_add r count else r) old in
      if changed then (rebuild rows, true) else (ws, false)
  end.

(** :101-133; [row0 - count] cannot underflow there ([row0 > start0+count-1]). *)
Definition rs_delete (ws : rowset) (start0 count : N) : rowset * bool :=
  if count =? 0 then (ws, false) else
  let old := collect_set_rows ws in
  match old with
  | [] => (ws, false)
  | _ =>
      let end0 := sat_add start0 (count - 1) in
      let rows := flat_map (fun r => if r <? start0 then [r]
                                     else if r <=? end0 then [] else [r - count]) old in
      let changed := existsb (fun r => start0 <=? r) old in
      if changed then (rebuild rows, true) else (ws, false)
  end.

(** :163-167 *)
Record vis := mkVis { manual : rowset; filt : rowset; version : N }.
Inductive source := Manual | Filter.

Definition vis_new : vis := mkVis [] [] 0.

(** [self.version.saturating_add(1)] if changed *)
Definition bump (v : N) (changed : bool) : N := if changed then N.min (v + 1) U64MAX else v.

(** :174-176 *)
Definition vis_is_empty (s : vis) : bool := rs_is_empty (manual s) && rs_is_empty (filt s).

(** :178-187 *)
Definition set_row_hidden (s : vis) (row0 : N) (hidden : bool) (src : source) : vis * bool :=
  match src with
  | Manual => let '(m, c) := rs_set (manual s) row0 hidden in
              (mkVis m (filt s) (bump (version s) c), c)
  | Filter => let '(f, c) := rs_set (filt s) row0 hidden in
              (mkVis (manual s) f (bump (version s) c), c)
  end.

(** :189-208 *)
Definition set_rows_hidden (s : vis) (a b : N) (hidden : bool) (src : source) : vis * bool :=
  match src with
  | Manual => let '(m, c) := rs_set_range (manual s) a b hidden in
              (mkVis m (filt s) (bump (version s) c), c)
  | Filter => let '(f, c) := rs_set_range (filt s) a b hidden in
              (mkVis (manual s) f (bump (version s) c), c)
  end.

(** :210-216 *)
Definition is_row_hidden (s : vis) (row0 : N) (src : option source) : bool :=
  match src with
  | Some Manual => rs_get (manual s) row0
  | Some Filter => rs_get (filt s) row0
  | None => rs_get (manual s) row0 || rs_get (filt s) row0
  end.

(** :218-230 *)
Definition rows_hidden (s : vis) (a b : N) (src : option source) : list bool :=
  if b <? a then [] else
  map (fun k => is_row_hidden s (a + N.of_nat k) src) (seq 0 (N.to_nat (b - a + 1))).

(** :232-239; [|] is not short-circuiting. *)
Definition vis_insert (s : vis) (before0 count : N) : vis * bool :=
  let '(m, c1) := rs_insert (manual s) before0 count in
  let '(f, c2) := rs_insert (filt s) before0 count in
  (mkVis m f (bump (version s) (c1 || c2)), c1 || c2).

(** :241-248 *)
Definition vis_delete (s : vis) (start0 count : N) : vis * bool :=
  let '(m, c1) := rs_delete (manual s) start0 count in
  let '(f, c2) := rs_delete (filt s) start0 count in
  (mkVis m f (bump (version s) (c1 || c2)), c1 || c2).
