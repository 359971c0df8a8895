(** Specification of the array functions: what an outcome shows, stable orders,
    equal rows, and the parts of a table.  Independent of the code of the functions. *)
From Coq Require Import QArith Permutation Sorted.
From Verif Require Import Base Maps LookupModel LookupSpec AyModel.
Close Scope Q_scope.

(** A table, row by row, and the table a value shows. *)
Definition table := list (list lval).
Definition cell (t : table) (r c : nat) : lval := nth c (nth r t []) LEmpty.
Definition rect (n m : nat) (t : table) : Prop := length t = n /\ forall row, In row t -> length row = m.
Definition cells (a : calc) : table :=
  match a with Scalar v => [[stored v]] | Range w => rows_of w end.
Definition shows (o : out) (t : table) : Prop := exists a, o = Ok a /\ cells a = t.
Definition is_error (o : out) (k : N) : Prop := o = Ok (Scalar (LErr k)).

(** [t'] is [t] mirrored at the diagonal. *)
Definition mirrored (n m : nat) (t t' : table) : Prop :=
  rect n m t /\ rect m n t' /\ forall r c, r < n -> c < m -> cell t' c r = cell t r c.

(** ** Orders *)

(** [p] lists the positions below [n] in the order [le]; positions that tie keep their order. *)
Definition stable_order (le : nat -> nat -> Prop) (n : nat) (p : list nat) : Prop :=
  Permutation p (seq 0 n) /\ StronglySorted (fun i j => le i j /\ (le j i -> i < j)) p.

(** What the standard library promises of [slice::sort_by]: a stable sort, provided
    the comparison is a total order on the elements. *)
Definition total_on {A} (cmp : A -> A -> comparison) (l : list A) : Prop :=
  (forall a b, In a l -> In b l -> cmp b a = CompOpp (cmp a b)) /\
  (forall a b c, In a l -> In b l -> In c l -> cmp a b <> Gt -> cmp b c <> Gt -> cmp a c <> Gt).
Definition at_le {A} (cmp : A -> A -> comparison) (l : list A) (i j : nat) : Prop :=
  forall a b, nth_error l i = Some a -> nth_error l j = Some b -> cmp a b <> Gt.
Definition sorts (sort_by : forall A : Type, (A -> A -> comparison) -> list A -> option (list A)) : Prop :=
  forall A cmp l, total_on cmp l ->
    exists p l', sort_by A cmp l = Some l' /\ stable_order (at_le cmp l) (length l) p /\
                 map Some l' = map (nth_error l) p.

(** Values that have one kind of key. *)
Definition one_kind (lower : text -> text) (parse : text -> option fnum) (l : list lval) : Prop :=
  clean parse l /\
  forall u v, In u l -> In v l ->
    exists a b, key_of lower u = Some a /\ key_of lower v = Some b /\ same_class a b.

(** [a] does not come after [b]. *)
Definition before (lower : text -> text) (asc : bool) (a b : lval) : Prop :=
  exists x y, key_of lower a = Some x /\ key_of lower b = Some y /\
              if asc then key_le x y else key_le y x.
(** Several criteria: the first one that does not tie decides. *)
Fixpoint lex_le (lower : text -> text) (cs : list (list lval * bool)) (i j : nat) : Prop :=
  match cs with
  | [] => True
  | (vs, asc) :: cs' =>
      let a := nth i vs LEmpty in
      let b := nth j vs LEmpty in
      before lower asc a b /\ (before lower asc b a -> lex_le lower cs' i j)
  end.

(** ** Equal rows *)
Inductive same : lval -> lval -> Prop :=
| same_num : forall a b, (a == b)%Q -> same (LNum (Fin a)) (LNum (Fin b))
| same_serial : forall a b, (a == b)%Q -> same (LSerial a) (LSerial b)
| same_other : forall v, v <> LNum NaN -> same v v.
Definition same_row (a b : list lval) : Prop := Forall2 same a b.

(** The rows of [t] at the positions that satisfy [P], in order. *)
Definition selects (P : nat -> Prop) (t t' : table) : Prop :=
  exists ps, StronglySorted lt ps /\ (forall i, In i ps <-> i < length t /\ P i) /\
             t' = map (fun i => nth i t []) ps.

(** Not equal to an earlier row; not equal to any other row. *)
Definition is_first (t : table) (i : nat) : Prop :=
  forall j, j < i -> ~ same_row (nth i t []) (nth j t []).
Definition is_only (t : table) (i : nat) : Prop :=
  forall j, j < length t -> (same_row (nth i t []) (nth j t []) <-> j = i).

(** ** Conditions *)
Inductive truthy : lval -> Prop :=
| truthy_bool : truthy (LBool true)
| truthy_num : forall q, ~ (q == 0)%Q -> truthy (LNum (Fin q))
| truthy_int : forall z, z <> 0%Z -> truthy (LInt z)
| truthy_special : forall x, (forall q, x <> Fin q) -> truthy (LNum x)
| truthy_text : forall s, s <> [] -> truthy (LText s)
| truthy_serial : forall q, truthy (LSerial q)
| truthy_other : truthy LOther.

(** ** Parts of a table *)

(** The first [k], or the last [-k], of a list. *)
Definition ends {A} (k : Z) (l : list A) : list A :=
  if (0 <=? k)%Z then firstn (Z.to_nat k) l else skipn (length l - Z.to_nat (- k)) l.
(** What is left of it. *)
Definition rest_of {A} (k : Z) (l : list A) : list A :=
  if (0 <=? k)%Z then skipn (Z.to_nat k) l else firstn (length l - Z.to_nat (- k)) l.
(** A table none of whose rows has a cell is the empty one. *)
Definition norm (t : table) : table := filter (fun row => negb (length row =? 0)) t.

(** Cells that TOCOL and TOROW leave out. *)
Definition left_out (mode : Z) (v : lval) : Prop :=
  ((mode = 1 \/ mode = 3)%Z /\ v = LEmpty) \/ ((mode = 2 \/ mode = 3)%Z /\ exists k, v = LErr k).

(** The position an index names on an axis of length [n]. *)
Definition names (n : nat) (z : Z) (i : nat) : Prop :=
  i < n /\ (z = Z.of_nat i + 1 \/ z = Z.of_nat i - Z.of_nat n)%Z.

(** ** Readings of tables and arguments used by the statements *)
(** The table mirrored at the diagonal; the rows at given positions. *)
Definition flip (n m : nat) (t : table) : table := map (fun c => map (fun r => cell t r c) (seq 0 n)) (seq 0 m).
Definition reordered (t : table) (p : list nat) : table := map (fun i => nth i t []) p.
(** The values at position [k] of the rows. *)
Definition keys_at (k : nat) (t : table) : list lval := map (fun row => nth k row LEmpty) t.
(** The row of conditions that stands for row [i]. *)
Definition cond_row (w incl : view) (i : nat) : nat := if v_rows incl =? v_rows w then i else 0.
Definition wanted (w incl : view) (i : nat) : Prop :=
  exists c, c < v_cols incl /\ truthy (get_cell incl (cond_row w incl i) c).
(** An optional count of columns. *)
Definition opt_ends (k : option lval) : list lval -> list lval := match k with None => fun l => l | Some _ => ends (int_arg 0 k) end.
Definition opt_rest (k : option lval) : list lval -> list lval := match k with None => fun l => l | Some _ => rest_of (int_arg 0 k) end.
(** The widths of all rows agree. *)
Definition level (t : table) : Prop := forall a b, In a t -> In b t -> length a = length b.
(** Row [r] of tables put side by side. *)
Definition beside (ts : list table) (r : nat) : list lval := flat_map (fun t => nth r t []) ts.
(** The cells row by row, or column by column. *)
Definition reading (by_col : bool) (t : table) : list lval :=
  if by_col then concat (flip (length t) (length (hd [] t)) t) else concat t.
(** A number used as an index that names position [i]. *)
Definition number (v : lval) : Prop := (exists z, v = LInt z) \/ (exists x, v = LNum x).
Definition picks (n : nat) (v : lval) (i : nat) : Prop := number v /\ names n (int_arg 0 (Some v)) i.
(** A view with no cell. *)
Definition is_empty (w : view) : bool := (v_rows w =? 0) || (v_cols w =? 0).

(** The by-arrays and orders of SORTBY on a table of [n] rows. *)
Definition vector (n : nat) (a : calc) (vs : list lval) : Prop :=
  length vs = n /\ (cells a = map (fun v => [v]) vs \/ cells a = [vs]).
Inductive direction : lval -> bool -> Prop :=
| dir_int : forall i, direction (LInt i) (0 <=? i)%Z
| dir_num : forall q, direction (LNum (Fin q)) (Qle_bool 0 q).
Definition starts_with_number (args : list calc) : Prop := exists v rest, args = Scalar v :: rest /\ number v.
Inductive reads (n : nat) : list calc -> list (list lval * bool) -> Prop :=
| reads_end : reads n [] []
| reads_ascending : forall a vs rest cs, vector n a vs -> ~ starts_with_number rest -> reads n rest cs ->
    reads n (a :: rest) ((vs, true) :: cs)
| reads_order : forall a vs o asc rest cs, vector n a vs -> direction o asc -> reads n rest cs ->
    reads n (a :: Scalar o :: rest) ((vs, asc) :: cs).

(** [p] puts the rows of [t] in the order of their cells in column [k]. *)
Definition sorted_by (lower : text -> text) (asc : bool) (t : table) (k : nat) (p : list nat) : Prop :=
  stable_order (fun i j => before lower asc (cell t i k) (cell t j k)) (length t) p.
