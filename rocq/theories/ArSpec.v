(** Which values and formulas the arenas are meant to give back as they were, and how much
    room they take. *)
From Coq Require Import List Bool NArith ZArith.
From Verif Require Import Base Maps LexModel RtModel InternModel SheetModel ArModel.
Import ListNotations.
Open Scope N_scope.

Definition total {A} (f : A -> N) (l : list A) : N := fold_right (fun x n => f x + n) 0 l.
Definition count {A} (l : list A) : N := N.of_nat (length l).
(** All rows have [c] entries. *)
Definition rectangle {A} (rows : list (list A)) (c : N) : Prop := Forall (fun r => count r = c) rows.
Definition deepest {A} (f : A -> nat) (l : list A) : nat := fold_right (fun x n => Nat.max (f x) n) 0%nat l.

(** Entries a value may take up. *)
Fixpoint vsize (v : val) : N :=
  match v with
  | VArr rows => 1 + total (total (fun x => 1 + vsize x)) rows
  | _ => 2
  end.
Fixpoint vdepth (v : val) : nat :=
  match v with
  | VArr rows => S (deepest (deepest vdepth) rows)
  | _ => 0
  end.

Section Spec.
  Variables (serial_of : Z -> N) (serial_to : N -> Z).
  (** Integers of 28 bits, errors without further data, durations of whole seconds, date-times
      that their serial tells, and full arrays of these. *)
  Inductive kept : val -> Prop :=
  | k_int z : (- 2 ^ 27 <= z < 2 ^ 27)%Z -> kept (VInt z)
  | k_num f : kept (VNum f)
  | k_text t : kept (VText t)
  | k_bool b : kept (VBool b)
  | k_err k m : kept (VErr k m 0)
  | k_arr rows c : rectangle rows c -> c <> 0 -> Forall (Forall kept) rows -> kept (VArr rows)
  | k_datetime ns : serial_to (serial_of ns) = ns -> kept (VDateTime ns)
  | k_dur secs : kept (VDur (secs * 1000000000))
  | k_empty : kept VEmpty
  | k_pending : kept VPending.

  (** Ranges as the parser writes them: no row or column 0, none of the greatest number. *)
  Definition lo_ok (b : bound) : Prop := match b with Some (v, _) => v <> 0 | None => True end.
  Definition hi_ok (b : bound) : Prop := match b with Some (v, _) => v <> 2 ^ 32 - 1 | None => True end.
  Definition box_ok (b : box) : Prop := lo_ok (b_sr b) /\ lo_ok (b_sc b) /\ hi_ok (b_er b) /\ hi_ok (b_ec b).
  Definition ref_kept (r : reft) : Prop :=
    match r with
    | RRange _ b | RRange3 _ _ b => box_ok b
    | _ => True
    end.
  (** Formulas without postfix calls, with full arrays of fewer than 65536 entries and with
      fewer than 65536 arguments. *)
  Inductive tree_kept : tree -> Prop :=
  | t_lit v : kept v -> tree_kept (TLit v)
  | t_omit : tree_kept TOmit
  | t_ref o r : ref_kept r -> tree_kept (TRef o r)
  | t_un op e : tree_kept e -> tree_kept (TUn op e)
  | t_bin op l r : tree_kept l -> tree_kept r -> tree_kept (TBin op l r)
  | t_fn n args : count args < 65536 -> Forall tree_kept args -> tree_kept (TFn n args)
  | t_arr rows c : rectangle rows c -> count rows < 65536 -> c < 65536 -> count rows * c < 65536 ->
      Forall (Forall tree_kept) rows -> tree_kept (TArr rows).
End Spec.

Fixpoint tsize (t : tree) : N :=
  match t with
  | TLit v => 1 + vsize v
  | TOmit => 1
  | TRef _ _ => 6
  | TUn _ e => 2 + tsize e
  | TBin _ l r => 2 + tsize l + tsize r
  | TFn _ args => 2 + total (fun x => 1 + tsize x) args
  | TCall _ _ => 3
  | TArr rows => 1 + total (total (fun x => 1 + tsize x)) rows
  end.
Fixpoint tdepth (t : tree) : nat :=
  match t with
  | TLit v => S (vdepth v)
  | TOmit | TRef _ _ | TCall _ _ => 1
  | TUn _ e => S (tdepth e)
  | TBin _ l r => S (Nat.max (tdepth l) (tdepth r))
  | TFn _ args => S (deepest tdepth args)
  | TArr rows => S (deepest (deepest tdepth) rows)
  end%nat.

(** The same formula with its sheets renamed. *)
Definition on_ref (f : text -> text) (r : reft) : reft :=
  match r with
  | RCell (Some s) row col ra ca => RCell (Some (f s)) row col ra ca
  | RRange (Some s) b => RRange (Some (f s)) b
  | _ => r
  end.
Fixpoint on_sheets (f : text -> text) (t : tree) : tree :=
  match t with
  | TRef o r => TRef o (on_ref f r)
  | TUn op e => TUn op (on_sheets f e)
  | TBin op l r => TBin op (on_sheets f l) (on_sheets f r)
  | TFn n args => TFn n (map (on_sheets f) args)
  | TCall e args => TCall (on_sheets f e) (map (on_sheets f) args)
  | TArr rows => TArr (map (map (on_sheets f)) rows)
  | _ => t
  end.

(** Entries in use. *)
Definition used (s : store) : N :=
  count (floats (scal s)) + count (ints (scal s)) + count (strings (strs s)) +
  count (dims (arrs s)) + count (elems (arrs s)) +
  count (errs (ers s)) + count (strings (estrs (ers s))) +
  count (nodes (tree_arena s)) + count (fargs (tree_arena s)) + count (aelems (tree_arena s)) +
  count (strings (astrs (tree_arena s))) + count (specs (tree_arena s)).

(** The name a sheet comes back with: what the registry now calls the sheet that the name
    meant when the formula was stored. *)
Definition renamed (lower : text -> text) (g g' : registry) (n : text) : text :=
  match get_id lower g n with Some id => sheet_name g' id | None => n end.

(** Formulas without calls, arrays and decimal or date literals. *)
Definition plain (v : val) : Prop :=
  match v with VInt _ | VText _ | VBool _ | VErr _ _ _ | VEmpty | VPending => True | _ => False end.
Fixpoint shareable (t : tree) : Prop :=
  match t with
  | TLit v => plain v
  | TOmit | TRef _ _ => True
  | TUn _ e => shareable e
  | TBin _ l r => shareable l /\ shareable r
  | TFn _ _ | TCall _ _ | TArr _ => False
  end.
(** No two different nodes or table specifiers in the store have the same hash. *)
Definition distinct_hashes {A} (h : A -> N) (l : list A) : Prop := forall x y, In x l -> In y l -> h x = h y -> x = y.
Definition no_clash (hash_node : anode -> N) (hash_spec : tspec -> N) (s : store) : Prop :=
  distinct_hashes hash_node (nodes (tree_arena s)) /\ distinct_hashes hash_spec (specs (tree_arena s)).
