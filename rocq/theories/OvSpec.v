(* What an overlay means: a partial map from row offsets to values, in which
   every write replaces what it covers.  Nothing here looks at points,
   fragments or lanes. *)
From Coq Require Import List Bool NArith ZArith.
From Verif Require Import Base Maps OvModel.
Import ListNotations.
Open Scope N_scope.

Definition omap := N -> option ov.
Definition om_empty : omap := fun _ => None.

(* the last pair with key [k] *)
Fixpoint last_of (k : N) (items : list (N * ov)) : option ov :=
  match items with
  | [] => None
  | (j, v) :: r => match last_of k r with Some w => Some w | None => if k =? j then Some v else None end
  end.
(* [vs] written from [start] on *)
Definition om_block (start : N) (vs : list ov) : omap :=
  fun off => if off <? start then None else nth_error vs (N.to_nat (off - start)).
Definition om_over (top m : omap) : omap :=
  fun off => match top off with Some v => Some v | None => m off end.

(* What a run-length fragment keeps of a list: a value that compares equal to
   the one kept before it is read as that one. *)
Fixpoint settle_from (cur : ov) (vs : list ov) : list ov :=
  match vs with
  | [] => []
  | v :: r => if ov_eqb v cur then cur :: settle_from cur r else v :: settle_from v r
  end.
Definition settle (vs : list ov) : list ov :=
  match vs with [] => [] | v :: r => v :: settle_from v r end.

Definition om_step (m : omap) (p : oop) : omap :=
  match p with
  | OSet off v => fun k => if k =? off then Some v else m k
  | ORemove off => fun k => if k =? off then None else m k
  | OSparse items => om_over (fun k => last_of k items) m
  | ODense start vs => om_over (om_block start vs) m
  | ORun start vs => om_over (om_block start (settle vs)) m
  | ORemoveRange a b => fun k => if (a <=? k) && (k <? b) then None else m k
  | OClear => om_empty
  | OSlice off len => fun k => if k <? len then m (off + k) else None
  | OFormat _ _ => m
  end.
Definition om_run (h : list oop) : omap := fold_left om_step h om_empty.

(* Formats are a second map; only setting a format and slicing change it, and
   the General format (0) counts as none. *)
Definition fm_step (m : N -> option N) (p : oop) : N -> option N :=
  match p with
  | OFormat off (Some id) => fun k => if k =? off then (if id =? 0 then None else Some id) else m k
  | OFormat off None => fun k => if k =? off then None else m k
  | OSlice off len => fun k => if k <? len then m (off + k) else None
  | _ => m
  end.
Definition fm_run (h : list oop) : N -> option N := fold_left fm_step h (fun _ => None).

(* The offsets are rows of a sheet, whose number of rows is a u32. *)
Definition MAX_OFF : N := U32_MAX.
Definition op_ok (p : oop) : Prop :=
  match p with
  | OSparse items => forall k v, In (k, v) items -> k < MAX_OFF
  | ODense start vs | ORun start vs => start + lenN vs <= MAX_OFF
  | OSlice off len => off + len < USIZE_MAX
  | _ => True
  end.

(* Equal up to the sign of a zero. *)
Definition same_f64 (a b : N) : Prop := a = b \/ (f64_is_zero a = true /\ f64_is_zero b = true).
Definition same_ov (a b : ov) : Prop :=
  match a, b with
  | OvNumber x, OvNumber y | OvDateTime x, OvDateTime y | OvDuration x, OvDuration y => same_f64 x y
  | _, _ => a = b
  end.

(* Every u32 of the fragment is below u32::MAX. *)
Definition fits_u32 (f : frag) : Prop :=
  match f with
  | Sparse offs _ => forall o, In o offs -> o < U32_MAX
  | Dense s l _ => s + l <= U32_MAX
  | Run s l ends _ => s + l <= U32_MAX /\ forall e, In e ends -> e <= l
  end.
