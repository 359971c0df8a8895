(** What logical functions should say, in terms of lists of values. *)
From Coq Require Import List Bool NArith ZArith Arith.
From Verif Require Import Base EvModel LgModel.
Import ListNotations.

Section Spec.
Variable T : Type.
Variable is_zero : T -> bool.

(** Values that count as true and as false, and the error a value stands for. *)
Definition yes (v : value T) : bool :=
  match v with VS (SBool b) => b | VS (SNum x) => negb (is_zero x) | VS (SInt z) => negb (z =? 0)%Z | _ => false end.
Definition no (v : value T) : bool :=
  match v with VS (SBool b) => negb b | VS (SNum x) => is_zero x | VS (SInt z) => (z =? 0)%Z | _ => false end.
Definition blank (v : value T) : bool := match v with VS SEmpty => true | _ => false end.
Definition fault (v : value T) : option N :=
  match v with
  | VS (SErr e) => Some e
  | VS (SText _) | VS (SDate _ _) | VS SOther | VA _ => Some K_VALUE
  | _ => None
  end.
Fixpoint first_some {A} (l : list (option A)) : option A :=
  match l with [] => None | Some a :: _ => Some a | None :: l => first_some l end.
Definition first_fault (vs : list (value T)) : option N := first_some (map fault vs).
Definition last_fault (vs : list (value T)) : option N := first_some (rev (map fault vs)).
Definition or_else (o : option N) (b : bool) : scalar T := match o with Some e => SErr e | None => SBool b end.

Definition and_of (vs : list (value T)) : scalar T :=
  if existsb (fun v => no v || blank v) vs then SBool false else or_else (first_fault vs) true.
Definition or_of (vs : list (value T)) : scalar T :=
  if existsb yes vs then SBool true else or_else (first_fault vs) false.
Definition count (vs : list (value T)) : nat := length (filter yes vs).
Definition xor_of (vs : list (value T)) : scalar T := or_else (first_fault vs) (Nat.odd (count vs)).

(** What a cell shows of an outcome. *)
Definition shown (o : outcome T) : option (value T) :=
  match o with Ok v => Some (literal T v) | Err e => Some (VS (SErr e)) | Panic => None end.

(** The result of a function as an argument of another one. *)
Definition nest (a : answer T) : handle T := HExpr T (snd a).
(** A cell, or an expression that is not a reference. *)
Definition lone (h : handle T) : Prop := match h with HCell _ _ | HExpr _ _ => True | _ => False end.
(** An argument with one value, or none because its evaluation failed. *)
Definition single (h : handle T) : Prop :=
  match h with
  | HCell _ _ | HExpr _ (Err _) | HExpr _ Panic | HExpr _ (Ok SeenCall) | HExpr _ (Ok (SeenPlain (PScalar (VS _)))) => True
  | _ => False
  end.
(** The values XOR counts. *)
Definition all_values (h : handle T) : res N (list (value T)) :=
  match h with
  | HCell _ s => rbind s (fun s => Ok [VS s])
  | HRange _ r => rbind r (fun r => Ok (map VS (concat (g_cells r))))
  | HArray _ g => Ok (map VS (concat g))
  | HExpr _ v => rbind v (fun v => match v with
                                   | SeenPlain (PRange r) => Ok (map VS (concat (g_cells r)))
                                   | SeenPlain (PScalar (VA g)) => Ok (map VS (concat g))
                                   | SeenPlain (PScalar (VS s)) => Ok [VS s]
                                   | SeenCall => Ok [VS (SErr K_CALC)]
                                   end)
  end.
End Spec.
