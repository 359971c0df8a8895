(** Convergence test of iterative calculation.
    Models crates/formualizer-eval/src/engine/convergence.rs:29-158.
    f64 numbers are IEEE binary64 values of Coq's [SpecFloat] (precision 53,
    emax 1024); a NaN carries its bit pattern, which the code compares. *)
From Coq Require Import SpecFloat.
From Verif Require Import Base Maps.

Inductive f64 :=
| FNum (x : spec_float)          (* never S754_nan *)
| FNan (bits : N).

(** LiteralValue.  [CSerial] stands for Date, DateTime, Time and Duration, with
    the serial that numeric_serial computes for them (convergence.rs:61-64; the
    conversions themselves are in DateModel.v). *)
Inductive cvalue :=
| CNum (x : f64)
| CInt (i : Z)
| CSerial (x : spec_float)
| CBool (b : bool)
| CText (t : text)
| CErr (kind : N)
| CEmpty
| CPending
| CArray (rows : list (list cvalue)).

(** `i as f64`. *)
Definition int_to_f64 (i : Z) : spec_float := binary_normalize 53 1024 i 0 false.

(** convergence.rs:57-67 *)
Definition numeric_serial (v : cvalue) : option f64 :=
  match v with
  | CNum x => Some x
  | CInt i => Some (FNum (int_to_f64 i))
  | CSerial x => Some (FNum x)
  | _ => None
  end.

(** ConvergenceOutcome, convergence.rs:28-36 *)
Record outcome := Outcome {
  converged : bool;
  abs_delta : option spec_float;
  nan_converged : bool
}.
Definition out_yes := Outcome true None false.
Definition out_no := Outcome false None false.

(** `(b - a).abs()` *)
Definition fdelta (a b : spec_float) : spec_float := SFabs (SFsub 53 1024 b a).

(** f64::max: a NaN operand is ignored. *)
Definition fmax (x y : spec_float) : spec_float :=
  match SFcompare x y with
  | Some Lt => y
  | Some _ => x
  | None => match x with S754_nan => y | _ => x end
  end.

(** convergence.rs:78-103 *)
Definition numbers_converged (a b : f64) (max_change : spec_float) : outcome :=
  match a, b with
  | FNan x, FNan y => if N.eqb x y then Outcome true None true else out_no
  | FNan _, FNum _ | FNum _, FNan _ => out_no
  | FNum x, FNum y => Outcome (SFltb (fdelta x y) max_change) (Some (fdelta x y)) false
  end.

(** convergence.rs:138-147: folding one element's outcome into the array's *)
Definition out_merge (out e : outcome) : outcome :=
  Outcome (converged out)
    (match abs_delta out, abs_delta e with
     | Some x, Some y => Some (fmax x y)
     | Some x, None => Some x
     | None, y => y
     end)
    (nan_converged out || nan_converged e).

(** convergence.rs:131 *)
Fixpoint same_shape {A} (a b : list (list A)) : bool :=
  match a, b with
  | [], [] => true
  | ra :: a', rb :: b' => Nat.eqb (length ra) (length rb) && same_shape a' b'
  | _, _ => false
  end.

(** convergence.rs:71-158.  The two loops over rows and cells are the inner
    fixpoints; an element that does not converge returns early. *)
Fixpoint values_converged (max_change : spec_float) (prev cur : cvalue) {struct prev} : outcome :=
  match numeric_serial prev, numeric_serial cur with
  | Some a, Some b => numbers_converged a b max_change
  | _, _ =>
    match prev, cur with
    | CBool a, CBool b => if Bool.eqb a b then out_yes else out_no
    | CText a, CText b => if text_eqb a b then out_yes else out_no
    | CErr a, CErr b => if N.eqb a b then out_yes else out_no
    | CEmpty, CEmpty => out_yes
    | CArray a, CArray b =>
      if same_shape a b then
        let cells := fix cells (ra rb : list cvalue) (out : outcome) : outcome + outcome :=
          match ra, rb with
          | ea :: ra', eb :: rb' =>
            let e := values_converged max_change ea eb in
            if converged e then cells ra' rb' (out_merge out e) else inr out_no
          | _, _ => inl out
          end in
        let rows := fix rows (a b : list (list cvalue)) (out : outcome) : outcome :=
          match a, b with
          | ra :: a', rb :: b' =>
            match cells ra rb out with
            | inl out' => rows a' b' out'
            | inr o => o
            end
          | _, _ => out
          end in
        rows a b out_yes
      else out_no
    | _, _ => out_no
    end
  end.
