(** Logical functions: crates/formualizer-eval/src/builtins/logical.rs (205-261 AND, 330-388
    OR, 464-497 IF), builtins/logical_ext.rs (70-98 NOT, 158-244 XOR, 320-336 IFERROR,
    409-427 IFNA, 495-530 IFS, 615-652 SWITCH, 654-665
    switch_values_equal), builtins/lookup/choose.rs (118-158 CHOOSE), src/function.rs 193-241
    (dispatch), src/traits.rs 157-187 (into_literal, as_scalar), 372-464 (value), 793-816
    (range_view), 880-1010 (lazy_values_owned).

    Values are those of EvModel.v.  f64 is a type with a test for zero, the test
    |x - y| < 1e-12, the conversion from i64 and the cast to i64.  An argument handle is a
    cell, a range, an array literal of literals, or another expression with its outcome: a
    value, or an error that stopped its evaluation ([Err]).  Each function answers with the
    arguments it looks at, in order, and its outcome.  Omitted: formats, messages,
    left-out arguments (they are the number 0), the checks of the number of arguments that
    dispatch makes for NOT and XOR. *)
From Coq Require Import List Bool NArith ZArith Arith.
From Verif Require Import Base Maps LookupModel EvModel.
Import ListNotations.

Definition K_NA : N := 5%N.

Section Logical.
Variable T : Type.
Variable is_zero : T -> bool.
Variable close : T -> T -> bool.
Variable of_int : Z -> T.
Variable trunc : T -> Z.

Inductive handle :=
| HCell (s : res N (scalar T))          (* one cell *)
| HRange (r : res N (range T))          (* a range *)
| HArray (g : grid T)                   (* an array literal *)
| HExpr (v : res N (seen T)).           (* any other expression *)

Definition outcome := res N (seen T).
Definition sc (s : scalar T) : seen T := SeenPlain (PScalar (VS s)).
(** [ArgumentHandle::value] *)
Definition value_of (h : handle) : outcome :=
  match h with
  | HCell s => rbind s (fun s => Ok (sc s))
  | HRange r => rbind r (fun r => Ok (SeenPlain (PRange r)))
  | HArray g => Ok (SeenPlain (PRange (mkRange true 0 0 g)))
  | HExpr v => v
  end.
(** [CalcValue::into_literal] *)
Definition literal (v : seen T) : value T :=
  match v with
  | SeenPlain (PScalar v) => v
  | SeenPlain (PRange r) => match g_cells r with [[s]] => VS s | g => VA g end
  | SeenCall => VS (SErr K_CALC)
  end.
Definition literal_of (h : handle) : res N (value T) := rbind (value_of h) (fun v => Ok (literal v)).
(** [lazy_values_owned] *)
Definition values_of (h : handle) : res N (list (value T)) :=
  match h with
  | HCell s => rbind s (fun s => Ok [VS s])
  | HRange r => rbind r (fun r => Ok (map VS (concat (g_cells r))))
  | HArray g => Ok (map VS (concat g))
  | HExpr v => rbind v (fun v => Ok [literal v])
  end.
(** [range_view] *)
Definition view_of (h : handle) : option (list (scalar T)) :=
  match h with
  | HCell (Ok s) => Some [s]
  | HRange (Ok r) => Some (concat (g_cells r))
  | HArray g => Some (concat g)
  | HExpr (Ok (SeenPlain (PRange r))) => Some (concat (g_cells r))
  | HExpr (Ok (SeenPlain (PScalar (VA g)))) => Some (concat g)
  | _ => None
  end.

(** The cases every one of the functions tells apart. *)
Inductive truth := TBool (b : bool) | TBlank | TError (e : N) | TNone.
Definition truth_of (v : value T) : truth :=
  match v with
  | VS (SBool b) => TBool b
  | VS (SNum x) => TBool (negb (is_zero x))
  | VS (SInt z) => TBool (negb (z =? 0)%Z)
  | VS SEmpty => TBlank
  | VS (SErr e) => TError e
  | _ => TNone
  end.

Definition answer := (list nat * outcome)%type.
Definition says (t : list nat) (s : scalar T) : answer := (t, Ok (sc s)).
Definition keep (first : option N) (e : N) : option N := match first with Some f => Some f | None => Some e end.

(** ** AND and OR: [None] is a decision. *)
Fixpoint and_scan (first : option N) (vs : list (value T)) : option (option N) :=
  match vs with
  | [] => Some first
  | v :: vs =>
      match truth_of v with
      | TError e => and_scan (keep first e) vs
      | TBlank => None
      | TBool b => if b then and_scan first vs else None
      | TNone => and_scan (keep first K_VALUE) vs
      end
  end.
Fixpoint or_scan (first : option N) (vs : list (value T)) : option (option N) :=
  match vs with
  | [] => Some first
  | v :: vs =>
      match truth_of v with
      | TError e => or_scan (keep first e) vs
      | TBlank => or_scan first vs
      | TBool b => if b then None else or_scan first vs
      | TNone => or_scan (keep first K_VALUE) vs
      end
  end.
Fixpoint junction (scan : option N -> list (value T) -> option (option N)) (decided : bool)
                  (i : nat) (first : option N) (hs : list handle) : answer :=
  match hs with
  | [] => says [] (match first with Some e => SErr e | None => SBool (negb decided) end)
  | h :: hs =>
      match values_of h with
      | Ok vs =>
          match scan first vs with
          | None => says [i] (SBool decided)
          | Some first => let '(t, r) := junction scan decided (S i) first hs in (i :: t, r)
          end
      | Err e => ([i], Err e)
      | Panic => ([i], Panic)
      end
  end.
Definition and_fn (hs : list handle) : answer :=
  match hs with [] => says [] (SErr K_VALUE) | _ => junction and_scan false 0 None hs end.
Definition or_fn (hs : list handle) : answer :=
  match hs with [] => says [] (SErr K_VALUE) | _ => junction or_scan true 0 None hs end.

(** ** NOT *)
Definition not_fn (hs : list handle) : answer :=
  match hs with
  | [h] => match literal_of h with
           | Ok v => says [0] (match truth_of v with
                               | TBool b => SBool (negb b)
                               | TBlank => SBool true
                               | TError e => SErr e
                               | TNone => SErr K_VALUE
                               end)
           | Err e => ([0], Err e)
           | Panic => ([0], Panic)
           end
  | _ => says [] (SErr K_VALUE)
  end.

(** ** XOR: in a range the error kept is the last one. *)
Definition xor_cell (first : option N) (acc : nat * option N) (s : scalar T) : nat * option N :=
  let '(n, err) := acc in
  match truth_of (VS s) with
  | TBool b => (if b then S n else n, err)
  | TBlank => (n, err)
  | TError e => (n, match first with None => Some e | Some _ => err end)
  | TNone => (n, match first with None => Some K_VALUE | Some _ => err end)
  end.
Definition xor_one (n : nat) (first : option N) (v : value T) : nat * option N :=
  match truth_of v with
  | TBool b => (if b then S n else n, first)
  | TBlank => (n, first)
  | TError e => (n, keep first e)
  | TNone => (n, keep first K_VALUE)
  end.
Fixpoint xor_loop (i n : nat) (first : option N) (hs : list handle) : answer :=
  match hs with
  | [] => says [] (match first with Some e => SErr e | None => SBool (Nat.odd n) end)
  | h :: hs =>
      match view_of h with
      | Some cells =>
          let '(n, err) := fold_left (xor_cell first) cells (n, None) in
          let first := match first with Some f => Some f | None => err end in
          let '(t, r) := xor_loop (S i) n first hs in (i :: t, r)
      | None =>
          match literal_of h with
          | Ok v => let '(n, first) := xor_one n first v in
                    let '(t, r) := xor_loop (S i) n first hs in (i :: t, r)
          | Err e => ([i], Err e)
          | Panic => ([i], Panic)
          end
      end
  end.
Definition xor_fn (hs : list handle) : answer :=
  match hs with [] => says [] (SErr K_VALUE) | _ => xor_loop 0 0 None hs end.

(** ** IF *)
Definition if_fn (hs : list handle) : answer :=
  match hs with
  | c :: a :: rest =>
      if (1 <? length rest)%nat then says [] (SErr K_VALUE)
      else match literal_of c with
           | Err e => ([0], Err e)
           | Panic => ([0], Panic)
           | Ok v =>
               let no := match rest with
                         | b :: _ => ([0; 2], value_of b)
                         | [] => says [0] (SBool false)
                         end in
               match truth_of v with
               | TBool true => ([0; 1], value_of a)
               | TBool false | TBlank => no
               | TError _ | TNone => says [0] (SErr K_VALUE)
               end
           end
  | _ => says [] (SErr K_VALUE)
  end.

(** ** IFERROR and IFNA *)
Definition scalar_error (v : seen T) : option N :=
  match v with SeenPlain (PScalar (VS (SErr e))) => Some e | _ => None end.
Definition iferror_fn (hs : list handle) : answer :=
  match hs with
  | [a; b] => match value_of a with
              | Ok v => match scalar_error v with Some _ => ([0; 1], value_of b) | None => ([0], Ok v) end
              | Err _ => ([0; 1], value_of b)
              | Panic => ([0], Panic)
              end
  | _ => says [] (SErr K_VALUE)
  end.
Definition ifna_fn (hs : list handle) : answer :=
  match hs with
  | [a; b] => match value_of a with
              | Ok v => match scalar_error v with
                        | Some e => if (e =? K_NA)%N then ([0; 1], value_of b) else ([0], Ok v)
                        | None => ([0], Ok v)
                        end
              | Err e => ([0], Err e)
              | Panic => ([0], Panic)
              end
  | _ => says [] (SErr K_VALUE)
  end.

(** ** IFS *)
Fixpoint ifs_loop (i : nat) (hs : list handle) : answer :=
  match hs with
  | c :: a :: rest =>
      match literal_of c with
      | Err e => ([i], Err e)
      | Panic => ([i], Panic)
      | Ok v =>
          match truth_of v with
          | TBool true => ([i; S i], value_of a)
          | TBool false | TBlank => let '(t, r) := ifs_loop (S (S i)) rest in (i :: t, r)
          | TError e => says [i] (SErr e)
          | TNone => says [i] (SErr K_VALUE)
          end
      end
  | _ => says [] (SErr K_NA)
  end.
Definition ifs_fn (hs : list handle) : answer :=
  if (length hs <? 2)%nat || negb (Nat.even (length hs)) then says [] (SErr K_VALUE) else ifs_loop 0 hs.

(** ** SWITCH *)
Definition switch_equal (a b : value T) : bool :=
  match a, b with
  | VS (SNum x), VS (SNum y) => close x y
  | VS (SInt x), VS (SInt y) => (x =? y)%Z
  | VS (SNum x), VS (SInt y) => close x (of_int y)
  | VS (SInt x), VS (SNum y) => close (of_int x) y
  | VS (SBool x), VS (SBool y) => Bool.eqb x y
  | VS (SText x), VS (SText y) => text_eqb (norm x) (norm y)
  | VS SEmpty, VS SEmpty => true
  | _, _ => false
  end.
Fixpoint switch_loop (e : value T) (i : nat) (hs : list handle) : answer :=
  match hs with
  | c :: a :: rest =>
      match literal_of c with
      | Err k => ([i], Err k)
      | Panic => ([i], Panic)
      | Ok v => if switch_equal e v then ([i; S i], value_of a)
                else let '(t, r) := switch_loop e (S (S i)) rest in (i :: t, r)
      end
  | [d] => ([i], value_of d)
  | [] => says [] (SErr K_NA)
  end.
Definition switch_fn (hs : list handle) : answer :=
  match hs with
  | e :: ((_ :: _ :: _) as rest) =>
      match literal_of e with
      | Err k => ([0], Err k)
      | Panic => ([0], Panic)
      | Ok (VS (SErr k)) => says [0] (SErr k)
      | Ok v => let '(t, r) := switch_loop v 1 rest in (0 :: t, r)
      end
  | _ => says [] (SErr K_VALUE)
  end.

(** ** CHOOSE *)
Definition choose_fn (hs : list handle) : answer :=
  match hs with
  | h :: ((_ :: _) as rest) =>
      match literal_of h with
      | Err k => ([0], Err k)
      | Panic => ([0], Panic)
      | Ok (VS (SErr k)) => says [0] (SErr k)
      | Ok v =>
          match (match v with VS (SNum x) => Some (trunc x) | VS (SInt z) => Some z | _ => None end) with
          | None => says [0] (SErr K_VALUE)
          | Some z =>
              if ((z <? 1) || (Z.of_nat (length rest) <? z))%Z then says [0] (SErr K_VALUE)
              else match nth_error hs (Z.to_nat z) with
                   | Some a => ([0; Z.to_nat z], value_of a)
                   | None => ([0], Panic)
                   end
          end
      end
  | _ => says [] (SErr K_VALUE)
  end.
End Logical.
