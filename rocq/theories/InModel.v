(** Functions that ask about a value: crates/formualizer-eval/src/builtins/info.rs (82-120
    ISNUMBER, 164-193 ISTEXT, 237-266 ISLOGICAL, 310-339 ISBLANK, 383-412 ISERROR, 456-489
    ISERR, 533-563 ISNA, 1045-1086 TYPE, 1130-1147 NA, 1192-1252 N, 1296-1329 T, 1375-1422
    ISEVEN, 1468-1514 ISODD, 1571-1632 ERROR.TYPE, 1689-1718 ISNONTEXT), src/function.rs
    193-241 (dispatch), src/args.rs 181-358 (validate_and_prepare: for the schema of these
    functions it refuses too few arguments and nothing else).

    Values and argument handles are those of EvModel.v and LgModel.v.  A date, date with
    time, time or duration is [SDate]; [SOther] is Pending.  f64 is a type with the
    conversion from i64 and [trunc() as i64].  The outcome is a scalar, or the error that
    stopped the evaluation of the argument.  Every date has a serial number, so the branch
    of N for dates without one is left out.  Omitted: ISREF, ISFORMULA, FORMULATEXT, SHEET
    and SHEETS, which ask the workbook. *)
From Coq Require Import List Bool NArith ZArith.
From Verif Require Import Base Maps LookupModel EvModel LgModel.
Import ListNotations.

Section Info.
Variable T : Type.
Variable of_int : Z -> T.
Variable trunc : T -> Z.

(** The frame all of them share: one argument, its literal, an answer. *)
Definition ask (f : value T -> scalar T) (hs : list (handle T)) : res N (scalar T) :=
  match hs with
  | [h] => rbind (literal_of T h) (fun v => Ok (f v))
  | _ => Ok (SErr K_VALUE)
  end.

(** 106-114 *)
Definition number_value (v : value T) : bool :=
  match v with VS (SInt _) | VS (SNum _) | VS (SDate _ _) => true | _ => false end.
(** 189-191 *)
Definition text_value (v : value T) : bool := match v with VS (SText _) => true | _ => false end.
(** 262-264 *)
Definition logical_value (v : value T) : bool := match v with VS (SBool _) => true | _ => false end.
(** 335-337 *)
Definition blank_value (v : value T) : bool := match v with VS SEmpty => true | _ => false end.
(** 408-410 *)
Definition error_value (v : value T) : bool := match v with VS (SErr _) => true | _ => false end.
(** 480-483 *)
Definition err_value (v : value T) : bool := match v with VS (SErr e) => negb (e =? K_NA)%N | _ => false end.
(** 558 *)
Definition na_value (v : value T) : bool := match v with VS (SErr e) => (e =? K_NA)%N | _ => false end.

Definition isnumber_fn := ask (fun v => SBool (number_value v)).
Definition istext_fn := ask (fun v => SBool (text_value v)).
Definition isnontext_fn := ask (fun v => SBool (negb (text_value v))).
Definition islogical_fn := ask (fun v => SBool (logical_value v)).
Definition isblank_fn := ask (fun v => SBool (blank_value v)).
Definition iserror_fn := ask (fun v => SBool (error_value v)).
Definition iserr_fn := ask (fun v => SBool (err_value v)).
Definition isna_fn := ask (fun v => SBool (na_value v)).

(** 1066-1084 *)
Definition type_answer (v : value T) : scalar T :=
  match v with
  | VS (SErr e) => SErr e
  | VS (SInt _) | VS (SNum _) | VS SEmpty | VS (SDate _ _) => SInt 1
  | VS (SText _) => SInt 2
  | VS (SBool _) => SInt 4
  | VA _ => SInt 64
  | VS SOther => SInt 1
  end.
Definition type_fn := ask type_answer.

(** 1130-1147: the arguments are not looked at. *)
Definition na_fn (hs : list (handle T)) : res N (scalar T) := Ok (SErr K_NA).

(** 1216-1250 *)
Definition n_answer (v : value T) : scalar T :=
  match v with
  | VS (SInt i) => SInt i
  | VS (SNum x) => SNum x
  | VS (SDate _ serial) => SNum serial
  | VS (SBool b) => SInt (if b then 1 else 0)
  | VS (SText _) => SInt 0
  | VS SEmpty => SInt 0
  | VA _ => SInt 0
  | VS (SErr e) => SErr e
  | VS SOther => SInt 0
  end.
Definition n_fn := ask n_answer.

(** 1320-1327 *)
Definition t_answer (v : value T) : scalar T :=
  match v with VS (SText s) => SText s | VS (SErr e) => SErr e | _ => SText [] end.
Definition t_fn := ask t_answer.

(** 1396-1415 and 1489-1508 *)
Definition parity_of (v : value T) : N + T :=
  match v with
  | VS (SErr e) => inl e
  | VS (SInt i) => inr (of_int i)
  | VS (SNum x) => inr x
  | VS (SBool b) => inr (of_int (if b then 1 else 0))
  | _ => inl K_VALUE
  end.
Definition even_answer (v : value T) : scalar T :=
  match parity_of v with inl e => SErr e | inr x => SBool (Z.rem (trunc x) 2 =? 0)%Z end.
Definition odd_answer (v : value T) : scalar T :=
  match parity_of v with inl e => SErr e | inr x => SBool (negb (Z.rem (trunc x) 2 =? 0)%Z) end.
Definition iseven_fn := ask even_answer.
Definition isodd_fn := ask odd_answer.

(** 1571-1588; the kinds are numbered in the order of [ExcelErrorKind]. *)
Definition error_type_code (kind : N) : Z :=
  match kind with
  | 0%N => 1      (* Null *)
  | 4%N => 2      (* Div *)
  | 3%N => 3      (* Value *)
  | 1%N => 4      (* Ref *)
  | 2%N => 5      (* Name *)
  | 6%N => 6      (* Num *)
  | 5%N => 7      (* Na *)
  | 7%N => 8      (* Error *)
  | 8%N => 9      (* NImpl *)
  | 9%N => 10     (* Spill *)
  | 10%N => 11    (* Calc *)
  | 11%N => 12    (* Circ *)
  | 12%N => 13    (* Cancelled *)
  | _ => 8
  end%Z.
(** 1622-1630 *)
Definition error_type_answer (v : value T) : scalar T :=
  match v with VS (SErr e) => SInt (error_type_code e) | _ => SErr K_NA end.
Definition error_type_fn := ask error_type_answer.
End Info.

(** f64 on the whole numbers.  [i64 as f64]: to the nearest number of 53 bits, ties to even. *)
Definition round53 (z : Z) : Z :=
  let a := Z.abs z in
  let e := Z.max 0 (Z.log2 a - 52) in
  let q := (a / 2 ^ e)%Z in
  let r := (a mod 2 ^ e)%Z in
  let up := ((2 ^ e <? 2 * r) || ((2 * r =? 2 ^ e) && Z.odd q))%Z in
  (Z.sgn z * (if up then q + 1 else q) * 2 ^ e)%Z.
(** [as i64]: saturates. *)
Definition cast64 (z : Z) : Z := Z.max (- 2 ^ 63) (Z.min (2 ^ 63 - 1) z).
