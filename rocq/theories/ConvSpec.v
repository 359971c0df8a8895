(** What "two values have settled" means, written without the model's functions. *)
From Coq Require Import SpecFloat.
From Verif Require Import Base Maps ConvModel.

(** The kinds of value that may be compared with each other. *)
Inductive kind := KNumeric | KBool | KText | KError | KEmpty | KArray | KPending.
Definition kind_of (v : cvalue) : kind :=
  match v with
  | CNum _ | CInt _ | CSerial _ => KNumeric
  | CBool _ => KBool | CText _ => KText | CErr _ => KError
  | CEmpty => KEmpty | CPending => KPending | CArray _ => KArray
  end.

(** The number a numeric value stands for. *)
Inductive number_is : cvalue -> f64 -> Prop :=
| ni_num : forall x, number_is (CNum x) x
| ni_int : forall i, number_is (CInt i) (FNum (binary_normalize 53 1024 i 0 false))
| ni_serial : forall x, number_is (CSerial x) (FNum x).

Inductive settled (tol : spec_float) : cvalue -> cvalue -> Prop :=
| st_num : forall a b x y, number_is a (FNum x) -> number_is b (FNum y) ->
    SFltb (SFabs (SFsub 53 1024 y x)) tol = true -> settled tol a b
| st_nan : forall a b n, number_is a (FNan n) -> number_is b (FNan n) -> settled tol a b
| st_bool : forall b, settled tol (CBool b) (CBool b)
| st_text : forall t, settled tol (CText t) (CText t)
| st_err : forall k, settled tol (CErr k) (CErr k)
| st_empty : settled tol CEmpty CEmpty
| st_array : forall a b, Forall2 (Forall2 (settled tol)) a b -> settled tol (CArray a) (CArray b).

(** Values that hold no infinity and no Pending anywhere. *)
Inductive regular : cvalue -> Prop :=
| rg_zero : forall s, regular (CNum (FNum (S754_zero s)))
| rg_finite : forall s m e, regular (CNum (FNum (S754_finite s m e)))
| rg_nan : forall n, regular (CNum (FNan n))
| rg_int : forall i, (Z.abs i <= 2^63)%Z -> regular (CInt i)
| rg_szero : forall s, regular (CSerial (S754_zero s))
| rg_sfinite : forall s m e, regular (CSerial (S754_finite s m e))
| rg_bool : forall b, regular (CBool b)
| rg_text : forall t, regular (CText t)
| rg_err : forall k, regular (CErr k)
| rg_empty : regular CEmpty
| rg_array : forall a, Forall (Forall regular) a -> regular (CArray a).
