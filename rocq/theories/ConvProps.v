(** C46: the convergence test of iterative calculation. *)
From Coq Require Import SpecFloat.
From Verif Require Import Base Maps ConvModel ConvSpec ConvProofs ConvProofs2.

(** The test decides exactly the relation [settled]. *)
Theorem C46_decides :
  forall tol prev cur, converged (values_converged tol prev cur) = true <-> settled tol prev cur.
Proof. exact converged_settled. Qed.
Print Assumptions C46_decides.

(** Swapping the two passes changes nothing in the reported outcome. *)
Theorem C46_symmetric :
  forall tol prev cur, values_converged tol prev cur = values_converged tol cur prev.
Proof. exact values_sym. Qed.
Print Assumptions C46_symmetric.

(** A value without infinities that stays the same has converged, for a positive tolerance. *)
Theorem C46_reflexive :
  forall tol v, SFltb (S754_zero false) tol = true -> regular v -> converged (values_converged tol v v) = true.
Proof. intros tol v T R. apply converged_settled. now apply regular_settled. Qed.
Print Assumptions C46_reflexive.

(** Two numbers, of whatever numeric type: exactly the strict test on the f64 difference. *)
Theorem C46_numbers :
  forall tol a b x y, number_is a (FNum x) -> number_is b (FNum y) ->
    converged (values_converged tol a b) = SFltb (SFabs (SFsub 53 1024 y x)) tol /\
    abs_delta (values_converged tol a b) = Some (SFabs (SFsub 53 1024 y x)).
Proof.
  intros tol a b x y A B. apply number_serial in A, B.
  destruct a; try discriminate; cbn [values_converged]; rewrite B, A; split; reflexivity.
Qed.
Print Assumptions C46_numbers.

(** Values of different kinds never converge. *)
Theorem C46_kinds :
  forall tol a b, converged (values_converged tol a b) = true -> kind_of a = kind_of b.
Proof.
  intros tol a b H. apply converged_settled in H. destruct H as [a b x y A B _|a b n A B| | | | |]; try reflexivity; destruct A, B; reflexivity.
Qed.
Print Assumptions C46_kinds.

Theorem C46_array :
  forall tol a b, converged (values_converged tol (CArray a) (CArray b)) = true <->
    Forall2 (Forall2 (fun x y => converged (values_converged tol x y) = true)) a b.
Proof. exact array_spec. Qed.
Print Assumptions C46_array.

(** Of two arrays that converged, the reported delta is the largest of the cells'. *)
Theorem C46_reported_delta :
  forall tol a b, converged (values_converged tol (CArray a) (CArray b)) = true ->
  let whole := values_converged tol (CArray a) (CArray b) in
  let cell p := values_converged tol (fst p) (snd p) in
  (forall p d, In p (cell_pairs a b) -> abs_delta (cell p) = Some d -> exists m, abs_delta whole = Some m /\ SFleb d m = true)
  /\ (forall m, abs_delta whole = Some m -> exists p, In p (cell_pairs a b) /\ abs_delta (cell p) = Some m)
  /\ (nan_converged whole = true <-> exists p, In p (cell_pairs a b) /\ nan_converged (cell p) = true).
Proof. exact array_delta. Qed.
Print Assumptions C46_reported_delta.

(** Reflexivity fails for an infinity at any tolerance ... *)
Theorem C46_infinity_refuted :
  exists v, forall tol, converged (values_converged tol v v) = false.
Proof. exists (CNum (FNum (S754_infinity false))). intros tol. reflexivity. Qed.
Print Assumptions C46_infinity_refuted.

(** ... and for every finite number when the tolerance is zero. *)
Theorem C46_zero_tolerance_refuted :
  exists tol, SFltb tol (S754_zero false) = false /\
    forall s m e, converged (values_converged tol (CNum (FNum (S754_finite s m e))) (CNum (FNum (S754_finite s m e)))) = false.
Proof.
  exists (S754_zero false). split; [reflexivity|]. intros s m e.
  change (SFltb (fdelta (S754_finite s m e) (S754_finite s m e)) (S754_zero false) = false). now rewrite fdelta_self_finite.
Qed.
Print Assumptions C46_zero_tolerance_refuted.

(* 0.001 as f64; 1.0 and 1.0005 (rounded); nested arrays *)
Definition tol_001 : spec_float := S754_finite false 4611686018427388 (-62).
Definition one : spec_float := S754_finite false 4503599627370496 (-52).
Definition one_eps : spec_float := S754_finite false 4505851427184182 (-52).
Example C46_ex :
  SFltb (S754_zero false) tol_001 = true /\
  converged (values_converged tol_001 (CNum (FNum one)) (CSerial one_eps)) = true /\
  converged (values_converged tol_001 (CInt 1) (CNum (FNum one_eps))) = true /\
  converged (values_converged tol_001 (CInt 1) (CInt 2)) = false /\
  converged (values_converged tol_001 (CInt 1) (CBool true)) = false /\
  converged (values_converged tol_001 (CArray [[CInt 1; CNum (FNan 7)]]) (CArray [[CNum (FNum one_eps); CNum (FNan 7)]])) = true /\
  nan_converged (values_converged tol_001 (CArray [[CInt 1; CNum (FNan 7)]]) (CArray [[CNum (FNum one_eps); CNum (FNan 7)]])) = true /\
  converged (values_converged tol_001 (CArray [[CInt 1; CEmpty]]) (CArray [[CInt 1]])) = false /\
  regular (CArray [[CInt 1; CNum (FNan 7)]; []]).
Proof. repeat split; try (vm_compute; reflexivity). repeat constructor; vm_compute; discriminate. Qed.
