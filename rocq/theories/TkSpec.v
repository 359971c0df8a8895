(** What template keys are for, said without them: when one formula is a copy of another.

    A formula filled from one cell into another keeps its text except that its relative
    coordinates move along; two functions are the same when the provider gives both names
    the same identity at that number of arguments. *)
From Coq Require Import List Bool NArith ZArith String.
From Verif Require Import Base LexModel RtModel TkModel.
Import ListNotations.
Open Scope N_scope.

(** A coordinate that is moved by [d] unless it is absolute. *)
Definition shifted (d : Z) (absolute : bool) (v v' : N) : Prop :=
  if absolute then v' = v else Z.of_N v' = (Z.of_N v + d)%Z.
Definition bound_shifted (d : Z) (b b' : bound) : Prop :=
  match b, b' with
  | None, None => True
  | Some (v, a), Some (v', a') => a' = a /\ shifted d a v v'
  | _, _ => False
  end.
(** A reference filled [dr] rows down and [dc] columns to the right. *)
Inductive ref_copy (dr dc : Z) : reft -> reft -> Prop :=
| copy_cell sh row col ra ca row' col' :
    shifted dr ra row row' -> shifted dc ca col col' ->
    ref_copy dr dc (RCell sh row col ra ca) (RCell sh row' col' ra ca)
| copy_range sh b b' :
    bound_shifted dr (b_sr b) (b_sr b') -> bound_shifted dc (b_sc b) (b_sc b') ->
    bound_shifted dr (b_er b) (b_er b') -> bound_shifted dc (b_ec b) (b_ec b') ->
    ref_copy dr dc (RRange sh b) (RRange sh b')
| copy_name n : ref_copy dr dc (RName n) (RName n).

Section Copy.
Variable identity : text -> N -> option fid.
(** When a literal of the copy may stand for one of the original. *)
Variable L : lit -> lit -> Prop.
Variables dr dc : Z.
(** [copy a b]: [b] is [a] filled by [dr], [dc]. *)
Inductive copy : ast -> ast -> Prop :=
| copy_lit v w : L v w -> copy (ALit v) (ALit w)
| copy_omit : copy AOmit AOmit
| copy_ref o r o' r' : ref_copy dr dc r r' -> copy (ARef o r) (ARef o' r')
| copy_un op e e' : copy e e' -> copy (AUn op e) (AUn op e')
| copy_bin op l r l' r' : copy l l' -> copy r r' -> copy (ABin op l r) (ABin op l' r')
| copy_fn n n' args args' f :
    identity n (len args) = Some f -> identity n' (len args) = Some f ->
    Forall2 copy args args' -> copy (AFn n args) (AFn n' args').
End Copy.

(** Literals that are not arrays, whatever their values. *)
Definition any_scalar (v w : lit) : Prop := is_array v = false /\ is_array w = false.

(** The identities of a provider fit the machine: lengths and numbers are u64 (capabilities
    u32), names are bytes; an identity has a contract. *)
Definition U64 : N := 2 ^ 64.
Definition bytes_ok (t : text) : Prop := Forall (fun c => c < 256) t /\ len t < U64.
Definition arity_ok (a : arity) : Prop :=
  match a with
  | Exactly v | AtLeast v | EvenAtLeast v | OddAtLeast v => v < U64
  | OneOf l => len l < U64 /\ Forall (fun v => v < U64) l
  end.
Definition vrange_ok (v : vrange) : Prop :=
  match v with VNone => True | VFixed i => i < U64 | VOptional p f => p < U64 /\ f < U64 end.
Definition args_ok (a : argdeps) : Prop :=
  match a with Criteria v first => vrange_ok v /\ first < U64 | _ => True end.
Definition contract_ok (k : contract) : Prop :=
  match k_prec k with Some p => arity_ok (p_arity p) /\ args_ok (p_args p) | None => True end.
Definition identity_ok (f : fid) : Prop :=
  bytes_ok (f_ns f) /\ bytes_ok (f_name f) /\ f_gen f < U64 /\ f_caps f < 2 ^ 32 /\
  len (f_byref f) < U64 /\
  match f_con f with Some k => contract_ok k | None => False end.
Definition provider_ok (identity : text -> N -> option fid) : Prop :=
  forall n k f, identity n k = Some f -> identity_ok f.

(** The literals of a formula in the order they are written. *)
Fixpoint literals (a : ast) : list lit :=
  match a with
  | ALit v => [v]
  | AOmit | ARef _ _ => []
  | AUn _ e => literals e
  | ABin _ l r => literals l ++ literals r
  | AFn _ args => flat_map literals args
  | ACall e args => literals e ++ flat_map literals args
  | AArr rows => flat_map (flat_map literals) rows
  end.
(** Formulas whose relative addresses are rows and columns counted from one. *)
Definition axis_in (v : N) (absolute : bool) : Prop := absolute = true \/ 1 <= v <= 2 ^ 32 - 1.
Definition bound_in (b : bound) : Prop := match b with Some (v, a) => axis_in v a | None => True end.
Definition ref_in (r : reft) : Prop :=
  match r with
  | RCell _ row col ra ca => axis_in row ra /\ axis_in col ca
  | RRange _ b => bound_in (b_sr b) /\ bound_in (b_sc b) /\ bound_in (b_er b) /\ bound_in (b_ec b)
  | _ => True
  end.
Inductive addressed : ast -> Prop :=
| in_lit v : addressed (ALit v)
| in_omit : addressed AOmit
| in_ref o r : ref_in r -> addressed (ARef o r)
| in_un op e : addressed e -> addressed (AUn op e)
| in_bin op l r : addressed l -> addressed r -> addressed (ABin op l r)
| in_fn n args : Forall addressed args -> addressed (AFn n args)
| in_call e args : addressed e -> Forall addressed args -> addressed (ACall e args)
| in_arr rows : Forall (Forall addressed) rows -> addressed (AArr rows).

(** Literals that the arena may keep as one node: texts, booleans, errors, integers, blanks. *)
Definition kept_once (v : lit) : Prop :=
  match v with
  | LText _ | LBool _ | LErr _ | LInt _ | LEmpty | LPending => True
  | _ => False
  end.
(** [vals] gives equal literals of that sort in [l] equal values. *)
Definition repeats_agree (l vals : list lit) : Prop :=
  forall i j v, kept_once v -> nth_error l i = Some v -> nth_error l j = Some v ->
    nth_error vals i = nth_error vals j.
