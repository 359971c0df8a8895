(** The formulas that a template key accepts, and what a reference names. *)
From Coq Require Import List Bool NArith ZArith String Lia ZifyN ZifyNat ZifyBool.
From Verif Require Import Base LexModel RtModel TkModel TkSpec SvModel.
Import ListNotations.
Open Scope N_scope.

(** A reference to a cell, a range open on no or both sides, or a name; not a
    spill. *)
Definition plain_ref (o : text) (r : reft) : Prop :=
  match r with
  | RCell _ _ _ _ _ => spill_text o = false
  | RRange _ b => spill_text o = false /\ (b_sr b = None <-> b_er b = None) /\ (b_sc b = None <-> b_ec b = None)
  | RName _ => True
  | _ => False
  end.
(** A function of the provider that depends on its arguments only. *)
Definition plain_fn (f : fid) : Prop :=
  has_cap f VOLATILE = false /\ has_cap f DYNAMIC_DEPENDENCY = false /\ has_cap f LOCAL_ENVIRONMENT = false /\
  has_cap f RETURNS_REFERENCE = false /\ has_cap f MAY_SPILL = false /\
  exists k, f_con f = Some k /\ k_dep k = RecursiveArgs /\ k_env k = NoEnv /\ may_ref (k_res k) = false /\
    may_spill (k_res k) = false /\ k_ctx k = NoCtx.

Section Shape.
Variable identity : text -> N -> option fid.
Inductive shape : ast -> Prop :=
| sh_lit v : is_array v = false -> shape (ALit v)
| sh_omit : shape AOmit
| sh_ref o r : plain_ref o r -> shape (ARef o r)
| sh_un op e : op <> tx "#" -> op <> tx "@" -> shape e -> shape (AUn op e)
| sh_bin op l r : shape l -> shape r -> shape (ABin op l r)
| sh_fn n args f : identity n (len args) = Some f -> plain_fn f -> Forall shape args -> shape (AFn n args).
End Shape.

(** The place a reference names, as written. *)
Definition edge (b : bound) (none : fixed) : fixed := match b with Some (v, _) => At (Z.of_N v) | None => none end.
Definition low_edge (a b : bound) : fixed := edge a (match b with None => AtWhole | Some _ => AtOpenStart end).
Definition high_edge (a b : bound) : fixed := edge b (match a with None => AtWhole | Some _ => AtOpenEnd end).
Definition named_place (r : reft) : option dref :=
  match r with
  | RCell s row col _ _ => Some (DCell (sheet_binding s) (At (Z.of_N row)) (At (Z.of_N col)))
  | RRange s b => Some (DRange (sheet_binding s) (low_edge (b_sr b) (b_er b)) (low_edge (b_sc b) (b_ec b))
                          (high_edge (b_sr b) (b_er b)) (high_edge (b_sc b) (b_ec b)))
  | RName n => Some (DNamed n)
  | _ => None
  end.
