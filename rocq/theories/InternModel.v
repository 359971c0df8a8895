(** String interner: crates/formualizer-eval/src/engine/arena/string_interner.rs.
    [strings] is a list, [lookup] a finite map. *)
From Verif Require Import Base Maps.
Local Open Scope N_scope.

(** :9-28 *)
Definition MAX_ID : N := 4294967294.
Definition INVALID_ID : N := 4294967295.

(** :38-43 *)
Record interner := mkInt { strings : list text; lookup : list (text * N) }.
Definition int_new : interner := mkInt [] [].

(** :62-84 *)
Definition intern (g : interner) (s : text) : res unit (interner * N) :=
  match mget text_eqb (lookup g) s with
  | Some id => Ok (g, id)
  | None =>
      let index := trunc_u32 (N.of_nat (length (strings g))) in
      if MAX_ID <? index then Panic
      else Ok (mkInt (strings g ++ [s]) (mput text_eqb (lookup g) s index), index)
  end.

(** :88-94 *)
Definition int_get (g : interner) (id : N) : option text :=
  if id =? INVALID_ID then None else nth_error (strings g) (N.to_nat id).

(** :98-101 *)
Definition int_resolve (g : interner) (id : N) : res unit text :=
  match int_get g id with Some s => Ok s | None => Panic end.

(** :104-106, :109-111 *)
Definition int_contains (g : interner) (s : text) : bool :=
  match mget text_eqb (lookup g) s with Some _ => true | None => false end.
Definition int_get_id (g : interner) (s : text) : option N := mget text_eqb (lookup g) s.

(** Interners produced by any sequence of calls that did not panic. *)
Inductive int_reach : interner -> Prop :=
| ir_new : int_reach int_new
| ir_step : forall g s g' id, int_reach g -> intern g s = Ok (g', id) -> int_reach g'.
