(** Sheet naming seen from outside. *)
From Verif Require Import Base Maps SheetModel.
Local Open Scope N_scope.

(** What is assumed of [str::to_lowercase]: only the empty text lowers to what the
    empty text lowers to. *)
Definition lower_ok (lower : text -> text) : Prop := forall t, lower t = lower [] -> t = [].

(** A sheet exists if it has a name. *)
Definition live (g : registry) (id : N) : Prop := sheet_name g id <> [].

(** Registries produced by any history of creations, removals and renamings with
    non-empty names and at most 65536 creations. *)
Inductive reg_reach (lower : text -> text) : registry -> Prop :=
| rr_new : reg_reach lower reg_new
| rr_create : forall g n, reg_reach lower g -> n <> [] -> N.of_nat (length (names g)) < 65536 ->
    reg_reach lower (fst (id_for lower g n))
| rr_remove : forall g id g', reg_reach lower g -> reg_remove lower g id = Ok g' -> reg_reach lower g'
| rr_rename : forall g id n g', reg_reach lower g -> n <> [] -> reg_rename lower g id n = Ok g' -> reg_reach lower g'.

(** The same without the bound. *)
Inductive reg_reach_any (lower : text -> text) : registry -> Prop :=
| ra_new : reg_reach_any lower reg_new
| ra_create : forall g n, reg_reach_any lower g -> n <> [] -> reg_reach_any lower (fst (id_for lower g n)).

(** Number of live sheets with an id below [k]. *)
Fixpoint live_below (g : registry) (k : nat) : nat :=
  match k with
  | O => O
  | S j => ((match sheet_name g (N.of_nat j) with [] => 0 | _ => 1 end) + live_below g j)%nat
  end.
