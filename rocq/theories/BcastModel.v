(** Broadcasting: crates/formualizer-eval/src/broadcast.rs:5-36.
    [usize] as [nat]; the error text is dropped. *)
From Verif Require Import Base.

Definition shape := (nat * nat)%type.

(** :18-28 *)
Definition broadcast_dim (a b : nat) : res unit nat :=
  if (a =? b) || (a =? 1) then Ok (Nat.max b a)
  else if b =? 1 then Ok (Nat.max a b)
  else Err tt.

(** :5-16 *)
Fixpoint broadcast_loop (rows cols : nat) (shapes : list shape) : res unit shape :=
  match shapes with
  | [] => Ok (rows, cols)
  | (r, c) :: rest =>
      rbind (broadcast_dim rows r) (fun rows =>
      rbind (broadcast_dim cols c) (fun cols => broadcast_loop rows cols rest))
  end.
Definition broadcast_shape (shapes : list shape) : res unit shape :=
  match shapes with
  | [] => Ok (1, 1)
  | _ => broadcast_loop 1 1 shapes
  end.

(** :31-36 *)
Definition project_index (idx : nat * nat) (s : shape) : nat * nat :=
  ((if fst s =? 1 then 0 else fst idx), (if snd s =? 1 then 0 else snd idx)).
