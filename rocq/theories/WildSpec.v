(** What a wildcard pattern means, on the characters of the pattern itself. *)
From Verif Require Import Base Maps.

(** ['*'] any characters, ['?'] one character, ['~'] takes the next character
    literally (a final ['~'] is itself), any other character is itself. *)
Inductive glob : text -> text -> Prop :=
| glob_nil : glob [] []
| glob_star : forall p pre t, glob p t -> glob (42%N :: p) (pre ++ t)
| glob_quest : forall p c t, glob p t -> glob (63%N :: p) (c :: t)
| glob_esc : forall x p t, glob p t -> glob (126%N :: x :: p) (x :: t)
| glob_tilde_end : glob [126%N] [126%N]
| glob_char : forall c p t, c <> 42%N -> c <> 63%N -> c <> 126%N -> glob p t -> glob (c :: p) (c :: t).

(** A pattern with none of the three special characters. *)
Definition plain (p : text) : Prop := ~ In 42%N p /\ ~ In 63%N p /\ ~ In 126%N p.
