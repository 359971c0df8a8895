(** What the text functions should compute, said without the model's searches
    and loops. *)
From Verif Require Import Base Maps NuModel TfModel.
From Verif Require CrModel.
Local Open Scope Z_scope.

(** [p] stands in [s] with [i] characters before it. *)
Definition stands (p s : text) (i : Z) : Prop :=
  exists a b, s = a ++ p ++ b /\ Z.of_nat (length a) = i.
Definition within (p s : text) : Prop := exists a b, s = a ++ p ++ b.

(** The first place at or after [k] (counted from 0) with a property. *)
Definition first_from (P : Z -> Prop) (k i : Z) : Prop :=
  k <= i /\ P i /\ forall j, k <= j -> P j -> i <= j.

(** [p], with [*] for any characters and [?] for one, describes a beginning of [t]. *)
Inductive glob : text -> text -> Prop :=
| g_nil : forall t, glob [] t
| g_star : forall p x t, glob p t -> glob (42%N :: p) (x ++ t)
| g_one : forall p c t, glob p t -> glob (63%N :: p) (c :: t)
| g_char : forall p c t, c <> 42%N -> c <> 63%N -> glob p t -> glob (c :: p) (c :: t).

(** Letters A-Z and a-z taken as the same. *)
Definition fold_az (c : N) : N := if ((65 <=? c) && (c <=? 90))%N then (c + 32)%N else c.
Definition same_az (s t : text) : Prop := map fold_az s = map fold_az t.

(** [ps] is [s] cut at the delimiter [d], from the left. *)
Inductive pieces (d : text) : text -> list text -> Prop :=
| p_last : forall s, ~ within d s -> pieces d s [s]
| p_more : forall a r ps,
    (forall a' r', a ++ d ++ r = a' ++ d ++ r' -> (length a <= length a')%nat) ->
    pieces d r ps -> pieces d (a ++ d ++ r) (a :: ps).

Fixpoint join (d : text) (ps : list text) : text :=
  match ps with
  | [] => []
  | [p] => p
  | p :: r => p ++ d ++ join d r
  end.

(** The same with several delimiters: the one that stands first cuts, and among
    those standing at the same place the one listed first. *)
Inductive cuts (ds : list text) : text -> list text -> list text -> Prop :=
| c_last : forall s, (forall d, In d ds -> ~ within d s) -> cuts ds s [s] []
| c_more : forall a d r ps us l1 l2,
    ds = l1 ++ d :: l2 ->
    (forall d' a' r', In d' ds -> a ++ d ++ r = a' ++ d' ++ r' -> (length a <= length a')%nat) ->
    (forall d' a' r', In d' l1 -> a ++ d ++ r = a' ++ d' ++ r' -> (length a < length a')%nat) ->
    cuts ds r ps us -> cuts ds (a ++ d ++ r) (a :: ps) (d :: us).

(** Pieces and the delimiters between them, put together again. *)
Fixpoint weave (ps us : list text) : text :=
  match ps, us with
  | p :: pr, u :: ur => p ++ u ++ weave pr ur
  | p :: _, [] => p
  | [], _ => []
  end.

(** Words: maximal runs without white space. *)
Inductive words : text -> list text -> Prop :=
| w_nil : words [] []
| w_space : forall c s ws, CrModel.is_ws c = true -> words s ws -> words (c :: s) ws
| w_end : forall w, w <> [] -> Forall (fun c => CrModel.is_ws c = false) w -> words w [w]
| w_word : forall w c s ws,
    w <> [] -> Forall (fun c => CrModel.is_ws c = false) w -> CrModel.is_ws c = true ->
    words s ws -> words (w ++ c :: s) (w :: ws).

Definition is_err (v : val) : Prop := exists e, v = VErr e.
