(** What a maintained topological order should mean (no reference to the model's helpers). *)
From Verif Require Import Base PkModel.

(** [a] stands before [b] in [o]. *)
Definition before (o : list nat) (a b : nat) : Prop :=
  exists i j, i < j /\ nth_error o i = Some a /\ nth_error o j = Some b.
(** Every edge between listed nodes runs forwards. *)
Definition respects (succ : nat -> list nat) (o : list nat) : Prop :=
  forall u v, In v (succ u) -> In u o -> In v o -> before o u v.
(** [v] can be reached from [u]. *)
Inductive leads (succ : nat -> list nat) : nat -> nat -> Prop :=
| leads_refl u : leads succ u u
| leads_step u v w : leads succ u v -> In w (succ v) -> leads succ u w.
(** A path along edges. *)
Fixpoint walk (succ : nat -> list nat) (l : list nat) : Prop :=
  match l with
  | u :: (v :: _) as r => In v (succ u) /\ walk succ r
  | _ => True
  end.
(** The two directions of the graph view agree, with repetitions. *)
Definition agree (g : view) : Prop :=
  forall u v, count_occ Nat.eq_dec (succs g u) v = count_occ Nat.eq_dec (preds g v) u.
(** No cycle among [nodes]: some ranking decreases towards the predecessors. *)
Definition acyclic_on (g : view) (nodes : list nat) : Prop :=
  exists rank : nat -> nat, forall n p, In n nodes -> In p nodes -> In p (preds g n) -> rank p < rank n.
(** Layers: every member's predecessors in the subset stand in earlier layers. *)
Definition layered (g : view) (subset : list nat) (layers : list (list nat)) : Prop :=
  forall i layer n p, nth_error layers i = Some layer -> In n layer -> In p (preds g n) -> In p subset ->
    exists j earlier, j < i /\ nth_error layers j = Some earlier /\ In p earlier.
(** A graph given by its edges, and the orders reached by adding edges one at a time:
    each is offered to the maintained order first and recorded once accepted
    (graph/mod.rs:2902-2940). *)
Definition edges_view (es : list (nat * nat)) : view :=
  View (fun u => map snd (filter (fun e => fst e =? u) es))
       (fun v => map fst (filter (fun e => snd e =? v) es)) (fun _ => true).
Inductive built (budget : nat) : list (nat * nat) -> list nat -> Prop :=
| built_new nodes : NoDup nodes -> built budget [] (ListSort.sort_nat nodes)
| built_add es o fuel x y o' : built budget es o -> try_add fuel (edges_view es) budget x y o = PkOk o' ->
    built budget (es ++ [(x, y)]) o'.
