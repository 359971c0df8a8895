(** The incrementally maintained topological order.
    Models crates/formualizer-eval/src/engine/topo/pk.rs:41-382 (DynamicTopo: new,
    rebuild_full, try_add_edge, ensure_nodes, layers_for, splice_after), used by
    crates/formualizer-eval/src/engine/graph/mod.rs:1262-1302, 2902-2980 and by
    scheduler.rs:83-115 when config.use_dynamic_topo is set.

    Simplifications: nodes are nat; [pos] is the place in [order] (the code recomputes it
    from [order] wherever the order changes); compact_ranks is then the identity and the
    operation counter is left out; a stack is a list whose head is the top; loops take fuel
    and answer None without it; the recursion after an exhausted visit budget spends one
    unit (rebuild_full always gets enough). A subtraction below zero and an index into [pos] without an entry are the
    explicit results [KUnderflow] and [KMissing] (both panic). *)
From Verif Require Import Base Maps ListSort SchedModel.

(** GraphView *)
Record view := View { succs : nat -> list nat; preds : nat -> list nat; there : nat -> bool }.

Fixpoint place (n : nat) (o : list nat) : option nat :=
  match o with
  | [] => None
  | m :: o' => if n =? m then Some 0 else option_map S (place n o')
  end.

Inductive kres A := KDone (a : A) | KUnderflow | KMissing | KFuel.
Arguments KDone {A} a. Arguments KUnderflow {A}. Arguments KMissing {A}. Arguments KFuel {A}.
Definition kbind {A B} (r : kres A) (f : A -> kres B) : kres B :=
  match r with KDone a => f a | KUnderflow => KUnderflow | KMissing => KMissing | KFuel => KFuel end.

Definition degrees := list (nat * nat).
(** In-degrees within a set of nodes, 83-95, 275-290. *)
Definition indegrees (g : view) (nodes : list nat) : degrees :=
  map (fun n => (n, length (filter (fun p => memb p nodes) (preds g n)))) nodes.
(** The decrement loop, 110-117, 312-319. *)
Fixpoint lower (ss : list nat) (m : degrees) (zero : list nat) : kres (degrees * list nat) :=
  match ss with
  | [] => KDone (m, zero)
  | s :: ss' =>
      match mget Nat.eqb m s with
      | None => lower ss' m zero
      | Some 0 => KUnderflow
      | Some (S d) => lower ss' (mput Nat.eqb m s d) (if d =? 0 then zero ++ [s] else zero)
      end
  end.

(** rebuild_full, 74-129 *)
Fixpoint kahn (fuel : nat) (g : view) (m : degrees) (zero out : list nat) : kres (list nat) :=
  match zero with
  | [] => KDone out
  | n :: zero' =>
      match fuel with
      | O => KFuel
      | S k => kbind (lower (succs g n) m zero') (fun p => kahn k g (fst p) (sort_nat (snd p)) (out ++ [n]))
      end
  end.
Definition rebuild_full (fuel : nat) (g : view) (o : list nat) : kres (list nat) :=
  let nodes := sort_nat (filter (there g) o) in
  let m := indegrees g nodes in
  let zero := sort_nat (map fst (filter (fun p => snd p =? 0) m)) in
  kbind (kahn fuel g m zero []) (fun out =>
    KDone (if length out =? length nodes then out else nodes)).

(** add_missing / ensure_nodes, 328-343 *)
Definition ensure (n : nat) (o : list nat) : list nat :=
  match place n o with Some _ => o | None => o ++ [n] end.

(** splice_after, 347-381 *)
Definition splice_after (after : nat) (affected o : list nat) : list nat :=
  let left := filter (fun n => negb (memb n affected)) o in
  let block := filter (fun n => memb n affected) o in
  firstn (S after) left ++ block ++ skipn (S after) left.

(** The path back from the cycle, 171-179. *)
Fixpoint path_to (fuel : nat) (parent : list (nat * nat)) (y cur : nat) : option (list nat) :=
  if cur =? y then Some [cur]
  else match fuel with
       | O => None
       | S k => match mget Nat.eqb parent cur with
                | None => None
                | Some p => option_map (fun l => l ++ [cur]) (path_to k parent y p)
                end
       end.

Inductive dres := DFinished (affected : list nat) | DCycle (path : option (list nat)) | DOver | DFuel.
(** The limited search, 152-193. [visited] doubles as [affected] (the same nodes in reverse). *)
Fixpoint search (fuel : nat) (g : view) (budget px x y : nat) (o : list nat)
                (stack visited : list nat) (parent : list (nat * nat)) : dres :=
  match stack with
  | [] => DFinished (rev visited)
  | u :: stack' =>
      match fuel with
      | O => DFuel
      | S k =>
          if memb u visited then search k g budget px x y o stack' visited parent
          else if budget <? S (length visited) then DOver
          else if u =? x then DCycle (path_to (length visited) parent y x)
          else
            let next := filter (fun s => match place s o with
                                         | Some ps => (ps <=? px) && negb (memb s (u :: visited))
                                         | None => false
                                         end) (succs g u) in
            search k g budget px x y o (rev next ++ stack') (u :: visited)
                   (fold_left (fun p s => mput Nat.eqb p s u) next parent)
      end
  end.

Inductive pkres := PkOk (order : list nat) | PkCycle (path : option (list nat)) | PkUnderflow | PkFuel.
(** try_add_edge, 131-209 *)
Fixpoint try_add (fuel : nat) (g : view) (budget x y : nat) (o : list nat) : pkres :=
  if x =? y then PkCycle (Some [x; y])
  else
    let o := ensure y (ensure x o) in
    match place x o, place y o with
    | Some px, Some py =>
        if px <? py then PkOk o
        else match search fuel g budget px x y o [y] [] [] with
             | DFuel => PkFuel
             | DCycle p => PkCycle p
             | DFinished affected => PkOk (splice_after px affected o)
             | DOver =>
                 match fuel with
                 | O => PkFuel
                 | S k => match rebuild_full (length o) g o with
                          | KDone o' => try_add k g budget x y o'
                          | KUnderflow | KMissing => PkUnderflow
                          | KFuel => PkFuel
                          end
                 end
             end
    | _, _ => PkFuel
    end.

(** Sorting by [pos], 296, 307, 321: with two elements or more each is looked up. *)
Definition place_or (o : list nat) (n : nat) : nat := match place n o with Some p => p | None => 0 end.
Definition sort_places (o : list nat) (l : list nat) : kres (list nat) :=
  match l with
  | [] | [_] => KDone l
  | _ => if forallb (fun n => match place n o with Some _ => true | None => false end) l
         then KDone (sort_by (place_or o) l)
         else KMissing
  end.
Fixpoint lower_all (g : view) (us : list nat) (m : degrees) (zero : list nat) : kres (degrees * list nat) :=
  match us with
  | [] => KDone (m, zero)
  | u :: us' => kbind (lower (succs g u) m zero) (fun p => lower_all g us' (fst p) (snd p))
  end.
(** layers_for, 266-326; [cap] is max_layer_width, None for no limit. *)
Fixpoint layer_loop (fuel : nat) (g : view) (o : list nat) (cap : option nat) (m : degrees) (zero : list nat)
                    (out : list (list nat)) : kres (list (list nat)) :=
  match zero with
  | [] => KDone out
  | _ =>
      match fuel with
      | O => KFuel
      | S k =>
          let w := match cap with Some c => Nat.min (length zero) c | None => length zero end in
          kbind (sort_places o (firstn w zero)) (fun layer =>
          kbind (lower_all g layer m (skipn w zero)) (fun p =>
          kbind (sort_places o (snd p)) (fun zero' => layer_loop k g o cap (fst p) zero' (out ++ [layer]))))
      end
  end.
Definition layers_for (fuel : nat) (g : view) (o : list nat) (cap : option nat) (subset : list nat) : kres (list (list nat)) :=
  match subset with
  | [] => KDone []
  | _ =>
      let m := indegrees g subset in
      kbind (sort_places o (map fst (filter (fun p => snd p =? 0) m))) (fun zero =>
        layer_loop fuel g o cap m zero [])
  end.
