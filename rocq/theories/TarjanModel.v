(** Iterative Tarjan, the loop shared by two functions of the engine:
    crates/formualizer-eval/src/engine/scheduler.rs:200-335 (tarjan_scc_impl) and
    crates/formualizer-eval/src/engine/live_graph.rs:48-138 (analyze_live_graph).
    Both run the same loop over dense node numbers with an explicit frame stack;
    they differ in where a node's successors come from (parameter [adj]) and in
    what is done with an emitted component (LiveGraphModel.v, SchedModel.v).

    Simplifications: arrays indexed by node are functions; a frame keeps the
    successors not yet looked at instead of the whole list and an offset; node
    numbers and the index counter are unbounded (the code uses u32 with u32::MAX
    as UNVISITED, which needs fewer than 2^32-1 nodes). *)
From Verif Require Import Base.

Definition fupd {A} (f : nat -> A) (x : nat) (a : A) : nat -> A :=
  fun y => if Nat.eqb y x then a else f y.

Record tstate := TState {
  t_index : nat -> option nat;      (* indices, None = UNVISITED *)
  t_low : nat -> nat;               (* lowlinks *)
  t_on : nat -> bool;               (* on_stack *)
  t_stack : list nat;               (* top first *)
  t_next : nat;                     (* index_counter *)
  t_sccs : list (list nat);         (* emission order; members in pop order *)
  t_frames : list (nat * list (option nat))   (* top first: node, successors left *)
}.

(** `loop { let w = stack.pop().unwrap(); ...; if w == vertex { break } }`:
    popped members in pop order and the remaining stack; None is the panic. *)
Fixpoint pop_until (v : nat) (stack : list nat) : option (list nat * list nat) :=
  match stack with
  | [] => None
  | w :: rest =>
    if Nat.eqb w v then Some ([w], rest)
    else match pop_until v rest with
         | Some (scc, rest') => Some (w :: scc, rest')
         | None => None
         end
  end.

Definition unmark (on : nat -> bool) (scc : list nat) : nat -> bool :=
  fun x => if existsb (Nat.eqb x) scc then false else on x.

Section Tarjan.
(** Successors of a node in order.  [None] is a dependency outside the scheduled
    set, which the scheduler skips (scheduler.rs:291-293). *)
Variable adj : nat -> list (option nat).

(** A node is met for the first time: scheduler.rs:271-277 and 295-302. *)
Definition visit (w : nat) (fs : list (nat * list (option nat))) (st : tstate) : tstate :=
  TState (fupd (t_index st) w (Some (t_next st))) (fupd (t_low st) w (t_next st))
         (fupd (t_on st) w true) (w :: t_stack st) (S (t_next st)) (t_sccs st)
         ((w, adj w) :: fs).

(** One round of the `while let Some(frame) = frames.last_mut()` loop.
    scheduler.rs:279-332, live_graph.rs:88-136. *)
Definition tstep (st : tstate) : res unit tstate :=
  match t_frames st with
  | [] => Ok st
  | (v, None :: r) :: fs =>
      Ok (TState (t_index st) (t_low st) (t_on st) (t_stack st) (t_next st) (t_sccs st) ((v, r) :: fs))
  | (v, Some w :: r) :: fs =>
      match t_index st w with
      | None => Ok (visit w ((v, r) :: fs) st)
      | Some iw =>
        let low := if t_on st w then fupd (t_low st) v (Nat.min (t_low st v) iw) else t_low st in
        Ok (TState (t_index st) low (t_on st) (t_stack st) (t_next st) (t_sccs st) ((v, r) :: fs))
      end
  | (v, []) :: fs =>
      let lv := t_low st v in
      let low := match fs with (p, _) :: _ => fupd (t_low st) p (Nat.min (t_low st p) lv) | [] => t_low st end in
      match t_index st v with
      | None => Panic                                   (* unreachable: a framed node is visited *)
      | Some iv =>
        if Nat.eqb lv iv then
          match pop_until v (t_stack st) with
          | None => Panic
          | Some (scc, rest) =>
            Ok (TState (t_index st) low (unmark (t_on st) scc) rest (t_next st) (t_sccs st ++ [scc]) fs)
          end
        else Ok (TState (t_index st) low (t_on st) (t_stack st) (t_next st) (t_sccs st) fs)
      end
  end.

(** The while loop; [Err tt] is the model running out of fuel. *)
Fixpoint tloop (fuel : nat) (st : tstate) : res unit tstate :=
  match t_frames st with
  | [] => Ok st
  | _ => match fuel with
         | 0 => Err tt
         | S fuel' => rbind (tstep st) (tloop fuel')
         end
  end.

(** `for &root_vertex in vertices`: scheduler.rs:265-333, live_graph.rs:77-137. *)
Fixpoint troots (fuel : nat) (roots : list nat) (st : tstate) : res unit tstate :=
  match roots with
  | [] => Ok st
  | r :: roots' =>
    match t_index st r with
    | Some _ => troots fuel roots' st
    | None => rbind (tloop fuel (visit r [] st)) (troots fuel roots')
    end
  end.

Definition tinit : tstate := TState (fun _ => None) (fun _ => 0) (fun _ => false) [] 0 [] [].

(** Enough rounds for every node in [nodes]: one per successor and one to finish. *)
Definition tfuel (nodes : list nat) : nat :=
  S (fold_right (fun v acc => S (S (length (adj v))) + acc) 0 nodes).

Definition tarjan (nodes roots : list nat) : res unit (list (list nat)) :=
  rbind (troots (tfuel nodes) roots tinit) (fun st => Ok (t_sccs st)).
End Tarjan.
