(** Pending dirty notices of the formula plane, handed out by lease.
    Models crates/formualizer-eval/src/engine/graph/formula_dirty.rs:9-330
    (FormulaDirtyEvent, FormulaDirtyLease, FormulaDirtySublease, FormulaDirtyState).

    Simplifications: a Region and a FormulaSpanRef are numbers (only compared for
    equality here); the hash sets are lists; the legacy vertex set, the counters and
    [reserve] are left out (they do not influence the notices). *)
From Verif Require Import Base ListSort SchedModel.

(** FormulaDirtyEvent, 14-22. *)
Inductive event :=
| Region (r : nat)
| SpanRegion (s r : nat)
| WholeSpan (s : nat).

(** FormulaDirtyLease, 45-50. *)
Record lease := Lease { l_gen : N; l_prefix : nat; l_events : list event }.
(** FormulaDirtySublease, 104-109. *)
Record sublease := Sub { s_gen : N; s_prefix : nat; s_owned : list nat }.
(** ActiveFormulaDirtyLease, 142-147. *)
Record active := Active { a_gen : N; a_prefix : nat; a_ext : bool }.
(** FormulaDirtyState, 126-140. *)
Record dst := Dst {
  events : list event;
  seen_r : list nat;
  seen_sr : list (nat * nat);
  seen_s : list nat;
  gen : N;
  act : option active
}.
Definition dinit : dst := Dst [] [] [] [] 0 None.

Definition pmem (p : nat * nat) (l : list (nat * nat)) : bool :=
  existsb (fun q => (fst p =? fst q) && (snd p =? snd q)) l.

(** record_region, 184-189. *)
Definition record_region (r : nat) (d : dst) : dst :=
  if memb r (seen_r d) then d
  else Dst (events d ++ [Region r]) (r :: seen_r d) (seen_sr d) (seen_s d) (gen d) (act d).
(** record_span_region, 191-197. *)
Definition record_span_region (s r : nat) (d : dst) : dst :=
  if pmem (s, r) (seen_sr d) then d
  else Dst (events d ++ [SpanRegion s r]) (seen_r d) ((s, r) :: seen_sr d) (seen_s d) (gen d) (act d).
(** record_whole_spans, 199-219. *)
Fixpoint record_whole_spans (l : list nat) (d : dst) : dst :=
  match l with
  | [] => d
  | s :: l' => record_whole_spans l'
      (if memb s (seen_s d) then d
       else Dst (events d ++ [WholeSpan s]) (seen_r d) (seen_sr d) (s :: seen_s d) (gen d) (act d))
  end.

(** rebuild_pending_dedup, 310-327. *)
Definition regions_of (l : list event) : list nat := flat_map (fun e => match e with Region r => [r] | _ => [] end) l.
Definition span_regions_of (l : list event) : list (nat * nat) := flat_map (fun e => match e with SpanRegion s r => [(s, r)] | _ => [] end) l.
Definition spans_of (l : list event) : list nat := flat_map (fun e => match e with WholeSpan s => [s] | _ => [] end) l.
Definition rebuild (d : dst) : dst :=
  Dst (events d) (regions_of (events d)) (span_regions_of (events d)) (spans_of (events d)) (gen d) (act d).
Definition clear_seen (d : dst) : dst := Dst (events d) [] [] [] (gen d) (act d).
Definition set_act (a : option active) (d : dst) : dst := Dst (events d) (seen_r d) (seen_sr d) (seen_s d) (gen d) a.

(** u64 wrapping_add(1). *)
Definition wrap1 (g : N) : N := ((g + 1) mod 2 ^ 64)%N.

(** lease, 221-244. *)
Definition do_lease (d : dst) : dst * lease :=
  let d := rebuild (set_act None d) in
  let g := wrap1 (gen d) in
  let k := length (events d) in
  let d := Dst (events d) (seen_r d) (seen_sr d) (seen_s d) g (Some (Active g k false)) in
  (clear_seen d, Lease g k (events d)).

(** extend, 246-271. *)
Definition do_extend (l : lease) (d : dst) : dst * option lease :=
  match act d with
  | None => (d, None)
  | Some a =>
    if negb (a_gen a =? l_gen l)%N || negb (a_prefix a =? l_prefix l) || a_ext a then (d, None)
    else
      let k := length (events d) in
      (clear_seen (set_act (Some (Active (a_gen a) k true)) d), Some (Lease (a_gen a) k (firstn k (events d))))
  end.

(** FormulaDirtyLease::sublease, 68-83.  The sort and dedup do not matter to the set
    of owned indices, which is all ack_sublease uses. *)
Definition do_sublease (l : lease) (owned : list nat) : sublease :=
  Sub (l_gen l) (l_prefix l) (dedup (sort_nat (filter (fun i => i <? l_prefix l) owned))).

(** ack_sublease, 278-299. *)
Fixpoint keep_from (i prefix : nat) (owned : list nat) (l : list event) : list event :=
  match l with
  | [] => []
  | e :: l' => let r := keep_from (S i) prefix owned l' in
               if (prefix <=? i) || negb (memb i owned) then e :: r else r
  end.
Definition ack_sublease (s : sublease) (d : dst) : dst * bool :=
  match act d with
  | None => (d, false)
  | Some a =>
    if negb (a_gen a =? s_gen s)%N || negb (a_prefix a =? s_prefix s) then (d, false)
    else
      let k := Nat.min (s_prefix s) (length (events d)) in
      let d' := Dst (keep_from 0 k (s_owned s) (events d)) (seen_r d) (seen_sr d) (seen_s d) (gen d) None in
      (rebuild d', true)
  end.
(** ack, 273-276. *)
Definition do_ack (l : lease) (d : dst) : dst * bool := ack_sublease (do_sublease l (seq 0 (l_prefix l))) d.

(** release, 301-308. *)
Definition do_release (l : lease) (d : dst) : dst * bool :=
  match act d with
  | None => (d, false)
  | Some a =>
    if negb (a_gen a =? l_gen l)%N || negb (a_prefix a =? l_prefix l) then (d, false)
    else (rebuild (set_act None d), true)
  end.

(** A client: leases it was given are numbered in the order issued. *)
Inductive op :=
| ORegion (r : nat)
| OSpanRegion (s r : nat)
| OSpans (l : list nat)
| OLease
| OExtend (h : nat)
| OAck (h : nat)
| OAckSub (h : nat) (owned : list nat)
| ORelease (h : nat).

(** State of the queue and the leases issued so far; an operation on a lease never
    issued is not possible and does nothing. *)
Definition world := (dst * list lease)%type.
Definition step (o : op) (w : world) : world :=
  let (d, ls) := w in
  match o with
  | ORegion r => (record_region r d, ls)
  | OSpanRegion s r => (record_span_region s r d, ls)
  | OSpans l => (record_whole_spans l d, ls)
  | OLease => let (d', l) := do_lease d in (d', ls ++ [l])
  | OExtend h => match nth_error ls h with
                 | None => w
                 | Some l => let (d', r) := do_extend l d in
                             (d', match r with Some l' => ls ++ [l'] | None => ls end)
                 end
  | OAck h => match nth_error ls h with None => w | Some l => (fst (do_ack l d), ls) end
  | OAckSub h owned => match nth_error ls h with None => w | Some l => (fst (ack_sublease (do_sublease l owned) d), ls) end
  | ORelease h => match nth_error ls h with None => w | Some l => (fst (do_release l d), ls) end
  end.
Definition run (ops : list op) (w : world) : world := fold_left (fun w o => step o w) ops w.
