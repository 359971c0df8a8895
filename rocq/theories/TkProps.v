(** Claims about template keys and the evaluation of formula spans. *)
From Coq Require Import List Bool NArith ZArith String Lia Permutation.
From Verif Require Import Base LexModel RtModel TkModel TkSpec TkProofs1 TkProofs2 TkProofs3 TkProofs4 TkProofs5 TkProofs6 SvModel SvProofs.
Import ListNotations.
Open Scope N_scope.

(** A provider for the examples: SUM and IF. *)
Definition scalar_contract (p : precision) : contract := Contract RecursiveArgs Eager ScalarRes NoEnv NoCtx (Some p).
Definition sum_id : fid :=
  Fid [] (tx "SUM") 1 0 (Some (scalar_contract (Prec StaticReduction (AtLeast 1) (AllArgs FiniteRange)))) [].
Definition if_id : fid :=
  Fid [] (tx "IF") 1 0 (Some (scalar_contract (Prec StaticScalar (OneOf [2; 3]) (AllArgs LazyBranch)))) [].
Definition two (n : text) (k : N) : option fid :=
  if text_eqb n (tx "SUM") then Some sum_id else if text_eqb n (tx "IF") then Some if_id else None.
Lemma two_ok : provider_ok two.
Proof.
  intros n k f. unfold two.
  destruct (text_eqb n (tx "SUM")); [| destruct (text_eqb n (tx "IF")); [| discriminate]]; intros E; injection E as <-;
    unfold identity_ok, bytes_ok, contract_ok, arity_ok, args_ok; cbn;
    repeat split; repeat constructor; try reflexivity.
Qed.
Definition cell (row col : N) : ast := ARef [] (RCell None row col false false).
Definition abs_cell (row col : N) : ast := ARef [] (RCell None row col true true).
Definition str (s : String.string) : ast := ALit (LText (tx s)).

(** * C124 *)
Theorem C124_equal_keys_mean_copies : forall ident a1 b1 a2 b2 v1 v2 x y,
  provider_ok ident ->
  supported (t_labels (canonicalize ident a1 b1 v1 x)) = true ->
  supported (t_labels (canonicalize ident a2 b2 v2 y)) = true ->
  (exact_key (canonicalize ident a1 b1 v1 x) = exact_key (canonicalize ident a2 b2 v2 y) <->
   copy ident eq (Z.of_N a2 - Z.of_N a1) (Z.of_N b2 - Z.of_N b1) x y).
Proof. intros ident a1 b1 a2 b2 v1 v2 x y H. exact (exact_keys ident H a1 b1 a2 b2 v1 v2 x y). Qed.
Print Assumptions C124_equal_keys_mean_copies.

(** [=A1+$A$1] in C1 and [=A5+$A$1] in C5 are copies and have one key; [=A6+$A$1] is not. *)
Example C124_example :
  let x := ABin (tx "+") (cell 1 1) (abs_cell 1 1) in
  let y := ABin (tx "+") (cell 5 1) (abs_cell 1 1) in
  let z := ABin (tx "+") (cell 6 1) (abs_cell 1 1) in
  supported (t_labels (canonicalize two 1 3 false x)) = true /\
  supported (t_labels (canonicalize two 5 3 false y)) = true /\
  supported (t_labels (canonicalize two 5 3 false z)) = true /\
  exact_key (canonicalize two 1 3 false x) = exact_key (canonicalize two 5 3 false y) /\
  exact_key (canonicalize two 1 3 false x) <> exact_key (canonicalize two 5 3 false z).
Proof. vm_compute. repeat split; discriminate. Qed.

(** Whether a formula is supported can be read off its key too. *)
Theorem C124_keys_decide_support : forall ident a1 b1 a2 b2 v1 v2 x y,
  provider_ok ident ->
  exact_key (canonicalize ident a1 b1 v1 x) = exact_key (canonicalize ident a2 b2 v2 y) \/
  par_key (canonicalize ident a1 b1 v1 x) = par_key (canonicalize ident a2 b2 v2 y) ->
  t_labels (canonicalize ident a1 b1 v1 x) = t_labels (canonicalize ident a2 b2 v2 y).
Proof.
  intros ident a1 b1 a2 b2 v1 v2 x y H E.
  pose proof (canon_ok ident a1 b1 H x CValue true I) as K1. pose proof (canon_ok ident a2 b2 H y CValue true I) as K2.
  destruct E as [E | E].
  - exact (proj2 (exact_key_inj (canonicalize ident a1 b1 v1 x) (canonicalize ident a2 b2 v2 y) K1 K2 E)).
  - exact (proj2 (par_key_inj (canonicalize ident a1 b1 v1 x) (canonicalize ident a2 b2 v2 y) K1 K2 E)).
Qed.
Print Assumptions C124_keys_decide_support.
Example C124_support_example :
  supported (t_labels (canonicalize two 1 3 false (AFn (tx "NOPE") []))) = false /\
  supported (t_labels (canonicalize two 1 3 false (AFn (tx "SUM") [cell 1 1]))) = true.
Proof. vm_compute. split; reflexivity. Qed.

(** * C125 *)
Theorem C125_equal_parameterized_keys : forall ident a1 b1 a2 b2 v1 v2 x y,
  provider_ok ident ->
  supported (t_labels (canonicalize ident a1 b1 v1 x)) = true ->
  supported (t_labels (canonicalize ident a2 b2 v2 y)) = true ->
  (par_key (canonicalize ident a1 b1 v1 x) = par_key (canonicalize ident a2 b2 v2 y) <->
   copy ident any_scalar (Z.of_N a2 - Z.of_N a1) (Z.of_N b2 - Z.of_N b1) x y).
Proof. intros ident a1 b1 a2 b2 v1 v2 x y H. exact (par_keys ident H a1 b1 a2 b2 v1 v2 x y). Qed.
Print Assumptions C125_equal_parameterized_keys.
Theorem C125_slots_correspond : forall ident a1 b1 a2 b2 v1 v2 x y,
  provider_ok ident ->
  supported (t_labels (canonicalize ident a1 b1 v1 x)) = true ->
  supported (t_labels (canonicalize ident a2 b2 v2 y)) = true ->
  par_key (canonicalize ident a1 b1 v1 x) = par_key (canonicalize ident a2 b2 v2 y) ->
  map s_ctx (t_slots (canonicalize ident a1 b1 v1 x)) = map s_ctx (t_slots (canonicalize ident a2 b2 v2 y)).
Proof. intros ident a1 b1 a2 b2 v1 v2 x y H H1 H2. exact (par_contexts ident H a1 b1 a2 b2 v1 v2 x y H1 H2). Qed.
Print Assumptions C125_slots_correspond.
Theorem C125_slots_are_literals : forall ident a b v x,
  supported (t_labels (canonicalize ident a b v x)) = true ->
  map s_val (t_slots (canonicalize ident a b v x)) = literals x.
Proof.
  intros ident a b v x H. destruct (supported_quiet _ _ _ _ _ H) as (Q & _). exact (quiet_slots ident a b x CValue Q).
Qed.
Print Assumptions C125_slots_are_literals.
(** [=IF(A1="x",1,2)] and [=IF(A2="y",3,2)]: one family, different literals. *)
Example C125_example :
  let f row s n := AFn (tx "IF") [ABin (tx "=") (cell row 1) (str s); ALit (LNum n); ALit (LNum 2)] in
  let t1 := canonicalize two 1 3 false (f 1 "x"%string 1) in
  let t2 := canonicalize two 2 3 false (f 2 "y"%string 3) in
  supported (t_labels t1) = true /\ supported (t_labels t2) = true /\ par_key t1 = par_key t2 /\
  exact_key t1 <> exact_key t2 /\ map s_val (t_slots t2) = [LText (tx "y"); LNum 3; LNum 2] /\
  map s_ctx (t_slots t2) = [SValue; SValue; SValue].
Proof. vm_compute. repeat split; discriminate. Qed.

(** * C126 *)
Ltac addr :=
  repeat match goal with
         | |- addressed _ => constructor
         | |- Forall _ _ => constructor
         | |- ref_in _ => split
         | |- axis_in _ _ => right; split; discriminate
         end.
Theorem C126_placement_evaluates_own_formula_partial : forall ident a1 b1 a2 b2 v1 v2 x y,
  provider_ok ident ->
  supported (t_labels (canonicalize ident a1 b1 v1 x)) = true ->
  supported (t_labels (canonicalize ident a2 b2 v2 y)) = true ->
  par_key (canonicalize ident a1 b1 v1 x) = par_key (canonicalize ident a2 b2 v2 y) ->
  addressed y -> len (literals x) <= 65536 -> repeats_agree (literals x) (literals y) ->
  copy ident eq 0 0 (evaluated x a1 b1 a2 b2 (map s_val (t_slots (canonicalize ident a2 b2 v2 y)))) y.
Proof. exact placement_right. Qed.
Print Assumptions C126_placement_evaluates_own_formula_partial.
Example C126_example :
  let f row s n := AFn (tx "IF") [ABin (tx "=") (cell row 1) (str s); ALit (LNum n); ALit (LNum n)] in
  addressed (f 2 "y"%string 3) /\ repeats_agree (literals (f 1 "x"%string 7)) (literals (f 2 "y"%string 3)) /\
  evaluated (f 1 "x"%string 7) 1 3 2 3 (literals (f 2 "y"%string 3)) = f 2 "y"%string 3.
Proof.
  split; [addr |]. split; [| reflexivity].
  intros i j v K E1 E2. cbn in E1, E2.
  destruct i as [|[|[|i]]]; cbn in E1; try (destruct i; discriminate E1); injection E1 as <-; try destruct K;
    destruct j as [|[|[|j]]]; cbn in E2; try (destruct j; discriminate E2); try discriminate E2; reflexivity.
Qed.

(** [=IF(A1="x","x","")] in C1 and [=IF(A2="y","z","")] in C2: the two "x" of the first
    formula are one node of the arena, so the second is evaluated as
    [=IF(A2="z","z","")]. *)
Definition shared_if (row : N) (s t : String.string) : ast :=
  AFn (tx "IF") [ABin (tx "=") (cell row 1) (str s); str t; str ""].
Theorem C126_placement_evaluates_own_formula_refuted :
  exists ident x y, provider_ok ident /\
    supported (t_labels (canonicalize ident 1 3 false x)) = true /\
    supported (t_labels (canonicalize ident 2 3 false y)) = true /\
    par_key (canonicalize ident 1 3 false x) = par_key (canonicalize ident 2 3 false y) /\
    addressed y /\ len (literals x) <= 65536 /\
    evaluated x 1 3 2 3 (map s_val (t_slots (canonicalize ident 2 3 false y))) = shared_if 2 "z" "z" /\
    y = shared_if 2 "y" "z" /\
    ~ copy ident eq 0 0 (shared_if 2 "z" "z") y.
Proof.
  exists two, (shared_if 1 "x" "x"), (shared_if 2 "y" "z").
  split; [exact two_ok |]. split; [reflexivity |]. split; [reflexivity |].
  split; [vm_compute; reflexivity |]. split; [addr |].
  split; [vm_compute; discriminate |]. split; [vm_compute; reflexivity |]. split; [reflexivity |].
  unfold shared_if. intros H. inversion H; subst.
  match goal with F : Forall2 _ _ _ |- _ => inversion F; subst end.
  match goal with C : copy _ _ _ _ (ABin _ _ _) _ |- _ => inversion C; subst end.
  match goal with L : copy _ _ _ _ (str _) _ |- _ => inversion L; subst end.
  match goal with E : LText _ = LText _ |- _ => discriminate E end.
Qed.
Print Assumptions C126_placement_evaluates_own_formula_refuted.

(** * C127 *)
Theorem C127_span_values : forall world e bindings value interp fine reads_spans dictionary covered origin constant order cancellable placements,
  (forall l, Permutation (order l) l) ->
  (constant = true -> constant_result e bindings origin placements = true) ->
  Permutation
    (r_writes _ (evaluate_task world e bindings reads_spans dictionary value interp fine covered origin constant order cancellable placements))
    (map (fun p => (p, interp (seen world p e) (bindings p))) (filter (fun p => negb (covered p)) placements)).
Proof. intros. apply task_values; assumption. Qed.
Print Assumptions C127_span_values.
Theorem C127_equal_keys_equal_sight : forall world e bindings p q,
  parameter_key world e bindings p = parameter_key world e bindings q ->
  seen world p e = seen world q e /\ bindings p = bindings q.
Proof. exact key_decides. Qed.
Print Assumptions C127_equal_keys_equal_sight.

(** [=A_ * 2] down four rows where column A repeats a value: two groups for four cells. *)
Definition ex_expr : cexpr := EBin (tx "*") (ERef CValue (KCell SCurrent (XRel 0) (XRel (-1)))) (ELit (LNum 2)).
Definition ex_world (s : sheetb) (r c : fixed) : lit := match r with At 3 => LNum 9 | _ => LNum 5 end.
Definition ex_bind (p : place) : list lit := [LNum 2].
Definition ex_task (cancellable : bool) : report (dexpr * list lit) :=
  evaluate_task ex_world ex_expr ex_bind false None (dexpr * list lit) pair (fun _ _ => true) (fun _ => false) (1, 2) false (fun l => l) cancellable
    [(1, 2); (2, 2); (3, 2); (4, 2)].
Example C127_example :
  should_try ex_world ex_expr ex_bind false None [(1, 2); (2, 2); (3, 2); (4, 2)] = true /\
  option_map (@List.length group) (groups ex_world ex_expr ex_bind 4 [(1, 2); (2, 2); (3, 2); (4, 2)] []) = Some 2%nat /\
  map (fun w => (fst w, match fst (snd w) with DBin _ (DValue v) _ => v | _ => LEmpty end)) (r_writes _ (ex_task false)) =
    [((1, 2), LNum 5); ((2, 2), LNum 5); ((4, 2), LNum 5); ((3, 2), LNum 9)].
Proof. vm_compute. repeat split. Qed.
Example C127_constant_example :
  constant_result (ERef CValue (KCell SCurrent (XAbs 1) (XAbs 1))) (fun _ => []) (1, 2) [(1, 2); (2, 2)] = true.
Proof. reflexivity. Qed.

(** * C128 *)
Theorem C128_every_placement_formatted_refuted :
  exists world e bindings placements p,
    let run cancellable := evaluate_task world e bindings false None (dexpr * list lit) pair (fun _ _ => true) (fun _ => false) (1, 2) false
                             (fun l => l) cancellable placements in
    In p (map fst (r_writes _ (run false))) /\ ~ In p (r_formats _ (run false)) /\ In p (r_formats _ (run true)).
Proof.
  exists ex_world, ex_expr, ex_bind, [(1, 2); (2, 2); (3, 2); (4, 2)], (2, 2). vm_compute.
  split; [tauto |]. split; [| tauto]. intros [H | [H | []]]; discriminate H.
Qed.
Print Assumptions C128_every_placement_formatted_refuted.
Theorem C128_every_placement_formatted_partial : forall world e bindings value interp fine reads_spans dictionary covered origin order placements,
  r_formats _ (evaluate_task world e bindings reads_spans dictionary value interp fine covered origin false order true placements)
  = filter (fun p => fine (seen world p e) (bindings p)) (filter (fun p => negb (covered p)) placements).
Proof.
  intros. apply task_formats_single; try reflexivity; discriminate.
Qed.
Print Assumptions C128_every_placement_formatted_partial.
Example C128_example : r_formats _ (ex_task true) = [(1, 2); (2, 2); (3, 2); (4, 2)].
Proof. reflexivity. Qed.
