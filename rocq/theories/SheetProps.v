(** C40: sheet names identify sheets; C52: renaming takes effect; C41: interned strings.
    crates/formualizer-eval/src/engine/sheet_registry.rs, engine/graph/sheets.rs,
    engine/arena/string_interner.rs *)
From Verif Require Import Base Maps SheetModel SheetSpec SheetProofs InternModel InternProofs.
Local Open Scope N_scope.

Theorem C40_lookup_any_case :
  forall lower, lower_ok lower -> forall g id n, reg_reach lower g -> live g id ->
    lower n = lower (sheet_name g id) -> get_id lower g n = Some id.
Proof. exact SheetProofs.lookup. Qed.
Print Assumptions C40_lookup_any_case.

Theorem C40_lookup_only_live :
  forall lower, lower_ok lower -> forall g id n, reg_reach lower g -> get_id lower g n = Some id ->
    live g id /\ lower (sheet_name g id) = lower n.
Proof. exact lookup_only. Qed.
Print Assumptions C40_lookup_only_live.

Theorem C40_live_names_differ :
  forall lower, lower_ok lower -> forall g i j, reg_reach lower g -> live g i -> live g j ->
    lower (sheet_name g i) = lower (sheet_name g j) -> i = j.
Proof. exact distinct. Qed.
Print Assumptions C40_live_names_differ.

(** A new sheet gets an id no sheet ever had, and disturbs no other sheet. *)
Theorem C40_create_fresh :
  forall lower, lower_ok lower -> forall g n, reg_reach lower g -> n <> [] -> N.of_nat (length (names g)) < 65536 ->
    get_id lower g n = None ->
    let '(g', id) := id_for lower g n in
    id = N.of_nat (length (names g)) /\ (forall j, sheet_name g' j = if j =? id then n else sheet_name g j).
Proof. exact create_fresh. Qed.
Print Assumptions C40_create_fresh.

Theorem C40_live_ids_below_created :
  forall lower g id, reg_reach lower g -> live g id -> id < N.of_nat (length (names g)).
Proof. exact ids_used. Qed.
Print Assumptions C40_live_ids_below_created.

Theorem C40_create_existing :
  forall lower g n id, get_id lower g n = Some id -> id_for lower g n = (g, id).
Proof. exact create_existing. Qed.
Print Assumptions C40_create_existing.

Theorem C40_remove_only_that_sheet :
  forall lower, lower_ok lower -> forall g id g', reg_reach lower g -> reg_remove lower g id = Ok g' ->
    (forall j, sheet_name g' j = if j =? id then [] else sheet_name g j) /\
    (forall n, get_id lower g' n = match get_id lower g n with
                                    | Some e => if e =? id then None else Some e
                                    | None => None end).
Proof. exact remove_spec. Qed.
Print Assumptions C40_remove_only_that_sheet.

Theorem C40_rename_only_that_sheet :
  forall lower, lower_ok lower -> forall g id n g', reg_reach lower g -> n <> [] -> reg_rename lower g id n = Ok g' ->
    (forall j, sheet_name g' j = if j =? id then n else sheet_name g j) /\
    (forall m, get_id lower g' m =
       if text_eqb (lower m) (lower n) then Some id
       else match get_id lower g m with
            | Some e => if e =? id then None else Some e
            | None => None end).
Proof. exact rename_spec. Qed.
Print Assumptions C40_rename_only_that_sheet.

Theorem C40_rename_refused_iff_taken :
  forall lower, lower_ok lower -> forall g id n, reg_reach lower g ->
    ((exists g', reg_rename lower g id n = Ok g') <->
     (id < N.of_nat (length (names g)) /\ forall j, live g j -> lower (sheet_name g j) = lower n -> j = id)).
Proof. exact rename_ok_iff. Qed.
Print Assumptions C40_rename_refused_iff_taken.

(** Positions number the live sheets 1, 2, ... in id order. *)
Theorem C40_positions :
  forall g,
    (forall id p, active_position_by_id g id = Some p -> (1 <= p <= active_len g)%nat) /\
    (forall p, (1 <= p <= active_len g)%nat -> exists id, live g id /\ active_position_by_id g id = Some p) /\
    (forall i j p q, live g i -> live g j ->
       active_position_by_id g i = Some p -> active_position_by_id g j = Some q -> (i < j <-> (p < q)%nat)) /\
    (forall id, sheet_name g id = [] -> active_position_by_id g id = None).
Proof.
  intros g. split; [exact (position_bound g)|]. split; [exact (position_onto g)|].
  split; [exact (position_order g)|exact (position_dead g)].
Qed.
Print Assumptions C40_positions.

Theorem C40_span_counts :
  forall lower g a b i j p q, reg_reach lower g ->
    get_id lower g a = Some i -> get_id lower g b = Some j ->
    active_position_by_id g i = Some p -> active_position_by_id g j = Some q -> (p <= q)%nat ->
    active_span_len lower g a b = Some (q - p + 1)%nat /\ active_span_len lower g b a = Some (q - p + 1)%nat.
Proof. exact span_spec. Qed.
Print Assumptions C40_span_counts.

Theorem C40_listing :
  forall lower, lower_ok lower -> forall g id n, reg_reach lower g ->
    (In (id, n) (all_sheets g) <-> live g id /\ sheet_name g id = n).
Proof. exact all_sheets_spec. Qed.
Print Assumptions C40_listing.

Theorem C40_never_without_sheet :
  forall lower, lower_ok lower -> forall g id g', reg_reach lower g -> remove_sheet lower g id = Ok g' ->
    reg_reach lower g' /\ exists j, live g' j.
Proof. exact (fun l H => remove_sheet_keeps_one l H (fun _ => 0)). Qed.
Print Assumptions C40_never_without_sheet.

(** The hypotheses are met: ASCII lowering, three sheets, one renamed, one removed. *)
Definition ascii_lower (t : text) : text := map to_ascii_lower t.
Example C40_ex :
  lower_ok ascii_lower /\
  exists g, reg_reach ascii_lower g /\ (length (names g) = 3)%nat /\
    get_id ascii_lower g [66; 98] = Some 1 /\ get_id ascii_lower g [98; 98] = Some 1 /\
    get_id ascii_lower g [97] = None /\ active_position ascii_lower g [99] = Some 2%nat.
Proof.
  split.
  - intros [|c t] H; [reflexivity|discriminate].
  - exists (mkReg [([98; 98], 1); ([99], 2)] [[]; [66; 98]; [67]]).
    split; [|vm_compute; repeat split].
    pose (L := ascii_lower).
    pose (g1 := fst (id_for L reg_new [65])). pose (g2 := fst (id_for L g1 [66])).
    pose (g3 := fst (id_for L g2 [67])).
    assert (R3 : reg_reach L g3).
    { unfold g3, g2, g1. repeat apply rr_create; try discriminate; try reflexivity. constructor. }
    pose (g4 := mkReg [([99], 2); ([98], 1)] [[]; [66]; [67]]).
    assert (R4 : reg_reach L g4) by (apply (rr_remove L g3 0 g4 R3); reflexivity).
    apply (rr_rename L g4 1 [66; 98] _ R4); [discriminate|reflexivity].
Qed.

(** The 65537th creation hands out id 0 again while sheet 0 is alive ([len() as u16]):
    both names then lead to the same sheet. *)
Theorem C40_ids_never_reused_refuted :
  exists lower g n m, lower_ok lower /\ reg_reach_any lower g /\ n <> [] /\
    get_id lower g n = None /\ snd (id_for lower g n) = 0 /\
    sheet_name g 0 = m /\ m <> [] /\ m <> n /\
    get_id lower (fst (id_for lower g n)) m = get_id lower (fst (id_for lower g n)) n.
Proof. exact id_wraps. Qed.
Print Assumptions C40_ids_never_reused_refuted.

(** [add_sheet] accepts the empty name and creates a sheet that is not listed. *)
Theorem C40_added_sheet_is_listed_refuted :
  exists lower g name, lower_ok lower /\ reg_reach lower g /\
    let '(g', id) := add_sheet lower g name in ~ In id (map fst (all_sheets g')).
Proof.
  exists (fun t => t), reg_new, []. split; [intros t H; exact H|]. split; [constructor|]. cbn. tauto.
Qed.
Print Assumptions C40_added_sheet_is_listed_refuted.

(** ** C52 *)
Theorem C52_rename_sheet :
  forall lower, lower_ok lower -> forall bytes g id n g', reg_reach lower g ->
    rename_sheet lower bytes g id n = Ok g' ->
    reg_reach lower g' /\ live g id /\ n <> [] /\ lower (sheet_name g' id) = lower n /\
    (forall j, j <> id -> sheet_name g' j = sheet_name g j) /\
    (get_id lower g n = None -> sheet_name g' id = n) /\
    (get_id lower g n <> None -> g' = g).
Proof. exact rename_sheet_spec. Qed.
Print Assumptions C52_rename_sheet.

(** Renaming "Data" to "DATA" reports success and changes nothing. *)
Theorem C52_successful_rename_takes_effect_refuted :
  exists lower bytes g id n g', lower_ok lower /\ reg_reach lower g /\
    rename_sheet lower bytes g id n = Ok g' /\ sheet_name g' id <> n.
Proof.
  exists ascii_lower, (fun t => N.of_nat (length t)), (fst (id_for ascii_lower reg_new [68; 97; 116; 97])), 0,
         [68; 65; 84; 65], (fst (id_for ascii_lower reg_new [68; 97; 116; 97])).
  split; [intros [|c t] H; [reflexivity|discriminate]|].
  split; [apply rr_create; [constructor|discriminate|reflexivity]|].
  split; [reflexivity|vm_compute; discriminate].
Qed.
Print Assumptions C52_successful_rename_takes_effect_refuted.

(** ** C41 *)
Theorem C41_resolve_intern :
  forall g s g' id, int_reach g -> intern g s = Ok (g', id) -> int_resolve g' id = Ok s.
Proof. exact intern_resolve. Qed.
Print Assumptions C41_resolve_intern.

(** Handles taken at different times are equal exactly if the strings are. *)
Theorem C41_handles_equal_iff :
  forall g s g1 i h t h1 j, int_reach g -> intern g s = Ok (g1, i) -> later g1 h ->
    intern h t = Ok (h1, j) -> (i = j <-> s = t).
Proof. exact handles_equal. Qed.
Print Assumptions C41_handles_equal_iff.

Theorem C41_handles_stay_valid :
  forall g h i t, int_reach g -> later g h -> int_get g i = Some t -> int_get h i = Some t.
Proof. exact later_get. Qed.
Print Assumptions C41_handles_stay_valid.

Theorem C41_intern_total :
  forall g s, int_reach g -> N.of_nat (length (strings g)) < INVALID_ID ->
    exists g' id, intern g s = Ok (g', id) /\ id <> INVALID_ID /\
      (int_contains g s = true -> g' = g) /\ int_contains g' s = true.
Proof. exact intern_total. Qed.
Print Assumptions C41_intern_total.

Theorem C41_get_id_inverse :
  forall g s id, int_reach g -> (int_get_id g s = Some id <-> int_get g id = Some s).
Proof. exact get_id_spec. Qed.
Print Assumptions C41_get_id_inverse.

Example C41_ex : exists g1 g2 g3, intern int_new [97] = Ok (g1, 0) /\ intern g1 [98] = Ok (g2, 1) /\
  intern g2 [97] = Ok (g3, 0) /\ int_resolve g3 1 = Ok [98] /\ int_reach g3.
Proof.
  pose (g1 := mkInt [[97]] [([97], 0)]). pose (g2 := mkInt [[97]; [98]] [([98], 1); ([97], 0)]).
  assert (H1 : intern int_new [97] = Ok (g1, 0)) by reflexivity.
  assert (H2 : intern g1 [98] = Ok (g2, 1)) by reflexivity.
  exists g1, g2, g2. repeat (split; [reflexivity|]).
  exact (ir_step _ _ _ _ (ir_step _ _ _ _ ir_new H1) H2).
Qed.
