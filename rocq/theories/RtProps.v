(* Theorems about reading, displaying and planning references. *)
From Coq Require Import List Bool NArith Lia String.
From Verif Require Import Base CoordModel LexModel PrattModel RoundSpec RtModel RtSpec RtProofs RtProofs2 RtProofs3 RtProofs4.
Import ListNotations.
Open Scope N_scope.

(* ---- C86: a displayed reference is the stored reference ---- *)

(* Reading a text, displaying the reference and reading the display gives
   the reference again.  What is missing: the references that are not
   [displayable] (RtSpec.v), for which the statement is false. *)
Theorem C86_displayed_reference_partial : forall d t r,
  read_ref d t = Some r -> displayable r -> parse_ref (show_ref r) = Some (canon r).
Proof. exact display_any. Qed.
Print Assumptions C86_displayed_reference_partial.

Example C86_ex_range : exists r, read_ref DExcel (tx "'it''s 1'!$B:C$7") = Some r /\ displayable r /\
  show_ref r = tx "'it''s 1'!$B:C$7".
Proof. eexists. split; [vm_compute; reflexivity|]. split; [discriminate|reflexivity]. Qed.
Example C86_ex_table : exists r, read_ref DExcel (tx "Sales[[#Headers],[Q 1]:[Q,2]]") = Some r /\ displayable r /\
  r = RTable (tx "Sales") (Some (SpComb [SpItem IHeaders; SpRange (tx "Q 1") (tx "Q,2")])).
Proof.
  eexists. split; [vm_compute; reflexivity|]. split; [|reflexivity].
  repeat split; try reflexivity. repeat constructor; discriminate.
Qed.
Example C86_ex_3d : exists r, read_ref DExcel (tx "Jan:'Dec 1'!A1") = Some r /\ displayable r /\
  r = RCell3 (tx "Jan") (tx "Dec 1") 1 1 false false.
Proof.
  eexists. split; [vm_compute; reflexivity|]. split; [|reflexivity].
  split; [right|left]; repeat split; reflexivity.
Qed.

(* A reference that is read, whose display is rejected or is read as another
   reference. *)
Definition unstable (t : text) (after : option reft) : Prop :=
  exists r, parse_ref t = Some r /\ parse_ref (show_ref r) = after /\ after <> Some (canon r).
Theorem C86_displayed_reference_refuted :
  (* a column whose name begins with '#' cannot be read again *)
  unstable (tx "T['#Item]") None /\
  (* one column turns into a range of two *)
  unstable (tx "T[a':b]") (Some (RTable (tx "T") (Some (SpRange (tx "a") (tx "b"))))) /\
  (* the column '@x' turns into the cell of this row in column x *)
  unstable (tx "T['@x]") (Some (RTable (tx "T") (Some (SpComb [SpItem IThisRow; SpCol (tx "x")])))) /\
  (* a cell turns into a name *)
  unstable (tx "''!A1") (Some (RName (tx "!A1"))) /\
  (* a table turns into another table *)
  unstable (tx "a!b!c[x]") (Some (RTable (tx "c") (Some (SpCol (tx "x"))))) /\
  (* a table turns into a name *)
  unstable (tx "R1C[ 2]") (Some (RName (tx "R1C[2]"))).
Proof.
  repeat split; (eexists; split; [vm_compute; reflexivity|]; split; [vm_compute; reflexivity|]); vm_compute; discriminate.
Qed.
Print Assumptions C86_displayed_reference_refuted.

(* The workbook of an external sheet is what stands between the last opening
   bracket and the next closing one, with all that is before it. *)
Lemma rcut_app : forall c a b, memc c b = false -> rcut c (a ++ c :: b) = Some (a, b).
Proof.
  intros c a b H. assert (Q : rcut c b = None).
  { revert H. induction b as [|x b IH]; [reflexivity|]. rewrite memc_cons, (N.eqb_sym c x). cbn [rcut].
    destruct (x =? c); [discriminate|]. cbn [orb]. intros H. rewrite IH by exact H. reflexivity. }
  induction a as [|x a IH]; cbn [app rcut]; [rewrite Q, N.eqb_refl; reflexivity|rewrite IH; reflexivity].
Qed.
Theorem C86_external_workbook : forall pre book sheet,
  memc c_lb book = false -> memc c_rb book = false -> memc c_lb sheet = false -> sheet <> [] ->
  external_sheet (pre ++ c_lb :: book ++ c_rb :: sheet) = Some (pre ++ c_lb :: book ++ [c_rb], sheet).
Proof.
  intros pre book sheet B1 B2 S1 S2. unfold external_sheet. rewrite rcut_app.
  - rewrite cut_app by exact B2. destruct sheet; [contradiction|reflexivity].
  - rewrite memc_app, memc_cons, B1, S1. reflexivity.
Qed.
Print Assumptions C86_external_workbook.
(* Blanks before the item of a structured reference do not matter. *)
Theorem C86_blanks_before_items : forall ws s, Forall (fun c => item_ws c = true) ws -> parse_item (ws ++ s) = parse_item s.
Proof.
  intros ws s W. unfold parse_item. assert (Q : skip_item_ws (ws ++ s) = skip_item_ws s).
  { unfold skip_item_ws. induction W as [|c ws H W IH]; [reflexivity|]. cbn [app drop_while]. rewrite H. exact IH. }
  rewrite Q. reflexivity.
Qed.
Print Assumptions C86_blanks_before_items.
Example C86_ex_blanks : parse_ref (tx "T[[#Data] , [a] : [b]]") = parse_ref (tx "T[[#Data],[a]:[b]]") /\
  parse_ref (tx "T[[#Data],[a]:[b]]") <> None /\
  external_sheet (tx "C:\x[1]\[b.xlsx]S") = Some (tx "C:\x[1]\[b.xlsx]", tx "S").
Proof. repeat split; vm_compute; congruence. Qed.

(* ---- C87: a reference stays on the sheet ---- *)

(* Cells are on the sheet; of a range only the columns are. *)
Theorem C87_reference_bounds_partial : forall d t r, read_ref d t = Some r -> ref_bounds r.
Proof. exact bounds_any. Qed.
Print Assumptions C87_reference_bounds_partial.
Example C87_ex_bounds : exists r, read_ref DExcel (tx "XFD1048576") = Some r /\ r = RCell None rows cols false false.
Proof. eexists. split; vm_compute; reflexivity. Qed.

(* A range below the last row is read, and planning its dependencies stops
   the program, with the default policy (expand up to 64 cells). *)
Theorem C87_entering_a_formula_panics_refuted :
  exists t b, parse_ref t = Some (RRange None b) /\ plan_box true 64 b = Panic.
Proof.
  exists (tx "A2000000:A2000001"). eexists. split; [vm_compute; reflexivity|]. vm_compute. reflexivity.
Qed.
Print Assumptions C87_entering_a_formula_panics_refuted.

(* It stops exactly for the ranges that are written out cell by cell and end
   below the last row. *)
Theorem C87_panics_exactly : forall d t sh b expand limit, read_ref d t = Some (RRange sh b) ->
  (plan_box expand limit b = Panic <->
   expanded expand limit b /\ exists i a, b_er b = Some (i, a) /\ rows < i).
Proof. intros d t sh b expand limit H. apply plan_panics. apply read_wf in H. apply H. Qed.
Print Assumptions C87_panics_exactly.
Theorem C87_cells_never_panic : forall d t sh row col ra ca, read_ref d t = Some (RCell sh row col ra ca) ->
  plan_cell row col = Ok [DCell (row - 1) (col - 1)].
Proof.
  intros d t sh row col ra ca H. apply read_wf in H. destruct H as (_ & H1 & H2). unfold plan_cell. cbn [all_ok].
  rewrite cell_dep_eval by (unfold cols; lia).
  assert (Q : rows <? row = false) by (apply N.ltb_ge; unfold rows; lia). rewrite Q. reflexivity.
Qed.
Print Assumptions C87_cells_never_panic.

(* ---- C88: the dependencies of a range are its cells ---- *)

Theorem C88_dependencies_cover_the_range : forall d t sh b expand limit deps,
  read_ref d t = Some (RRange sh b) -> box_in_order b -> plan_box expand limit b = Ok deps ->
  forall r c, (exists p, In p deps /\ dep_covers p r c) <-> inside b r c.
Proof. intros d t sh b expand limit deps H. apply plan_covers. apply read_wf in H. apply H. Qed.
Print Assumptions C88_dependencies_cover_the_range.
Example C88_ex_small : exists b deps, read_ref DExcel (tx "B2:C3") = Some (RRange None b) /\ box_in_order b /\
  plan_box true 64 b = Ok deps /\ deps = [DCell 1 1; DCell 1 2; DCell 2 1; DCell 2 2].
Proof. do 2 eexists. repeat split; vm_compute; reflexivity. Qed.
Example C88_ex_open : exists b deps, read_ref DExcel (tx "B7:C") = Some (RRange None b) /\ box_in_order b /\
  plan_box true 64 b = Ok deps /\ deps = [DRange (Some 6) (Some 1) None (Some 2)].
Proof. do 2 eexists. repeat split; vm_compute; reflexivity. Qed.

(* The same rectangle written from its other corner has no dependencies. *)
Theorem C88_corner_order_refuted :
  (exists t u b b', parse_ref t = Some (RRange None b) /\ parse_ref u = Some (RRange None b') /\
     b' = Box (b_er b) (b_ec b) (b_sr b) (b_sc b) /\
     (exists deps, plan_box true 64 b = Ok deps /\ deps <> []) /\ plan_box true 64 b' = Err ERef) /\
  (exists t u b b', parse_ref t = Some (RRange None b) /\ parse_ref u = Some (RRange None b') /\
     b' = Box (b_er b) (b_ec b) (b_sr b) (b_sc b) /\
     (exists deps, plan_box true 64 b = Ok deps /\ deps <> []) /\ plan_box true 64 b' = Ok []).
Proof.
  split.
  - exists (tx "A2:B3"), (tx "B3:A2"). do 2 eexists. split; [vm_compute; reflexivity|]. split; [vm_compute; reflexivity|].
    split; [reflexivity|]. split; [|vm_compute; reflexivity]. eexists. split; [vm_compute; reflexivity|discriminate].
  - exists (tx "A:B"), (tx "B:A"). do 2 eexists. split; [vm_compute; reflexivity|]. split; [vm_compute; reflexivity|].
    split; [reflexivity|]. split; [|vm_compute; reflexivity]. eexists. split; [vm_compute; reflexivity|discriminate].
Qed.
Print Assumptions C88_corner_order_refuted.
Theorem C88_corners_out_of_order : forall expand limit b, ~ box_in_order b ->
  plan_box expand limit b = Err ERef \/ plan_box expand limit b = Ok [].
Proof. exact plan_reversed. Qed.
Print Assumptions C88_corners_out_of_order.

(* ---- C89: references over several sheets ---- *)

(* Each sheet quoted on its own. *)
Theorem C89_quoted_separately_partial : forall f l row col ra ca,
  f <> [] -> l <> [] -> name_3d f -> name_3d l -> 1 <= row <= rows -> 1 <= col <= cols ->
  parse_ref (sheet_text f ++ c_colon :: sheet_text l ++ c_bang :: cell_text row col ra ca)
  = Some (RCell3 f l row col ra ca).
Proof. exact read_cell3. Qed.
Print Assumptions C89_quoted_separately_partial.
Example C89_ex : sheet_text (tx "Jan 1") ++ c_colon :: sheet_text (tx "Dec") ++ c_bang :: cell_text 7 3 true false
  = tx "'Jan 1':Dec!C$7" /\ name_3d (tx "Jan 1") /\ name_3d (tx "Dec").
Proof. split; [reflexivity|]. split; [left|right]; repeat split; reflexivity. Qed.
(* Quoted together, as Excel writes it: always one sheet. *)
Theorem C89_quoted_together_refuted : forall f l row col ra ca,
  external_sheet (f ++ c_colon :: l) = None -> 1 <= row <= rows -> 1 <= col <= cols ->
  parse_ref (c_sq :: double_q (f ++ c_colon :: l) ++ c_sq :: c_bang :: cell_text row col ra ca)
  = Some (RCell (Some (f ++ c_colon :: l)) row col ra ca).
Proof. exact read_3d_quoted. Qed.
Print Assumptions C89_quoted_together_refuted.
Example C89_ex_together :
  c_sq :: double_q (tx "Jan 1" ++ c_colon :: tx "Dec") ++ c_sq :: c_bang :: cell_text 1 1 false false
  = tx "'Jan 1:Dec'!A1" /\ external_sheet (tx "Jan 1" ++ c_colon :: tx "Dec") = None.
Proof. split; reflexivity. Qed.

(* ---- C90: any column of a table can be named ---- *)

Theorem C90_escaped_column_partial : forall n c,
  n <> [] -> trim n = n -> memc c_lb n = false -> c <> [] -> trim c = c ->
  memc c_bang (n ++ bracket (escape c)) = false -> r1c1_shape (n ++ bracket (escape c)) = false ->
  parse_ref (n ++ bracket (escape c)) = Some (RTable n (Some (SpCol c))).
Proof. exact read_column. Qed.
Print Assumptions C90_escaped_column_partial.
Theorem C90_escaped_this_row_partial : forall n c,
  n <> [] -> trim n = n -> memc c_lb n = false -> c <> [] -> trim c = c ->
  memc c_bang (n ++ bracket (c_at :: bracket (escape c))) = false ->
  r1c1_shape (n ++ bracket (c_at :: bracket (escape c))) = false ->
  parse_ref (n ++ bracket (c_at :: bracket (escape c))) = Some (RTable n (Some (SpComb [SpItem IThisRow; SpCol c]))).
Proof. exact read_this_row. Qed.
Print Assumptions C90_escaped_this_row_partial.
Example C90_ex : tx "Sales" ++ bracket (escape (tx "#[it's]: a,b")) = tx "Sales['#'[it''s']': a',b]" /\
  memc c_bang (tx "Sales" ++ bracket (escape (tx "#[it's]: a,b"))) = false /\
  r1c1_shape (tx "Sales" ++ bracket (escape (tx "#[it's]: a,b"))) = false /\
  trim (tx "#[it's]: a,b") = tx "#[it's]: a,b".
Proof. repeat split; vm_compute; reflexivity. Qed.
(* A column with an exclamation mark is always read as a defined name. *)
Theorem C90_exclamation_mark_refuted : forall n a b,
  Forall (fun x => bare_byte x = true) n -> Forall (fun x => bare_byte x = true) a ->
  n <> [] -> memc c_lb n = false -> memc c_lb b = false -> memc c_colon b = false ->
  parse_ref (n ++ bracket (a ++ c_bang :: b)) = Some (RName (n ++ bracket (a ++ c_bang :: b))).
Proof. exact read_bang. Qed.
Print Assumptions C90_exclamation_mark_refuted.
Example C90_ex_bang : parse_ref (tx "Sales[Wow!]") = Some (RName (tx "Sales[Wow!]")).
Proof.
  apply (C90_exclamation_mark_refuted (tx "Sales") (tx "Wow") []); try reflexivity; try discriminate;
    repeat constructor.
Qed.

(* ---- C91: references in OpenFormula notation ---- *)

Theorem C91_open_cell_partial : forall sh row col ra ca,
  sheet_no_colon sh -> strip_abs sh <> Some [] -> no_ext (strip_abs sh) ->
  1 <= row <= rows -> 1 <= col <= cols ->
  read_ref DOpen (open_ref (open_cell sh (cell_text row col ra ca))) = Some (RCell (strip_abs sh) row col ra ca).
Proof. exact read_open_cell. Qed.
Print Assumptions C91_open_cell_partial.
Theorem C91_open_range_partial : forall sh sh2 b,
  sheet_no_colon sh -> strip_abs sh <> Some [] -> no_ext (strip_abs sh) ->
  (strip_abs sh2 = None \/ strip_abs sh2 = strip_abs sh) -> box_ok b ->
  read_ref DOpen (open_ref (open_cell sh (corner_text (b_sc b) (b_sr b)) ++ c_colon
                           :: open_cell sh2 (corner_text (b_ec b) (b_er b)))) = Some (RRange (strip_abs sh) b).
Proof. exact read_open_box. Qed.
Print Assumptions C91_open_range_partial.
Example C91_ex : open_ref (open_cell (Some (true, tx "it's. 1")) (cell_text 1 1 false false) ++ c_colon
   :: open_cell None (cell_text 2 2 true true)) = tx "[$'it''s. 1'.A1:.$B$2]" /\
  box_ok (Box (Some (1, false)) (Some (1, false)) (Some (2, true)) (Some (2, true))).
Proof. split; [reflexivity|]. repeat split; cbn; try lia; right; discriminate. Qed.
(* The sheet may stand with the second corner alone. *)
Theorem C91_second_sheet_partial : forall sh b,
  strip_abs sh <> Some [] -> no_ext (strip_abs sh) -> box_ok b ->
  read_ref DOpen (open_ref (open_cell None (corner_text (b_sc b) (b_sr b)) ++ c_colon
                           :: open_cell sh (corner_text (b_ec b) (b_er b)))) = Some (RRange (strip_abs sh) b).
Proof.
  intros sh b Hn He Hb. cbn [read_ref]. pose proof Hb as [C1 C2].
  set (x := open_cell None (corner_text (b_sc b) (b_sr b))). set (y := open_cell sh (corner_text (b_ec b) (b_er b))).
  assert (Hc : memc c_colon x = false) by (apply open_no_colon; [exact I|apply corner_bytes; auto]).
  assert (Hx : x <> []) by apply open_nonempty.
  assert (P1 : of_part x = Some (strip_abs None, corner_text (b_sc b) (b_sr b)))
    by (apply part_any; [apply corner_nonempty|apply corner_bytes]; auto).
  assert (P2 : of_part y = Some (strip_abs sh, corner_text (b_ec b) (b_er b)))
    by (apply part_any; [apply corner_nonempty|apply corner_bytes]; auto).
  cbn [strip_abs] in P1.
  assert (Q : parse_open (open_ref (x ++ c_colon :: y))
    = parse_ref (match strip_abs sh with Some n => sheet_text n ++ [c_bang] | None => [] end
                 ++ corner_text (b_sc b) (b_sr b) ++ c_colon :: corner_text (b_ec b) (b_er b))).
  { clearbody x y. unfold parse_open, open_ref.
    destruct ((x ++ c_colon :: y) ++ [c_rb]) as [|u v] eqn:E; [destruct x; discriminate|].
    rewrite <- E, last_last, !N.eqb_refl, removelast_last. cbn [andb].
    destruct (x ++ c_colon :: y) as [|i j] eqn:E2; [destruct x; discriminate|].
    rewrite <- E2, cut_app, P1, P2 by auto. reflexivity. }
  rewrite Q. pose proof (read_box (strip_abs sh) b Hn He Hb) as R. unfold box_text in R.
  destruct (strip_abs sh) as [n|]; cbn [with_sheet] in R; [rewrite <- app_assoc|]; cbn [app]; rewrite R; reflexivity.
Qed.
Print Assumptions C91_second_sheet_partial.
Example C91_ex_second : read_ref DOpen (tx "[.A1:$'a b'.B2]")
  = Some (RRange (Some (tx "a b")) (Box (Some (1, false)) (Some (1, false)) (Some (2, false)) (Some (2, false)))).
Proof. vm_compute. reflexivity. Qed.
(* Corners on two sheets, and a quoted sheet name with a colon, are read as
   columns of a table. *)
Theorem C91_mismatch_accepted_refuted :
  read_ref DOpen (tx "[Sheet1.A1:Sheet2.B2]")
  = Some (RTable [] (Some (SpRange (tx "Sheet1.A1") (tx "Sheet2.B2")))) /\
  read_ref DOpen (tx "[$'a:b'.A1]") = Some (RTable [] (Some (SpRange (tx "$a") (tx "b.A1")))).
Proof. split; vm_compute; reflexivity. Qed.
Print Assumptions C91_mismatch_accepted_refuted.

(* ---- C79, with this reading and display of references ---- *)

(* Every reference to a cell or a range that was read satisfies what the
   round trip of formulas asks of references. *)
Theorem C79_cell_and_range_references : forall num pnum d0 d t r,
  number_like (is_num num pnum) -> read_ref d0 t = Some r -> on_grid r ->
  ref_ok num reft pnum (read_ref d) show_ref d r.
Proof. exact reference_ok. Qed.
Print Assumptions C79_cell_and_range_references.
Example C79_ex_reference : exists r, read_ref DOpen (tx "[$'it''s'.A1:.B2]") = Some r /\ on_grid r /\
  show_ref r = tx "'it''s'!A1:B2".
Proof. eexists. split; [vm_compute; reflexivity|]. split; [|reflexivity]. repeat split; try reflexivity; discriminate. Qed.
