(** Criteria and the functions that count and add by them: C138 to C143. *)
From Coq Require Import String QArith Permutation.
From Verif Require Import Base Maps WildSpec CrModel CrSpec CrProofs1 CrProofs2 CrProofs3.
Close Scope Q_scope.

(** A library for the examples: it knows the few texts used below. *)
Definition ex_lower (s : text) : text := List.map to_ascii_lower s.
Definition ex_parse (s : text) : option num :=
  if text_eqb s (tx "0"%string) then Some (Fin 0%Q) else
  if text_eqb s (tx "5"%string) then Some (Fin 5%Q) else
  if text_eqb s (tx "7"%string) then Some (Fin 7%Q) else
  if text_eqb s (tx "nan"%string) then Some NaN else
  if text_eqb s (tx "inf"%string) then Some PInf else None.
Definition ex_show (n : num) : text := match n with Fin _ => tx "5"%string | _ => tx "NaN"%string end.
Definition ex_showz (z : Z) : text := tx "1"%string.
Example library_example : library ex_lower ex_parse ex_show.
Proof. constructor; [reflexivity | repeat split | reflexivity | repeat split | repeat split]. Qed.

Ltac low H := rewrite !(lib_lower _ _ _ H) by (repeat constructor).

(** * C138: wildcards *)

(** A wildcard criterion without a tilde matches exactly the text its pattern
    stands for, if the pattern has no question mark or the text is ASCII.
    Missing: tildes, and question marks before other characters; see below. *)
Theorem C138_wildcards_partial : forall p t, ~ In 126%N p -> code_points p -> code_points t ->
  (~ In 63%N p \/ ascii t) -> (like p t = true <-> glob p t).
Proof. exact like_glob. Qed.
Print Assumptions C138_wildcards_partial.

(** The pattern that the engine hands to arrow for a criterion means the same,
    question marks included, if it has none of arrow's own special characters. *)
Theorem C138_translation : forall p t, ~ In 126%N p -> ~ In 37%N p -> ~ In 95%N p -> ~ In 92%N p ->
  (sql_like (to_sql p) t = true <-> glob p t).
Proof.
  intros p t H H1 H2 H3. rewrite sql_helper by (split; [assumption | split; assumption]). now apply helper_glob.
Qed.
Print Assumptions C138_translation.

(** A question mark stands for one byte: ["caf?"] does not match ["café"], and
    ["caf??"] does. *)
Theorem C138_byte_refuted :
  like (tx "caf?"%string) (tx "caf"%string ++ [233%N]) = false /\
  glob (tx "caf?"%string) (tx "caf"%string ++ [233%N]) /\
  like (tx "caf??"%string) (tx "caf"%string ++ [233%N]) = true /\
  ~ glob (tx "caf??"%string) (tx "caf"%string ++ [233%N]).
Proof.
  split; [vm_compute; reflexivity|]. split; [|split; [vm_compute; reflexivity|]].
  - cbn. do 3 (apply glob_char; [discriminate | discriminate | discriminate|]). apply glob_quest. constructor.
  - intros H. apply helper_glob in H; [vm_compute in H; discriminate|]. cbn. intuition discriminate.
Qed.
Print Assumptions C138_byte_refuted.

(** A tilde does not take the next character as it is: ["~*"] does not match
    ["*"], and matches ["~abc"]. *)
Theorem C138_escape_refuted :
  like (tx "~*"%string) (tx "*"%string) = false /\ glob (tx "~*"%string) (tx "*"%string) /\
  like (tx "~*"%string) (tx "~abc"%string) = true /\ ~ glob (tx "~*"%string) (tx "~abc"%string) /\
  like (tx "~?"%string) (tx "?"%string) = false /\ glob (tx "~?"%string) (tx "?"%string).
Proof.
  split; [reflexivity|]. split; [apply glob_esc; constructor|]. split; [reflexivity|]. split; [|split; [reflexivity|]].
  - intros H. cbn in H. inversion H; subst. congruence.
  - apply glob_esc. constructor.
Qed.
Print Assumptions C138_escape_refuted.
Example C138_example : like (tx "a*b?d"%string) (tx "axxbcd"%string) = true /\ like (tx "*a*"%string) (tx "bb"%string) = false.
Proof. split; reflexivity. Qed.

Section WithLibrary.
Variable lower : text -> text.
Variable pf : text -> option num.
Variable show : num -> text.
Variable showz : Z -> text.
Notation countif := (countif lower pf show showz).
Notation countifs := (countifs lower pf show showz).
Notation sumif := (sumif lower pf show showz).
Notation sumifs := (sumifs lower pf show showz).
Notation criterion := (parse_text pf).

(** * C139: what a criterion asks of one cell *)

(** COUNTIFS of a single cell reads its value and asks [criteria_match]. *)
Lemma countifs_single : forall e x p,
  countifs e [(one x, p)] = if criteria_match lower pf show showz p (c_val x) then 1 else 0.
Proof.
  intros e x p. unfold CrModel.countifs. cbn [List.map].
  change (broadcast (one x) p) with {| k_view := None; k_pred := p; k_val := Some (c_val x) |}.
  unfold CrModel.collect. cbn [driver first_view k_view dims fold_left fst snd Nat.mul Nat.add forallb k_pred k_val].
  destruct (criteria_match lower pf show showz p (c_val x)); reflexivity.
Qed.

(** COUNTIF asks exactly the comparison of a stored number. *)
Theorem C139_numbers : forall o n x, n <> NaN -> x <> NaN ->
  (countif true (one {| c_over := o; c_val := VNum x |}) (PGt n) = 1 <-> below n x) /\
  (countif true (one {| c_over := o; c_val := VNum x |}) (PGe n) = 1 <-> below n x \/ same n x) /\
  (countif true (one {| c_over := o; c_val := VNum x |}) (PLt n) = 1 <-> below x n) /\
  (countif true (one {| c_over := o; c_val := VNum x |}) (PLe n) = 1 <-> below x n \/ same x n).
Proof.
  intros o n x Hn Hx. assert (X : forall b : bool, (if b then 1 else 0) = 1 <-> b = true) by (intros []; split; congruence).
  rewrite !countif_one, !X. rewrite !suited_elem by (constructor; assumption).
  cbn [criteria_match]. unfold num_test. cbn [to_num].
  split; [apply n_lt_below|]. split; [apply n_le_below|]. split; [apply n_lt_below | apply n_le_below].
Qed.
(** Equality with a number, for stored numbers that are not nearly equal to it. *)
Theorem C139_equal_numbers : forall o q x, ~ nearly (Fin q) x ->
  (countif true (one {| c_over := o; c_val := VNum x |}) (PEq (VNum (Fin q))) = 1 <-> same (Fin q) x) /\
  (countif true (one {| c_over := o; c_val := VNum x |}) (PNe (VNum (Fin q))) = 1 <-> ~ same (Fin q) x).
Proof.
  intros o q x H. assert (X : forall b : bool, (if b then 1 else 0) = 1 <-> b = true) by (intros []; split; congruence).
  rewrite !countif_one, !X. rewrite !suited_elem by (constructor; [assumption | now exists q]).
  cbn [criteria_match values_equal]. assert (E : close (Fin q) x = true <-> same (Fin q) x).
  { split.
    - intros C. destruct x as [y| | |]; try discriminate. destruct (Qeq_dec q y) as [G|G]; [now constructor|].
      exfalso. apply H. split; [exact C|]. intros S. inversion S; subst. contradiction.
    - intros S. inversion S; subst. now apply same_close. }
  rewrite negb_true_iff. destruct (close (Fin q) x); intuition congruence.
Qed.
(** Text: equality without regard to case, and wildcards. *)
Theorem C139_texts : forall o s t, sql_plain (lower t) ->
  (countif true (one {| c_over := o; c_val := VText s |}) (PEq (VText t)) = 1 <-> lower s = lower t) /\
  (countif true (one {| c_over := o; c_val := VText s |}) (PNe (VText t)) = 1 <-> lower s <> lower t) /\
  (~ In 126%N (lower t) ->
   (countif true (one {| c_over := o; c_val := VText s |}) (PLike t) = 1 <-> glob (lower t) (lower s))).
Proof.
  intros o s t H. assert (X : forall b : bool, (if b then 1 else 0) = 1 <-> b = true) by (intros []; split; congruence).
  rewrite !countif_one, !X. split; [|split].
  - rewrite suited_elem by (now constructor). cbn [criteria_match]. rewrite ve_text, teqb. split; congruence.
  - rewrite suited_elem by (now constructor). cbn [criteria_match]. rewrite ve_text, negb_true_iff.
    destruct (text_eqb (lower t) (lower s)) eqn:E.
    + apply teqb in E. split; congruence.
    + split; [|reflexivity]. intros _ G. rewrite G in E. assert (Y : text_eqb (lower t) (lower t) = true) by (now apply teqb). congruence.
  - intros Ht. unfold elem. cbn [numeric_test text_plan c_val text_lane text_bit is_true]. rewrite sql_helper by assumption.
    rewrite <- helper_glob by assumption. destruct (helper (lower t) (lower s)); split; congruence.
Qed.

(** COUNTIF and COUNTIFS agree on a single cell, for criteria suited to its
    value.  Missing: the pairs of criterion and value listed below. *)
Theorem C139_agree_partial : forall o v p, suited lower p v ->
  countif true (one {| c_over := o; c_val := v |}) p = countifs true [(one {| c_over := o; c_val := v |}, p)].
Proof.
  intros o v p H. rewrite countif_one, countifs_single, suited_elem by assumption. reflexivity.
Qed.

(** Where they disagree: a blank cell is 0 for COUNTIFS and nothing for COUNTIF;
    text that reads as a number likewise; a blank cell matches ["*"] for one only;
    numbers nearer than 1e-12 are equal for one only. *)
Theorem C139_blank_refuted : forall n : Q, (n < 0)%Q ->
  countif true (one blank_cell) (PEq (VNum (Fin 0%Q))) = 0 /\
  countifs true [(one blank_cell, PEq (VNum (Fin 0%Q)))] = 1 /\
  countif true (one blank_cell) (PGt (Fin n)) = 0 /\
  countifs true [(one blank_cell, PGt (Fin n))] = 1.
Proof.
  intros n H. rewrite !countif_one, !countifs_single. split; [reflexivity|]. split; [reflexivity|]. split; [reflexivity|].
  cbn [criteria_match blank_cell c_val num_test to_num n_lt]. apply qlt in H. now rewrite H.
Qed.
Theorem C139_near_refuted : forall o,
  countif true (one {| c_over := o; c_val := VNum (Fin (1 + (1 # 10000000000000))%Q) |}) (PEq (VNum (Fin 1%Q))) = 0 /\
  countifs true [(one {| c_over := o; c_val := VNum (Fin (1 + (1 # 10000000000000))%Q) |}, PEq (VNum (Fin 1%Q)))] = 1.
Proof. intros o. rewrite countif_one, countifs_single. split; vm_compute; reflexivity. Qed.

Section Facts.
Hypothesis L : library lower pf show.

Theorem C139_text_refuted : forall o,
  countif true (one {| c_over := o; c_val := VText (tx "7"%string) |}) (PGt (Fin 5%Q)) = 0 /\
  countifs true [(one {| c_over := o; c_val := VText (tx "7"%string) |}, PGt (Fin 5%Q))] = 1 /\
  countif true (one blank_cell) (PLike (tx "*"%string)) = 0 /\
  countifs true [(one blank_cell, PLike (tx "*"%string))] = 1.
Proof.
  intros o. rewrite !countif_one, !countifs_single. split; [reflexivity|]. split; [|split; [reflexivity|]].
  - cbn [criteria_match c_val num_test]. unfold num_test. cbn [to_num].
    replace (parse_number pf (tx "7"%string)) with (Some (Fin 7%Q)); [reflexivity|].
    symmetry. apply (lib_digits _ _ _ L).
  - cbn [criteria_match blank_cell c_val]. unfold text_like_match. cbn [like_text].
    low L. reflexivity.
Qed.

(** The empty criterion: COUNTIF takes stored numbers and errors for blanks,
    and ["<>"] does not count stored numbers. *)
Theorem C139_empty_refuted : forall n e,
  countif true (one {| c_over := false; c_val := VNum n |}) (criterion []) = 1 /\
  countif true (one {| c_over := false; c_val := VErr e |}) (criterion []) = 1 /\
  countif true (one {| c_over := false; c_val := VNum n |}) (criterion (tx "<>"%string)) = 0 /\
  countifs true [(one {| c_over := false; c_val := VNum n |}, criterion [])] = 0 /\
  countifs true [(one {| c_over := false; c_val := VErr e |}, criterion [])] = 0 /\
  countifs true [(one {| c_over := false; c_val := VNum n |}, criterion (tx "<>"%string))] = 1.
Proof.
  intros n e. assert (E1 : criterion [] = PEq (VText [])) by reflexivity.
  assert (E2 : criterion (tx "<>"%string) = PNe (VText [])).
  { unfold parse_text. cbn -[Z.of_nat]. change (trim []) with (@nil N). destruct (lib_words _ _ _ L) as (W & _). rewrite W. reflexivity. }
  rewrite E1, E2, !countif_one, !countifs_single. cbn [c_val criteria_match].
  assert (V : values_equal lower pf (VText []) (VNum n) = false).
  { cbn. unfold num_eq. cbn [to_num]. destruct (lib_words _ _ _ L) as (W & _). unfold parse_number. cbn. now rewrite W. }
  rewrite V. split; [reflexivity|]. split; [reflexivity|]. split; [|split; [reflexivity | split; reflexivity]].
  unfold elem. cbn [numeric_test text_plan c_val text_lane c_over]. low L. reflexivity.
Qed.

(** Arrow's own special characters: the criterion ["a_b"] counts ["axb"]. *)
Theorem C139_special_refuted : forall o,
  countif true (one {| c_over := o; c_val := VText (tx "axb"%string) |}) (criterion (tx "a_b"%string)) = 1 /\
  countifs true [(one {| c_over := o; c_val := VText (tx "axb"%string) |}, criterion (tx "a_b"%string))] = 0 /\
  countif true (one {| c_over := o; c_val := VText (tx "1000"%string) |}) (criterion (tx "10%"%string)) = 1 /\
  countifs true [(one {| c_over := o; c_val := VText (tx "1000"%string) |}, criterion (tx "10%"%string))] = 0.
Proof.
  intros o. change (criterion (tx "a_b"%string)) with (PEq (VText (tx "a_b"%string))).
  change (criterion (tx "10%"%string)) with (PEq (VText (tx "10%"%string))).
  rewrite !countif_one, !countifs_single. unfold elem. cbn [numeric_test text_plan c_val text_lane criteria_match].
  rewrite !ve_text. low L. repeat split; reflexivity.
Qed.

(** * C140: the place where a value is kept *)

(** A text criterion sees a number or Boolean written since, not one loaded. *)
Theorem C140_number_refuted :
  countif true (one {| c_over := true; c_val := VNum (Fin 5%Q) |}) (criterion (tx "5"%string)) = 1 /\
  countif true (one {| c_over := false; c_val := VNum (Fin 5%Q) |}) (criterion (tx "5"%string)) = 0.
Proof.
  change (criterion (tx "5"%string)) with (PEq (VText (tx "5"%string))). rewrite !countif_one.
  unfold elem. cbn [numeric_test text_plan c_val text_lane c_over]. low L. rewrite (lib_show _ _ _ L). split; reflexivity.
Qed.
Theorem C140_boolean_refuted :
  countif true (one {| c_over := true; c_val := VBool true |}) (criterion (tx "t*"%string)) = 1 /\
  countif true (one {| c_over := false; c_val := VBool true |}) (criterion (tx "t*"%string)) = 0.
Proof.
  change (criterion (tx "t*"%string)) with (PLike (tx "t*"%string)). rewrite !countif_one.
  unfold elem. cbn [numeric_test text_plan c_val text_lane c_over]. low L. split; reflexivity.
Qed.
End Facts.

(** Counting is the same for sheets that hold the same values, some written
    since and some loaded, if the criterion is a number or a comparison with
    one, blank or Boolean, or the cells hold no numbers or Booleans.  Missing:
    text criteria on numbers and Booleans; see above. *)
Definition kept_alike (p : pred) (v : value) : Prop :=
  match p with
  | PEq (VText _) | PNe (VText _) | PLike _ => match v with VNum _ | VBool _ => False | _ => True end
  | _ => True
  end.
Theorem C140_storage_partial : forall rows cols w w' p, fits rows cols w -> fits rows cols w' ->
  (forall r c, r < rows -> c < cols ->
     c_val (cell_at w r c) = c_val (cell_at w' r c) /\ kept_alike p (c_val (cell_at w r c))) ->
  countif true w p = countif true w' p.
Proof.
  intros rows cols w w' p F F' H. rewrite (countif_perm _ _ _ _ rows cols w p F), (countif_perm _ _ _ _ rows cols w' p F').
  f_equal. apply filter_ext_in. intros (r & c) Hi. unfold positions in Hi. apply in_prod_iff in Hi. destruct Hi as [Hr Hc].
  apply in_seq in Hr, Hc. destruct (H r c ltac:(lia) ltac:(lia)) as [Ev K].
  destruct (cell_at w r c) as [o v], (cell_at w' r c) as [o' v']. cbn [c_val] in *. subst v'.
  assert (X : elem lower pf show showz p {| c_over := true; c_val := v |} = elem lower pf show showz p {| c_over := false; c_val := v |}).
  { destruct p as [u|u|n|n|n|n|u|]; try reflexivity; try (destruct u; try reflexivity);
      (apply stored_elem; intros y ->; cbn [kept_alike] in K; exact K). }
  destruct o, o'; congruence.
Qed.
Example C140_example : kept_alike (PGt (Fin 5%Q)) (VNum (Fin 7%Q)) /\ kept_alike (PEq (VText [])) (VText [65%N]).
Proof. split; exact I. Qed.

(** * C141: what the text of a criterion means *)

(** An ordering operator and a number, with any spaces, compares the number a
    value is read as. *)
Theorem C141_ordering : forall a o b t d n x, ordering o -> spaces a -> spaces b -> spaces d -> no_op_tail t ->
  trimmed t -> pf t = Some n ->
  (countifs true [(one x, criterion (a ++ op_text o ++ b ++ t ++ d))] = 1 <->
   exists y, reads_as pf (c_val x) y /\ ordered o y n).
Proof.
  intros a o b t d n x O Sa Sb Sd Nt Tt E. rewrite countifs_single, parse_front by assumption.
  rewrite parse_op.
  2: { left. apply no_op_tail_app; [assumption|]. destruct t as [|c t]; [|exact Nt]. cbn [app].
       destruct d as [|c d]; [exact I|]. exact (no_op_tail_app (c :: d) [] Sd I) || (rewrite <- (app_nil_r (c :: d)); apply no_op_tail_app; [assumption | exact I]). }
  rewrite trim_front, trim_back, Tt, E by assumption.
  assert (X : forall b : bool, (if b then 1 else 0) = 1 <-> b = true) by (intros []; split; congruence).
  rewrite X. destruct o; cbn [ordering] in O; try contradiction; cbn [criteria_match ordered];
    rewrite num_test_ex; split; intros (y & R & C); exists y; (split; [exact R|]);
    (apply n_lt_below || apply n_le_below || apply n_lt_below in C || apply n_le_below in C); assumption.
Qed.

(** ["<>"] asks the opposite of ["="], whatever follows. *)
Theorem C141_opposite : forall r x,
  countifs true [(one x, criterion (tx "<>"%string ++ r))] = 1 - countifs true [(one x, criterion (tx "="%string ++ r))].
Proof.
  intros r x. rewrite !countifs_single.
  change (tx "<>"%string) with (op_text ONe). change (tx "="%string) with (op_text OEq).
  rewrite !parse_op by (right; split; discriminate).
  destruct (pf (trim r)); cbn [criteria_match]; [destruct (values_equal _ _ _ _) | destruct (values_equal _ _ _ _)]; reflexivity.
Qed.

(** A number as criterion is the text ["="] and the number. *)
Theorem C141_number : forall t n, pf (trim t) = Some n ->
  parse_criteria pf (VNum n) = Ok (criterion (tx "="%string ++ t)).
Proof.
  intros t n H. change (tx "="%string) with (op_text OEq). rewrite parse_op by (right; split; discriminate). now rewrite H.
Qed.

(** Spaces around a criterion do not matter. *)
Theorem C141_spaces : forall a s b, spaces a -> spaces b -> criterion (a ++ s ++ b) = criterion s.
Proof. intros a s b Ha Hb. now rewrite parse_front, parse_back by assumption. Qed.

Section Facts.
Hypothesis L : library lower pf show.

(** After ["="], wildcards are not wildcards: ["=a*"] does not count ["ab"]. *)
Theorem C141_equal_wildcard_refuted : forall o,
  countifs true [(one {| c_over := o; c_val := VText (tx "ab"%string) |}, criterion (tx "a*"%string))] = 1 /\
  countifs true [(one {| c_over := o; c_val := VText (tx "ab"%string) |}, criterion (tx "=a*"%string))] = 0 /\
  countif true (one {| c_over := o; c_val := VText (tx "ab"%string) |}) (criterion (tx "=a*"%string)) = 0.
Proof.
  intros o. assert (E : criterion (tx "=a*"%string) = PEq (VText (tx "a*"%string))).
  { change (tx "=a*"%string) with (op_text OEq ++ tx "a*"%string). rewrite parse_op by (right; split; discriminate).
    destruct (lib_words _ _ _ L) as (_ & W & _). change (trim (tx "a*"%string)) with (tx "a*"%string). rewrite W. reflexivity. }
  rewrite E. change (criterion (tx "a*"%string)) with (PLike (tx "a*"%string)).
  rewrite !countifs_single, countif_one. cbn [c_val criteria_match]. rewrite ve_text.
  unfold elem, text_like_match. cbn [numeric_test text_plan c_val text_lane like_text]. low L. repeat split; reflexivity.
Qed.

(** Ordering with text is equality with the whole criterion. *)
Theorem C141_order_text_refuted : forall o,
  countifs true [(one {| c_over := o; c_val := VText (tx "banana"%string) |}, criterion (tx ">apple"%string))] = 0 /\
  countifs true [(one {| c_over := o; c_val := VText (tx ">apple"%string) |}, criterion (tx ">apple"%string))] = 1.
Proof.
  intros o. assert (E : criterion (tx ">apple"%string) = PEq (VText (tx ">apple"%string))).
  { change (tx ">apple"%string) with (op_text OGt ++ tx "apple"%string). rewrite parse_op by (left; exact I).
    destruct (lib_words _ _ _ L) as (_ & _ & W & _). change (trim (tx "apple"%string)) with (tx "apple"%string). rewrite W. reflexivity. }
  rewrite E, !countifs_single. cbn [c_val criteria_match]. rewrite !ve_text. low L. split; reflexivity.
Qed.

(** ["=TRUE"] is text and counts no Boolean, ["TRUE"] does; and it counts the
    number 1. *)
Theorem C141_boolean_refuted : forall o,
  countifs true [(one {| c_over := o; c_val := VBool true |}, criterion (tx "TRUE"%string))] = 1 /\
  countifs true [(one {| c_over := o; c_val := VBool true |}, criterion (tx "=TRUE"%string))] = 0 /\
  countifs true [(one {| c_over := o; c_val := VNum (Fin 1%Q) |}, criterion (tx "TRUE"%string))] = 1.
Proof.
  intros o. assert (E : criterion (tx "=TRUE"%string) = PEq (VText (tx "TRUE"%string))).
  { change (tx "=TRUE"%string) with (op_text OEq ++ tx "TRUE"%string). rewrite parse_op by (right; split; discriminate).
    destruct (lib_words _ _ _ L) as (_ & _ & _ & _ & W). change (trim (tx "TRUE"%string)) with (tx "TRUE"%string). rewrite W. reflexivity. }
  rewrite E. change (criterion (tx "TRUE"%string)) with (PEq (VBool true)). rewrite !countifs_single. repeat split; reflexivity.
Qed.

(** ["=0"] counts a blank cell and ["0"] does not; ["=inf"] and ["=nan"] are
    numbers and do not count the words. *)
Theorem C141_zero_refuted : forall o,
  countifs true [(one blank_cell, criterion (tx "=0"%string))] = 1 /\
  countifs true [(one blank_cell, criterion (tx "0"%string))] = 0 /\
  countifs true [(one {| c_over := o; c_val := VText (tx "nan"%string) |}, criterion (tx "=nan"%string))] = 0 /\
  countifs true [(one {| c_over := o; c_val := VText (tx "inf"%string) |}, criterion (tx "=inf"%string))] = 0.
Proof.
  intros o. destruct (lib_digits _ _ _ L) as (D & _). destruct (lib_nan _ _ _ L) as (N1 & N2).
  assert (E1 : criterion (tx "=0"%string) = PEq (VNum (Fin 0%Q))).
  { change (tx "=0"%string) with (op_text OEq ++ tx "0"%string). rewrite parse_op by (right; split; discriminate).
    change (trim (tx "0"%string)) with (tx "0"%string). rewrite D. reflexivity. }
  assert (E2 : criterion (tx "=nan"%string) = PEq (VNum NaN)).
  { change (tx "=nan"%string) with (op_text OEq ++ tx "nan"%string). rewrite parse_op by (right; split; discriminate).
    change (trim (tx "nan"%string)) with (tx "nan"%string). rewrite N1. reflexivity. }
  assert (E3 : criterion (tx "=inf"%string) = PEq (VNum PInf)).
  { change (tx "=inf"%string) with (op_text OEq ++ tx "inf"%string). rewrite parse_op by (right; split; discriminate).
    change (trim (tx "inf"%string)) with (tx "inf"%string). rewrite N2. reflexivity. }
  rewrite E1, E2, E3. change (criterion (tx "0"%string)) with (PEq (VText (tx "0"%string))).
  rewrite !countifs_single. split; [reflexivity|]. split; [reflexivity|].
  split; cbn [c_val criteria_match values_equal serial num_eq]; unfold num_eq; cbn [to_num];
    [replace (parse_number pf (tx "nan"%string)) with (Some NaN) by (symmetry; exact N1)
    | replace (parse_number pf (tx "inf"%string)) with (Some PInf) by (symmetry; exact N2)]; reflexivity.
Qed.
End Facts.

(** * C142: a range is its cells *)

(** COUNTIF over a range is the number of its cells that COUNTIF counts. *)
Theorem C142_countif : forall rows cols w p, fits rows cols w ->
  countif true w p =
  List.length (filter (fun '(r, c) => countif true (one (cell_at w r c)) p =? 1) (positions rows cols)).
Proof.
  intros rows cols w p F. rewrite (countif_perm _ _ _ _ rows cols w p F). f_equal. apply filter_ext.
  intros (r & c). symmetry. apply countif_one_eqb.
Qed.
(** COUNTIFS counts the positions where every criterion counts the cell of its
    range. *)
Theorem C142_countifs_partial : forall rows cols ps, ~ (rows = 1 /\ cols = 1) -> ps <> [] ->
  Forall (fun wp => fits rows cols (fst wp)) ps ->
  countifs true ps =
  List.length (filter (fun '(r, c) => forallb (fun '(w, p) => countif true (one (cell_at w r c)) p =? 1) ps)
                 (positions rows cols)).
Proof. exact (countifs_count lower pf show showz). Qed.
(** SUMIFS adds the numbers of the target at those positions. *)
Theorem C142_sumifs_partial : forall rows cols t ps, ~ (rows = 1 /\ cols = 1) -> ps <> [] -> fits rows cols t ->
  Forall (fun wp => fits rows cols (fst wp)) ps ->
  Permutation (sumifs true t ps)
    (flat_map (fun '(r, c) =>
       if forallb (fun '(w, p) => countif true (one (cell_at w r c)) p =? 1) ps
       then number_of (c_val (cell_at t r c)) else []) (positions rows cols)).
Proof. exact (sumifs_numbers lower pf show showz). Qed.
(** SUMIF adds the numbers at the same places of the range whose top left corner
    is given. *)
Theorem C142_sumif : forall rows cols w p t, fits rows cols w ->
  Permutation (sumif true w p t)
    (flat_map (fun '(r, c) =>
       if countif true (one (cell_at w r c)) p =? 1
       then number_of (get_cell (match t with Some v => expand_to v rows cols | None => w end) r c) else [])
       (positions rows cols)).
Proof. exact (sumif_numbers lower pf show showz). Qed.

(** Rows of the range below the last row of the sheet are not counted: of five
    rows, of which two are text, none is counted blank. *)
Definition two_texts : sheet :=
  {| sh_rows := 2; sh_cols := 1; sh_starts := [0]; sh_at := fun _ _ => {| c_over := false; c_val := VText [120%N] |} |}.
Definition five_rows : view := {| w_sheet := two_texts; w_sr := 0; w_sc := 0; w_rows := 5; w_cols := 1 |}.
Theorem C142_below_refuted :
  countif true five_rows PBlank = 0 /\
  (forall r, 2 <= r -> get_cell five_rows r 0 = VEmpty) /\
  countif true (one blank_cell) PBlank = 1.
Proof.
  split; [reflexivity|]. split; [|reflexivity]. intros r H. unfold get_cell. cbn -[Nat.leb].
  destruct (5 <=? r); [reflexivity|]. replace (2 <=? r) with true by (symmetry; now apply Nat.leb_le). reflexivity.
Qed.

(** Without an engine, whether text that reads as a number is counted depends on
    the other cells of its chunk. *)
Definition num_and_text : view :=
  {| w_sheet := {| sh_rows := 2; sh_cols := 1; sh_starts := [0];
       sh_at := fun r _ => {| c_over := false; c_val := match r with 0 => VNum (Fin 1%Q) | _ => VText (tx "7"%string) end |} |};
     w_sr := 0; w_sc := 0; w_rows := 2; w_cols := 1 |}.
Theorem C142_neighbour_refuted : library lower pf show ->
  countif false num_and_text (PGt (Fin 5%Q)) = 0 /\
  countif false (one (cell_at num_and_text 0 0)) (PGt (Fin 5%Q)) = 0 /\
  countif false (one (cell_at num_and_text 1 0)) (PGt (Fin 5%Q)) = 1.
Proof.
  intros L. split; [reflexivity|]. split; [reflexivity|].
  destruct (lib_digits _ _ _ L) as (_ & _ & D). 
  assert (E : criteria_match lower pf show showz (PGt (Fin 5%Q)) (VText (tx "7"%string)) = true).
  { cbn [criteria_match]. unfold num_test. cbn [to_num].
    replace (parse_number pf (tx "7"%string)) with (Some (Fin 7%Q)) by (symmetry; exact D). reflexivity. }
  unfold CrModel.countif, CrModel.collect. cbn -[criteria_match tx]. rewrite E. reflexivity.
Qed.

(** * C143: the order of the pairs *)

Theorem C143_order_partial : forall rows cols ps ps', Permutation ps ps' -> ~ (rows = 1 /\ cols = 1) -> ps <> [] ->
  Forall (fun wp => fits rows cols (fst wp)) ps -> countifs true ps = countifs true ps'.
Proof.
  intros rows cols ps ps' P N1 N2 F.
  assert (F' : Forall (fun wp => fits rows cols (fst wp)) ps').
  { rewrite Forall_forall in *. intros x Hx. apply F. now apply Permutation_sym in P; apply (Permutation_in x P). }
  assert (N2' : ps' <> []) by (intros ->; apply Permutation_sym, Permutation_nil in P; contradiction).
  rewrite (C142_countifs_partial rows cols ps), (C142_countifs_partial rows cols ps') by assumption.
  f_equal. apply filter_ext. intros (r & c). clear - P. induction P as [|(w & p) l l' P IH|(w & p) (w' & p') l|l l' l'' P1 IH1 P2 IH2].
  - reflexivity.
  - cbn [forallb]. now rewrite IH.
  - cbn [forallb]. rewrite !andb_assoc. f_equal. apply andb_comm.
  - congruence.
Qed.
Theorem C143_sum_order_partial : forall rows cols t ps ps', Permutation ps ps' -> ~ (rows = 1 /\ cols = 1) -> ps <> [] ->
  fits rows cols t -> Forall (fun wp => fits rows cols (fst wp)) ps -> Permutation (sumifs true t ps) (sumifs true t ps').
Proof.
  intros rows cols t ps ps' P N1 N2 Ft F.
  assert (F' : Forall (fun wp => fits rows cols (fst wp)) ps').
  { rewrite Forall_forall in *. intros x Hx. apply F. now apply Permutation_sym in P; apply (Permutation_in x P). }
  assert (N2' : ps' <> []) by (intros ->; apply Permutation_sym, Permutation_nil in P; contradiction).
  rewrite (C142_sumifs_partial rows cols t ps), (C142_sumifs_partial rows cols t ps') by assumption.
  apply Permutation_refl'. apply flat_map_ext. intros (r & c).
  replace (forallb (fun '(w, p) => countif true (one (cell_at w r c)) p =? 1) ps)
    with (forallb (fun '(w, p) => countif true (one (cell_at w r c)) p =? 1) ps'); [reflexivity|].
  clear - P. symmetry. induction P as [|(w & p) l l' P IH|(w & p) (w' & p') l|l l' l'' P1 IH1 P2 IH2].
  - reflexivity.
  - cbn [forallb]. now rewrite IH.
  - cbn [forallb]. rewrite !andb_assoc. f_equal. apply andb_comm.
  - congruence.
Qed.

(** Ranges of different heights are not refused, and the first one decides how
    many rows are counted. *)
Definition blank_rows (n : nat) : view :=
  {| w_sheet := {| sh_rows := 3; sh_cols := 1; sh_starts := [0]; sh_at := fun _ _ => blank_cell |};
     w_sr := 0; w_sc := 0; w_rows := n; w_cols := 1 |}.
Theorem C143_shape_refuted :
  countifs true [(blank_rows 2, PBlank); (blank_rows 3, PBlank)] = 2 /\
  countifs true [(blank_rows 3, PBlank); (blank_rows 2, PBlank)] = 3.
Proof. split; reflexivity. Qed.

(** A Boolean criterion counts the cells that hold that Boolean. *)
Theorem C139_booleans : forall o b v,
  (countif true (one {| c_over := o; c_val := VBool v |}) (PEq (VBool b)) = 1 <-> v = b) /\
  (countifs true [(one {| c_over := o; c_val := VBool v |}, PEq (VBool b))] = 1 <-> v = b).
Proof.
  intros o b v. rewrite countif_one, countifs_single, suited_elem by constructor. cbn [c_val criteria_match values_equal].
  destruct b, v; cbn; intuition congruence.
Qed.

(** White space is what Unicode says it is. *)
Theorem C141_white_space : forall c, is_ws c = true <->
  In c ([9; 10; 11; 12; 13; 32; 133; 160; 5760; 8192; 8193; 8194; 8195; 8196; 8197; 8198; 8199; 8200; 8201; 8202;
         8232; 8233; 8239; 8287; 12288]%N).
Proof.
  intros c. unfold is_ws. cbn [In]. rewrite ?orb_true_iff, ?andb_true_iff, ?N.leb_le, ?N.eqb_eq. lia.
Qed.

(** A text in quotes, its own quotes doubled, is that text. *)
Definition doubled (t : text) : text := flat_map (fun c => if (c =? 34)%N then [34%N; 34%N] else [c]) t.
Theorem C141_quoted : forall t, pf (34%N :: doubled t ++ [34%N]) = None ->
  criterion (tx "="%string ++ 34%N :: doubled t ++ [34%N]) = PEq (VText t) /\
  criterion (tx "<>"%string ++ 34%N :: doubled t ++ [34%N]) = PNe (VText t).
Proof.
  intros t H. change (tx "<>"%string) with (op_text ONe). change (tx "="%string) with (op_text OEq).
  rewrite !parse_op by (right; split; discriminate).
  assert (T : trim (34%N :: doubled t ++ [34%N]) = 34%N :: doubled t ++ [34%N]) by (apply trim_exact; reflexivity).
  rewrite T, H.
  assert (U : unquote (34%N :: doubled t ++ [34%N]) = t).
  { unfold unquote. rewrite T. cbv zeta. rewrite rev_unit, rev_involutive. clear.
    induction t as [|c t IH]; [reflexivity|]. unfold doubled in *. cbn [flat_map].
    destruct (c =? 34)%N eqn:E.
    - apply N.eqb_eq in E. subst c. cbn [app undouble]. now rewrite IH.
    - cbn [app]. transitivity (c :: undouble (flat_map (fun c => if (c =? 34)%N then [34%N; 34%N] else [c]) t)); [|now rewrite IH].
      apply N.eqb_neq in E. destruct c as [|q]; [reflexivity|]. cbn [undouble].
      repeat (destruct q as [q|q|]; try reflexivity). congruence. }
  rewrite U. auto.
Qed.

(** A range of one cell decides for all positions at once. *)
Theorem C142_single_cell : forall x p ps, ps <> [] ->
  Forall (fun wp => w_rows (fst wp) <> 1 \/ w_cols (fst wp) <> 1) ps ->
  countifs true ((one x, p) :: ps) = if countifs true [(one x, p)] =? 1 then countifs true ps else 0.
Proof.
  intros x p ps Hn F. rewrite countifs_single.
  assert (D : exists w, first_view (List.map (fun '(w, p) => broadcast w p) ps) = Some w).
  { destruct ps as [|[w q] ps]; [congruence|]. inversion F; subst. cbn [fst] in *. cbn [List.map].
    unfold broadcast at 1. destruct ((w_rows w =? 1) && (w_cols w =? 1)) eqn:E.
    - apply andb_prop in E. destruct E as [A B]. apply Nat.eqb_eq in A, B. lia.
    - exists w. reflexivity. }
  destruct D as [w D]. unfold CrModel.countifs. cbn [List.map].
  change (broadcast (one x) p) with {| k_view := None; k_pred := p; k_val := Some (c_val x) |}.
  set (ks := List.map (fun '(w, p) => broadcast w p) ps) in *. clearbody ks.
  unfold CrModel.collect. unfold driver. cbn [first_view k_view]. rewrite D. cbv zeta.
  change (dims TCount ({| k_view := None; k_pred := p; k_val := Some (c_val x) |} :: ks)) with (dims TCount ks).
  cbn [CrModel.all_bits]. unfold CrModel.crit_bits at 1. cbn [k_view k_val k_pred].
  destruct (criteria_match lower pf show showz p (c_val x)); [reflexivity|].
  cbn [Nat.eqb]. assert (Z0 : forall A B (l : list A), flat_map (fun _ => @nil B) l = []) by (intros A B l; induction l; auto).
  match goal with |- List.length ?l = 0 => assert (E : l = []); [|now rewrite E] end.
  induction (row_chunks w) as [|[rs rl] l IH]; [reflexivity|]. cbn [flat_map].
  rewrite IH, Z0. reflexivity.
Qed.
End WithLibrary.

Print Assumptions C139_booleans.
Print Assumptions C141_white_space.
Print Assumptions C141_quoted.
Print Assumptions C142_single_cell.
Print Assumptions C139_numbers.
Print Assumptions C139_equal_numbers.
Print Assumptions C139_texts.
Print Assumptions C139_agree_partial.
Print Assumptions C139_blank_refuted.
Print Assumptions C139_near_refuted.
Print Assumptions C139_text_refuted.
Print Assumptions C139_empty_refuted.
Print Assumptions C139_special_refuted.
Print Assumptions C140_number_refuted.
Print Assumptions C140_boolean_refuted.
Print Assumptions C140_storage_partial.
Print Assumptions C141_ordering.
Print Assumptions C141_opposite.
Print Assumptions C141_number.
Print Assumptions C141_spaces.
Print Assumptions C141_equal_wildcard_refuted.
Print Assumptions C141_order_text_refuted.
Print Assumptions C141_boolean_refuted.
Print Assumptions C141_zero_refuted.
Print Assumptions C142_countif.
Print Assumptions C142_countifs_partial.
Print Assumptions C142_sumifs_partial.
Print Assumptions C142_sumif.
Print Assumptions C142_below_refuted.
Print Assumptions C142_neighbour_refuted.
Print Assumptions C143_order_partial.
Print Assumptions C143_sum_order_partial.
Print Assumptions C143_shape_refuted.

Example C139_example : suited ex_lower (PGe (Fin 5%Q)) (VNum (Fin 7%Q)) /\ suited ex_lower (PLike (tx "a*"%string)) (VText (tx "AB"%string)) /\
  countif ex_lower ex_parse ex_show ex_showz true (one {| c_over := false; c_val := VText (tx "AB"%string) |}) (PLike (tx "a*"%string)) = 1.
Proof.
  split; [constructor; discriminate|]. split; [|reflexivity].
  apply su_like; [split; [|split] | | repeat constructor | repeat constructor | left]; cbn; intuition discriminate.
Qed.
Example C141_example : countifs ex_lower ex_parse ex_show ex_showz true
  [(one {| c_over := false; c_val := VNum (Fin 7%Q) |}, parse_text ex_parse (tx " >=  5 "%string))] = 1.
Proof. vm_compute. reflexivity. Qed.
(** Two columns of three rows in two chunks. *)
Definition ex_sheet : sheet :=
  {| sh_rows := 3; sh_cols := 2; sh_starts := [0; 2];
     sh_at := fun r c => {| c_over := Nat.even r; c_val := VNum (Fin (inject_Z (Z.of_nat (r + 2 * c)))) |} |}.
Definition ex_view (c : nat) : view := {| w_sheet := ex_sheet; w_sr := 0; w_sc := c; w_rows := 3; w_cols := 1 |}.
Example C142_example : fits 3 1 (ex_view 0) /\ fits 3 1 (ex_view 1) /\
  countifs ex_lower ex_parse ex_show ex_showz true [(ex_view 0, PGe (Fin 1%Q)); (ex_view 1, PLe (Fin 3%Q))] = 1 /\
  sumif ex_lower ex_parse ex_show ex_showz true (ex_view 0) (PGe (Fin 1%Q)) (Some (ex_view 1)) = [Fin 3%Q; Fin 4%Q].
Proof.
  assert (F : forall c, fits 3 1 (ex_view c)).
  { intros c. unfold fits, sheet_ok. cbn. split; [|repeat split; lia]. split; [repeat constructor; lia|]. split; [repeat constructor; lia|].
    intros _. now exists [2]. }
  split; [apply F|]. split; [apply F|]. split; vm_compute; reflexivity.
Qed.
