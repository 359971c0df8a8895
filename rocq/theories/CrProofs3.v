(** What a criterion selects, cell by cell, and what its text means. *)
From Coq Require Import String ZifyN ZifyNat ZifyBool QArith Permutation Sorted.
From Verif Require Import Base Maps WildModel WildSpec CrModel CrSpec CrProofs1 CrProofs2.
Close Scope Q_scope.

(** * Numbers *)
Lemma qle : forall x y, Qle_bool x y = true <-> (x <= y)%Q.
Proof. intros. apply Qle_bool_iff. Qed.
Lemma qlt : forall x y, Qle_bool y x = false <-> (x < y)%Q.
Proof.
  intros x y. split.
  - intros H. apply Qnot_le_lt. intros G. apply qle in G. congruence.
  - intros H. destruct (Qle_bool y x) eqn:E; [|reflexivity]. apply qle in E. exfalso. now apply (Qlt_not_le x y).
Qed.

Lemma n_lt_below : forall a b, n_lt a b = true <-> below a b.
Proof.
  intros a b. split.
  - destruct a, b; cbn; intros H; try discriminate; try (constructor; congruence).
    constructor. apply negb_true_iff in H. now apply qlt.
  - intros H. inversion H; subst; cbn.
    + apply negb_true_iff. now apply qlt.
    + destruct b; cbn; congruence.
    + destruct a; cbn; congruence.
Qed.
Lemma n_le_below : forall a b, n_le a b = true <-> below a b \/ same a b.
Proof.
  intros a b. split.
  - destruct a, b; cbn; intros H; try discriminate; try (left; constructor; congruence); try (right; solve [constructor]).
    apply qle in H. destruct (Qlt_le_dec q q0) as [L|L]; [left; now constructor|]. right. constructor. now apply Qle_antisym.
  - intros [H|H]; inversion H; subst; cbn; auto.
    + apply qle. now apply Qlt_le_weak.
    + destruct b; cbn; congruence.
    + destruct a; cbn; congruence.
    + apply qle. rewrite H0. apply Qle_refl.
Qed.
Lemma t_le_n_le : forall a b, a <> NaN -> b <> NaN -> t_le a b = n_le a b.
Proof. intros [] [] H1 H2; cbn; congruence || reflexivity. Qed.
Lemma t_lt_n_lt : forall a b, a <> NaN -> b <> NaN -> negb (t_le b a) = n_lt a b.
Proof. intros [] [] H1 H2; cbn; congruence || reflexivity. Qed.

Lemma same_close : forall x y, (x == y)%Q -> close (Fin x) (Fin y) = true.
Proof.
  intros x y H. unfold close. apply andb_true_iff. split; apply negb_true_iff, qlt; rewrite H; ring_simplify (y - y)%Q; reflexivity.
Qed.
Lemma t_eq_close : forall q x, ~ nearly (Fin q) x -> t_eq x (Fin q) = close (Fin q) x.
Proof.
  intros q x H. unfold t_eq. destruct x as [y| | |]; try reflexivity. cbn [t_le].
  destruct (Qle_bool y q && Qle_bool q y) eqn:E.
  - apply andb_true_iff in E. destruct E as [E1 E2]. apply qle in E1, E2. symmetry. apply same_close. now apply Qle_antisym.
  - destruct (close (Fin q) (Fin y)) eqn:Ec; [|reflexivity]. exfalso. apply H. split; [exact Ec|].
    intros S. inversion S; subst. rewrite andb_false_iff in E.
    destruct E as [E|E]; apply qlt in E; rewrite H2 in E; now apply Qlt_irrefl in E.
Qed.

(** * Spaces *)
Lemma trim_start_app : forall a x, spaces a -> trim_start (a ++ x) = trim_start x.
Proof. induction a as [|c a IH]; intros x H; [reflexivity|]. inversion H; subst. cbn [app trim_start]. rewrite H2. now apply IH. Qed.
Lemma trim_start_all : forall a, spaces a -> trim_start a = [].
Proof. intros a H. rewrite <- (app_nil_r a). now rewrite trim_start_app. Qed.
Lemma trim_start_cases : forall x, spaces x \/ exists a c r, x = a ++ c :: r /\ spaces a /\ is_ws c = false.
Proof.
  induction x as [|c x [H|(a & d & r & -> & Ha & Hd)]].
  - left. constructor.
  - destruct (is_ws c) eqn:E; [left; now constructor|]. right. exists [], c, x. repeat split; auto. constructor.
  - destruct (is_ws c) eqn:E.
    + right. exists (c :: a), d, r. repeat split; auto. now constructor.
    + right. exists [], c, (a ++ d :: r). repeat split; auto. constructor.
Qed.
Lemma trim_start_hd : forall c r, is_ws c = false -> trim_start (c :: r) = c :: r.
Proof. intros c r H. cbn. now rewrite H. Qed.
Lemma spaces_rev : forall a, spaces a -> spaces (rev a).
Proof. intros a H. unfold spaces in *. rewrite Forall_forall in *. intros x Hx. apply H. now apply in_rev. Qed.
Lemma trim_front : forall a x, spaces a -> trim (a ++ x) = trim x.
Proof. intros a x H. unfold trim. now rewrite trim_start_app. Qed.
Lemma trim_back : forall x b, spaces b -> trim (x ++ b) = trim x.
Proof.
  intros x b Hb. unfold trim. destruct (trim_start_cases x) as [H|(a & c & r & -> & Ha & Hc)].
  - rewrite trim_start_app by assumption. rewrite (trim_start_all b Hb), (trim_start_all x H). reflexivity.
  - rewrite <- app_assoc. rewrite (trim_start_app a (c :: r) Ha), (trim_start_app a ((c :: r) ++ b) Ha).
    rewrite (trim_start_hd c r Hc). replace (trim_start ((c :: r) ++ b)) with ((c :: r) ++ b) by (cbn [app]; now rewrite trim_start_hd).
    rewrite rev_app_distr. rewrite (trim_start_app (rev b)) by (now apply spaces_rev). reflexivity.
Qed.
Lemma trim_exact : forall c m d, is_ws c = false -> is_ws d = false -> trim (c :: m ++ [d]) = c :: m ++ [d].
Proof.
  intros c m d Hc Hd. unfold trim. rewrite trim_start_hd by assumption. change (c :: m ++ [d]) with ((c :: m) ++ [d]).
  rewrite rev_app_distr. cbn [rev app]. rewrite trim_start_hd by assumption. cbn [rev]. rewrite rev_app_distr, rev_involutive. reflexivity.
Qed.
Lemma trim_start_suffix : forall x, exists a, x = a ++ trim_start x /\ spaces a.
Proof.
  induction x as [|c x (a & E & Ha)]; [exists []; split; [reflexivity | constructor]|]. cbn [trim_start].
  destruct (is_ws c) eqn:Ec.
  - exists (c :: a). split; [cbn; now rewrite <- E | now constructor].
  - exists []. split; [reflexivity | constructor].
Qed.
Lemma trim_split : forall x, exists a b, x = a ++ trim x ++ b /\ spaces a /\ spaces b.
Proof.
  intros x. unfold trim. destruct (trim_start_suffix x) as (a & E & Ha).
  destruct (trim_start_suffix (rev (trim_start x))) as (b & Eb & Hb). exists a, (rev b). split; [|split; [assumption | now apply spaces_rev]].
  rewrite <- rev_app_distr, <- Eb, rev_involutive. exact E.
Qed.
Lemma trim_trim : forall x, trim (trim x) = trim x.
Proof.
  intros x. destruct (trim_split x) as (a & b & E & Ha & Hb). rewrite E at 2. rewrite trim_front, trim_back by assumption. reflexivity.
Qed.
Definition tend (x : text) : text := rev (trim_start (rev x)).
Lemma trim_tend_start : forall x, trim x = tend (trim_start x).
Proof. reflexivity. Qed.
Lemma tend_app : forall h c x, is_ws c = false -> tend ((h ++ [c]) ++ x) = (h ++ [c]) ++ tend x.
Proof.
  intros h c x Hc. unfold tend. rewrite rev_app_distr. destruct (trim_start_cases (rev x)) as [H|(a & d & r & E & Ha & Hd)].
  - rewrite trim_start_app by assumption. rewrite (trim_start_all (rev x)) by assumption. rewrite rev_app_distr. cbn [rev app].
    rewrite trim_start_hd by assumption. cbn [rev]. now rewrite rev_involutive, app_nil_r.
  - rewrite E, <- app_assoc. rewrite (trim_start_app a (d :: r) Ha), (trim_start_app a ((d :: r) ++ rev (h ++ [c])) Ha).
    rewrite (trim_start_hd d r Hd).
    replace (trim_start ((d :: r) ++ rev (h ++ [c]))) with ((d :: r) ++ rev (h ++ [c])) by (cbn [app]; now rewrite trim_start_hd).
    rewrite rev_app_distr. now rewrite rev_involutive.
Qed.
Lemma tend_split : forall x, exists b, x = tend x ++ b /\ spaces b.
Proof.
  intros x. destruct (trim_start_suffix (rev x)) as (a & E & Ha). exists (rev a). split; [|now apply spaces_rev].
  unfold tend. rewrite <- rev_app_distr, <- E. now rewrite rev_involutive.
Qed.
Lemma trim_tend : forall x, trim (tend x) = trim x.
Proof. intros x. destruct (tend_split x) as (b & E & Hb). rewrite E at 2. now rewrite trim_back. Qed.

Section WithLibrary.
Variable lower : text -> text.
Variable pf : text -> option num.
Variable show : num -> text.
Variable showz : Z -> text.
Notation criteria_match := (criteria_match lower pf show showz).
Notation elem := (elem lower pf show showz).
Notation countif := (countif lower pf show showz).
Notation countifs := (countifs lower pf show showz).
Notation sumif := (sumif lower pf show showz).
Notation sumifs := (sumifs lower pf show showz).
Notation hits := (hits lower pf show showz).

(** * One cell *)
Lemma fits_one : forall x, fits 1 1 (one x).
Proof.
  intros x. unfold fits, one, sheet_ok. cbn. repeat split; try lia.
  - repeat constructor.
  - repeat constructor; lia.
  - intros _. now exists [].
Qed.
Lemma all_fit1 : forall rows cols (w : view) (p : pred), fits rows cols w ->
  Forall (fun wp => fits rows cols (fst wp)) [(w, p)].
Proof. intros rows cols w p H. constructor; [exact H | constructor]. Qed.
Lemma countif_perm : forall rows cols w p, fits rows cols w ->
  countif true w p = List.length (filter (fun '(r, c) => is_true (elem p (cell_at w r c))) (positions rows cols)).
Proof.
  intros rows cols w p Hf. unfold CrModel.countif. change ({| k_view := Some w; k_pred := p; k_val := None |}) with (on w p).
  change [on w p] with (List.map (fun '(w, p) => on w p) [(w, p)]).
  rewrite (Permutation_length (collect_perm lower pf show showz rows cols false TCount [(w, p)] ltac:(discriminate)
     (all_fit1 rows cols w p Hf) I)).
  induction (positions rows cols) as [|(r & c) l IH]; [reflexivity|]. cbn [flat_map filter]. rewrite app_length, IH.
  unfold CrProofs2.hits. cbn [forallb]. rewrite andb_true_r. destruct (is_true (elem p (cell_at w r c))); reflexivity.
Qed.
Lemma countif_one : forall x p, countif true (one x) p = if is_true (elem p x) then 1 else 0.
Proof.
  intros x p. rewrite (countif_perm 1 1 (one x) p (fits_one x)). unfold positions. cbn [seq list_prod List.map app filter].
  unfold cell_at, one. cbn [w_sheet w_sr w_sc sh_cols sh_at]. cbn [Nat.add Nat.ltb Nat.leb].
  destruct (is_true (elem p x)); reflexivity.
Qed.
Lemma countif_one_eqb : forall x p, (countif true (one x) p =? 1) = is_true (elem p x).
Proof. intros x p. rewrite countif_one. destruct (is_true (elem p x)); reflexivity. Qed.

(** * Ranges *)
Definition chosen (ps : list (view * pred)) (r c : nat) : bool :=
  forallb (fun '(w, p) => countif true (one (cell_at w r c)) p =? 1) ps.
Lemma chosen_hits : forall ps r c, chosen ps r c = hits ps r c.
Proof.
  intros ps r c. unfold chosen, CrProofs2.hits. induction ps as [|(w & p) ps IH]; [reflexivity|].
  cbn [forallb]. now rewrite IH, countif_one_eqb.
Qed.
Lemma broadcast_on : forall rows cols ps, ~ (rows = 1 /\ cols = 1) -> Forall (fun wp => fits rows cols (fst wp)) ps ->
  List.map (fun '(w, p) => broadcast w p) ps = List.map (fun '(w, p) => on w p) ps.
Proof.
  intros rows cols ps H1 Hps. apply map_ext_in. intros (w & p) Hi. rewrite Forall_forall in Hps.
  destruct (Hps _ Hi) as (_ & Hr & Hc & _). cbn [fst] in *. unfold broadcast.
  replace ((w_rows w =? 1) && (w_cols w =? 1)) with false; [reflexivity|].
  symmetry. apply andb_false_iff. destruct (Nat.eqb_spec (w_rows w) 1); [right; apply Nat.eqb_neq; lia | now left].
Qed.

Lemma countifs_count : forall rows cols ps, ~ (rows = 1 /\ cols = 1) -> ps <> [] ->
  Forall (fun wp => fits rows cols (fst wp)) ps ->
  countifs true ps = List.length (filter (fun '(r, c) => chosen ps r c) (positions rows cols)).
Proof.
  intros rows cols ps H1 Hne Hps. unfold CrModel.countifs. rewrite (broadcast_on rows cols) by assumption.
  rewrite (Permutation_length (collect_perm lower pf show showz rows cols true TCount ps Hne Hps I)).
  induction (positions rows cols) as [|(r & c) l IH]; [reflexivity|]. cbn [flat_map filter]. rewrite app_length, IH.
  rewrite chosen_hits. destruct (hits ps r c); reflexivity.
Qed.
Lemma number_at_value : forall rows cols w r c, fits rows cols w -> r < rows -> 
  match number_at w r c with Some n => [n] | None => [] end = number_of (c_val (cell_at w r c)).
Proof.
  intros rows cols w r c Hf Hr. rewrite (number_at_cell rows cols w r c Hf Hr).
  destruct (c_val (cell_at w r c)); reflexivity.
Qed.
Lemma sumifs_numbers : forall rows cols t ps, ~ (rows = 1 /\ cols = 1) -> ps <> [] -> fits rows cols t ->
  Forall (fun wp => fits rows cols (fst wp)) ps ->
  Permutation (sumifs true t ps)
    (flat_map (fun '(r, c) => if chosen ps r c then number_of (c_val (cell_at t r c)) else []) (positions rows cols)).
Proof.
  intros rows cols t ps H1 Hne Ht Hps. unfold CrModel.sumifs. rewrite (broadcast_on rows cols) by assumption.
  rewrite (collect_perm lower pf show showz rows cols true (TView t) ps Hne Hps).
  - erewrite flat_map_ext_in; [reflexivity|]. intros (r & c) Hi. unfold positions in Hi. apply in_prod_iff in Hi.
    destruct Hi as [Hi _]. apply in_seq in Hi. cbv beta iota. rewrite chosen_hits. cbn [contrib].
    destruct (hits ps r c); [|reflexivity]. apply (number_at_value rows cols); auto. lia.
  - split; [|auto]. destruct Ht as (_ & _ & H & _). exact H.
Qed.

Lemma number_get : forall w r c, r < w_rows w -> c < w_cols w ->
  match number_at w r c with Some n => [n] | None => [] end = number_of (get_cell w r c).
Proof.
  intros w r c Hr Hc. unfold number_at, in_sheet, get_cell.
  replace (w_rows w <=? r) with false by (symmetry; apply Nat.leb_gt; lia).
  replace (w_cols w <=? c) with false by (symmetry; apply Nat.leb_gt; lia). cbn [orb].
  destruct (Nat.leb_spec (sh_rows (w_sheet w)) (w_sr w + r)); destruct (Nat.ltb_spec (w_sr w + r) (sh_rows (w_sheet w)));
    destruct (Nat.leb_spec (sh_cols (w_sheet w)) (w_sc w + c)); destruct (Nat.ltb_spec (w_sc w + c) (sh_cols (w_sheet w)));
    try lia; try reflexivity.
  cbn [andb]. destruct (c_val (sh_at (w_sheet w) (w_sr w + r) (w_sc w + c))); reflexivity.
Qed.
Lemma sumif_numbers : forall rows cols w p t, fits rows cols w ->
  Permutation (sumif true w p t)
    (flat_map (fun '(r, c) => if countif true (one (cell_at w r c)) p =? 1
       then number_of (get_cell (match t with Some v => expand_to v rows cols | None => w end) r c) else [])
       (positions rows cols)).
Proof.
  intros rows cols w p t Hf. pose proof Hf as (_ & Hr & Hc & _). unfold CrModel.sumif. rewrite Hr, Hc.
  set (tv := match t with Some v => expand_to v rows cols | None => w end).
  assert (Hd : w_rows tv = rows /\ w_cols tv = cols) by (subst tv; destruct t; cbn; auto).
  change ({| k_view := Some w; k_pred := p; k_val := None |}) with (on w p).
  change [on w p] with (List.map (fun '(w, p) => on w p) [(w, p)]).
  rewrite (collect_perm lower pf show showz rows cols false (TView tv) [(w, p)]).
  - erewrite flat_map_ext_in; [reflexivity|]. intros (r & c) Hi. unfold positions in Hi. apply in_prod_iff in Hi.
    destruct Hi as [Hi Hj]. apply in_seq in Hi, Hj. cbv beta iota. unfold CrProofs2.hits. cbn [forallb].
    rewrite andb_true_r, countif_one_eqb. cbn [contrib].
    destruct (is_true (elem p (cell_at w r c))); [|reflexivity]. apply number_get; lia.
  - discriminate.
  - exact (all_fit1 rows cols w p Hf).
  - split; [tauto | discriminate].
Qed.

(** * The mask and the value *)
Lemma text_cell : forall o s, text_lane lower show {| c_over := o; c_val := VText s |} = Some (lower s).
Proof. reflexivity. Qed.
Lemma ve_text : forall x y, values_equal lower pf (VText x) (VText y) = text_eqb (lower x) (lower y).
Proof. intros [|a x] [|b y]; reflexivity. Qed.
Lemma suited_elem : forall p o v, suited lower p v ->
  is_true (elem p {| c_over := o; c_val := v |}) = criteria_match p v.
Proof.
  intros p o v H. destruct H; unfold CrProofs2.elem; cbn [numeric_test c_val number_lane omap is_true].
  - cbn. rewrite t_lt_n_lt by assumption. now destruct (n_lt n x).
  - cbn. rewrite t_le_n_le by assumption. now destruct (n_le n x).
  - cbn. rewrite t_lt_n_lt by assumption. now destruct (n_lt x n).
  - cbn. rewrite t_le_n_le by assumption. now destruct (n_le x n).
  - destruct H0 as (q & ->). rewrite t_eq_close by assumption. unfold CrModel.criteria_match, values_equal.
    now destruct (close (Fin q) x).
  - destruct H0 as (q & ->). rewrite t_eq_close by assumption. unfold CrModel.criteria_match, values_equal.
    now destruct (close (Fin q) x).
  - cbn [text_plan]. rewrite text_cell. unfold text_bit. unfold CrModel.criteria_match. rewrite ve_text.
    apply eq_true_iff_eq. rewrite teqb. pose proof (sql_text (lower t) (lower s) H) as X.
    destruct (sql_like (lower t) (lower s)); cbn [is_true]; split; intros G; try discriminate; try reflexivity.
    + symmetry. now apply X.
    + symmetry in G. apply X in G. discriminate.
  - cbn [text_plan]. rewrite text_cell. unfold text_bit. unfold CrModel.criteria_match. rewrite ve_text.
    pose proof (sql_text (lower t) (lower s) H) as X. pose proof (teqb (lower t) (lower s)) as Y.
    destruct (sql_like (lower t) (lower s)), (text_eqb (lower t) (lower s)); cbn [negb is_true]; try reflexivity.
    + assert (false = true) by (apply Y; symmetry; now apply X). discriminate.
    + assert (false = true) by (apply X; symmetry; now apply Y). discriminate.
  - cbn [text_plan]. rewrite text_cell. unfold text_bit. rewrite sql_helper by assumption.
    unfold CrModel.criteria_match, text_like_match. cbn [like_text]. apply eq_true_iff_eq.
    rewrite like_glob by assumption. rewrite <- helper_glob by assumption.
    destruct (helper (lower p) (lower s)); cbn [is_true]; reflexivity.
  - cbn. destruct t; reflexivity.
  - cbn. destruct (lower t) eqn:E; [congruence|]. destruct t; [congruence|]. reflexivity.
  - cbn [text_plan]. now destruct (criteria_match (PEq (VBool b)) v).
  - cbn. destruct v; reflexivity.
Qed.

Lemma stored_elem : forall p v, (forall n, v <> VNum n) -> (forall b, v <> VBool b) ->
  elem p {| c_over := true; c_val := v |} = elem p {| c_over := false; c_val := v |}.
Proof.
  intros p v H1 H2. unfold CrProofs2.elem. cbn [c_val]. destruct (numeric_test p); [reflexivity|].
  destruct (text_plan lower p) as [((k & pt) & sp)|]; [|reflexivity].
  replace (text_lane lower show {| c_over := true; c_val := v |}) with (text_lane lower show {| c_over := false; c_val := v |});
    [reflexivity|]. destruct v; cbn; try reflexivity; [now destruct (H1 n) | now destruct (H2 b)].
Qed.
Lemma stored_numeric : forall p v f, numeric_test p = Some f ->
  elem p {| c_over := true; c_val := v |} = elem p {| c_over := false; c_val := v |}.
Proof. intros p v f H. unfold CrProofs2.elem. rewrite H. reflexivity. Qed.
Lemma stored_other : forall p v, numeric_test p = None -> text_plan lower p = None ->
  elem p {| c_over := true; c_val := v |} = elem p {| c_over := false; c_val := v |}.
Proof. intros p v H1 H2. unfold CrProofs2.elem. rewrite H1, H2. reflexivity. Qed.

(** * The text of a criterion *)
Lemma reads_num : forall v x, reads_as pf v x <-> to_num pf v = Some x.
Proof.
  intros v x. split.
  - intros H. destruct H; cbn [to_num]; try reflexivity.
    + unfold parse_number. cbv zeta. destruct (rev (trim t)) as [|c r] eqn:E; [assumption|].
      assert (Hc : c <> 37%N).
      { intros ->. apply (H (rev r)). rewrite <- (rev_involutive (trim t)), E. reflexivity. }
      destruct c as [|c]; [assumption|]. do 6 (destruct c as [c|c|]; try assumption; try congruence).
    + unfold parse_number. cbv zeta. rewrite H, rev_app_distr. cbn [rev app]. rewrite rev_involutive. now rewrite H0.
    + unfold parse_number. cbv zeta. rewrite H, rev_app_distr. cbn [rev app]. rewrite rev_involutive. rewrite H0.
      destruct n; try reflexivity. now destruct (H1 q).
  - destruct v as [|n|z|b|t|e|]; cbn [to_num]; intros H; try discriminate; try (injection H as <-); try solve [constructor].
    + destruct b; constructor.
    + unfold parse_number in H. cbv zeta in H. destruct (rev (trim t)) as [|c r] eqn:E.
      * apply ra_text; [|assumption]. intros b Eb. rewrite Eb, rev_app_distr in E. discriminate.
      * destruct (N.eq_dec c 37) as [->|Hc].
        -- assert (Et : trim t = rev r ++ [37%N]) by (rewrite <- (rev_involutive (trim t)), E; reflexivity).
           destruct (pf (trim (rev r))) as [n|] eqn:Ep; [|discriminate].
           destruct n as [q| | |]; injection H as <-; [eapply ra_percent; eauto | | |];
             apply ra_percent_big with (b := rev r); auto; intros; discriminate.
        -- assert (Hp : pf (trim t) = Some x).
           { destruct c as [|c]; [assumption|]. do 6 (destruct c as [c|c|]; try assumption; try congruence). }
           apply ra_text; [|exact Hp]. intros b Eb. rewrite Eb, rev_app_distr in E. cbn in E. injection E as <- _. congruence.
Qed.

Lemma split_at : forall o r, no_op_tail r -> split_op ops (op_text o ++ r) = Some (o, r).
Proof.
  intros o r H. destruct o; try reflexivity;
    (destruct r as [|c r]; [reflexivity|]; cbn in H;
     destruct c as [|c]; [reflexivity|]; do 6 (destruct c as [c|c|]; try reflexivity; try contradiction)).
Qed.
Lemma op_head : forall o, exists c r, op_text o = c :: r /\ is_ws c = false.
Proof. intros []; eexists _, _; (split; [reflexivity | reflexivity]). Qed.

Lemma no_op_tail_app : forall b r, spaces b -> no_op_tail r -> no_op_tail (b ++ r).
Proof.
  intros [|c b] r Hb Hr; [exact Hr|]. inversion Hb; subst. cbn [app].
  destruct (N.eq_dec c 61) as [->|N1]; [discriminate|]. destruct (N.eq_dec c 62) as [->|N2]; [discriminate|].
  unfold no_op_tail. destruct c as [|c]; [exact I|]. do 6 (destruct c as [c|c|]; try exact I; try congruence).
Qed.

Lemma no_op_tail_tend : forall x, no_op_tail x -> no_op_tail (tend x).
Proof.
  intros x H. destruct (tend_split x) as (b & E & _). destruct (tend x) as [|c t]; [exact I|].
  rewrite E in H. exact H.
Qed.
Lemma split_plain : forall o r, o <> OGt -> o <> OLt -> split_op ops (op_text o ++ r) = Some (o, r).
Proof. intros [] r H1 H2; try reflexivity; congruence. Qed.

(** What [parse_text] does with an operator. *)
Lemma parse_op : forall o x, (no_op_tail x \/ (o <> OGt /\ o <> OLt)) ->
  parse_text pf (op_text o ++ x) =
  match pf (trim x) with
  | Some n => match o with
      | OGe => PGe n | OLe => PLe n | OGt => PGt n | OLt => PLt n
      | OEq => PEq (VNum n) | ONe => PNe (VNum n) end
  | None => match o with
      | OEq => PEq (VText (unquote (trim x)))
      | ONe => PNe (VText (unquote (trim x)))
      | _ => PEq (VText (trim (op_text o ++ x))) end
  end.
Proof.
  intros o x H. unfold parse_text. cbv zeta.
  assert (E : trim (op_text o ++ x) = op_text o ++ tend x).
  { destruct (op_head o) as (c & r & E & Hc). rewrite trim_tend_start. rewrite E at 1. cbn [app].
    rewrite trim_start_hd by assumption. change (c :: r ++ x) with ((c :: r) ++ x). rewrite <- E.
    destruct o;
      [exact (tend_app [62%N] 61%N x eq_refl) | exact (tend_app [60%N] 61%N x eq_refl) | exact (tend_app [60%N] 62%N x eq_refl)
      | exact (tend_app [] 62%N x eq_refl) | exact (tend_app [] 60%N x eq_refl) | exact (tend_app [] 61%N x eq_refl)]. }
  rewrite E. replace (split_op ops (op_text o ++ tend x)) with (Some (o, tend x)).
  - rewrite trim_tend. reflexivity.
  - symmetry. destruct H as [H|[H1 H2]]; [apply split_at; now apply no_op_tail_tend | now apply split_plain].
Qed.
Lemma parse_front : forall a s, spaces a -> parse_text pf (a ++ s) = parse_text pf s.
Proof. intros a s H. unfold parse_text. now rewrite trim_front. Qed.
Lemma parse_back : forall s a, spaces a -> parse_text pf (s ++ a) = parse_text pf s.
Proof. intros s a H. unfold parse_text. now rewrite trim_back. Qed.

Lemma num_test_ex : forall f v, num_test pf f v = true <-> exists x, reads_as pf v x /\ f x = true.
Proof.
  intros f v. unfold num_test. split.
  - destruct (to_num pf v) as [x|] eqn:E; [|discriminate]. intros H. exists x. split; [now apply reads_num | exact H].
  - intros (x & R & H). apply reads_num in R. now rewrite R.
Qed.

End WithLibrary.
