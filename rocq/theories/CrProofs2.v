(** Masks row by row, and the aggregation position by position. *)
From Coq Require Import ZifyN ZifyNat ZifyBool QArith Permutation Sorted.
From Verif Require Import Base Maps WildModel WildSpec CrModel CrSpec CrProofs1.
Close Scope Q_scope.

(** * Lists *)
Lemma firstn_skipn_seq : forall A (f : nat -> A) n rs rl, rs + rl <= n ->
  firstn rl (skipn rs (List.map f (seq 0 n))) = List.map f (seq rs rl).
Proof.
  intros A f n rs rl H. replace n with (rs + (rl + (n - rs - rl))) by lia.
  rewrite seq_app, map_app. rewrite skipn_app, map_length, seq_length, Nat.sub_diag. cbn [skipn].
  rewrite skipn_all2 by (rewrite map_length, seq_length; lia). cbn [app].
  rewrite Nat.add_0_l, seq_app, map_app. rewrite firstn_app, map_length, seq_length, Nat.sub_diag. cbn [firstn].
  rewrite firstn_all2 by (rewrite map_length, seq_length; lia). now rewrite app_nil_r.
Qed.

Lemma flat_map_swap : forall A B C (f : A -> B -> list C) la lb,
  Permutation (flat_map (fun a => flat_map (fun b => f a b) lb) la)
              (flat_map (fun b => flat_map (fun a => f a b) la) lb).
Proof.
  intros A B C f la lb. induction la as [|a la IH].
  - cbn. induction lb as [|b lb IHb]; [constructor | exact IHb].
  - cbn [flat_map]. rewrite IH. clear IH. induction lb as [|b lb IHb].
    + constructor.
    + cbn [flat_map]. rewrite <- IHb. rewrite <- !app_assoc. apply Permutation_app_head.
      rewrite !app_assoc. apply Permutation_app_tail. apply Permutation_app_comm.
Qed.

Lemma flat_map_ext_in : forall A B (f g : A -> list B) l, (forall x, In x l -> f x = g x) -> flat_map f l = flat_map g l.
Proof.
  induction l as [|a l IH]; intros H; [reflexivity|]. cbn [flat_map]. rewrite H by (now left).
  f_equal. apply IH. intros. apply H. now right.
Qed.
Lemma flat_map_perm_in : forall A B (f g : A -> list B) l, (forall x, In x l -> Permutation (f x) (g x)) ->
  Permutation (flat_map f l) (flat_map g l).
Proof.
  induction l as [|a l IH]; intros H; [constructor|]. cbn [flat_map]. apply Permutation_app; [apply H; now left|].
  apply IH. intros. apply H. now right.
Qed.
Lemma flat_map_flat_map : forall A B C (f : A -> list B) (g : B -> list C) l,
  flat_map g (flat_map f l) = flat_map (fun a => flat_map g (f a)) l.
Proof.
  induction l as [|a l IH]; [reflexivity|]. cbn [flat_map]. rewrite flat_map_app. now rewrite IH.
Qed.
Lemma flat_map_list_prod : forall A B C (g : A * B -> list C) la lb,
  flat_map g (list_prod la lb) = flat_map (fun a => flat_map (fun b => g (a, b)) lb) la.
Proof.
  induction la as [|a la IH]; intros lb; [reflexivity|]. cbn [list_prod flat_map]. rewrite flat_map_app, IH. f_equal.
  induction lb as [|b lb IHb]; [reflexivity|]. cbn [List.map flat_map]. now rewrite IHb.
Qed.
Lemma map_combine_same : forall A B C (f : A -> B) (g : A -> C) l,
  combine (List.map f l) (List.map g l) = List.map (fun x => (f x, g x)) l.
Proof. induction l as [|a l IH]; [reflexivity|]. cbn. now rewrite IH. Qed.

(** * The row chunks follow one another *)
Definition rows_of (l : list (nat * nat)) : list nat := flat_map (fun '(rs, rl) => seq rs rl) l.

Lemma chunk_rows : forall starts nrows sr stop, stop <= nrows -> StronglySorted le starts ->
  Forall (fun x => x <= nrows) starts -> forall s rest, starts = s :: rest ->
  rows_of (flat_map (fun '(s, len) =>
    let is := Nat.max s sr in
    let ie := Nat.min (s + len) stop in
    if is <? ie then [(is - sr, ie - is)] else []) (chunks starts nrows))
  = seq (Nat.max s sr - sr) (stop - Nat.max s sr).
Proof.
  induction starts as [|s0 starts IH]; intros nrows sr stop Hs Hsort Hle s rest E; [discriminate|].
  injection E as -> ->. inversion Hsort; subst. inversion Hle; subst.
  cbn [chunks flat_map]. unfold rows_of. rewrite flat_map_app. fold (rows_of (flat_map (fun '(s, len) =>
    let is := Nat.max s sr in
    let ie := Nat.min (s + len) stop in
    if is <? ie then [(is - sr, ie - is)] else []) (chunks rest nrows))).
  destruct rest as [|e rest].
  - cbn [chunks flat_map rows_of]. unfold rows_of. cbn [flat_map]. rewrite app_nil_r. cbv zeta.
    destruct (Nat.ltb_spec (Nat.max s sr) (Nat.min (s + (nrows - s)) stop)).
    + cbn [flat_map]. rewrite app_nil_r. f_equal. lia.
    + cbn [flat_map]. replace (stop - Nat.max s sr) with 0 by lia. reflexivity.
  - rewrite (IH nrows sr stop Hs H1 H4 e rest eq_refl). inversion H2; subst. inversion H4; subst.
    cbv zeta. destruct (Nat.ltb_spec (Nat.max s sr) (Nat.min (s + (e - s)) stop)).
    + cbn [flat_map]. rewrite app_nil_r.
      replace (stop - Nat.max s sr) with ((Nat.min (s + (e - s)) stop - Nat.max s sr) + (stop - Nat.max e sr)) by lia.
      rewrite seq_app. f_equal.
      destruct (Nat.le_gt_cases stop (Nat.max e sr)) as [L|L]; [replace (stop - Nat.max e sr) with 0 by lia; reflexivity|].
      f_equal. lia.
    + cbn [flat_map app].
      destruct (Nat.le_gt_cases stop (Nat.max e sr)) as [L|L].
      * replace (stop - Nat.max e sr) with 0 by lia. replace (stop - Nat.max s sr) with 0 by lia. reflexivity.
      * replace (Nat.max e sr) with (Nat.max s sr) by lia. reflexivity.
Qed.

Lemma row_chunks_rows : forall rows cols w, fits rows cols w -> rows_of (row_chunks w) = seq 0 rows.
Proof.
  intros rows cols w ((Hs & Hle & H0) & Hr & Hc & Hr1 & Hc1 & Hin).
  destruct H0 as (rest & E); [lia|]. unfold row_chunks. cbv zeta.
  rewrite (chunk_rows (sh_starts (w_sheet w)) (sh_rows (w_sheet w)) (w_sr w)) with (s := 0) (rest := rest); auto; [|lia].
  f_equal; lia.
Qed.
Lemma row_chunk_in : forall rows cols w rs rl, fits rows cols w -> In (rs, rl) (row_chunks w) -> rs + rl <= rows.
Proof.
  intros rows cols w rs rl Hf Hin. pose proof (row_chunks_rows rows cols w Hf) as E.
  assert (X : rl = 0 \/ 0 < rl) by lia. destruct Hf as (_ & Hr & _ & _ & _ & _).
  unfold row_chunks in Hin. cbv zeta in Hin. apply in_flat_map in Hin. destruct Hin as ((s & len) & _ & Hin).
  destruct (Nat.ltb_spec (Nat.max s (w_sr w)) (Nat.min (s + len) (Nat.min (w_sr w + w_rows w) (sh_rows (w_sheet w))))).
  - destruct Hin as [E1|[]]. injection E1 as <- <-. lia.
  - destruct Hin.
Qed.
Lemma row_chunks_nonempty : forall rows cols w, fits rows cols w -> row_chunks w <> [].
Proof.
  intros rows cols w Hf E. pose proof (row_chunks_rows rows cols w Hf) as H. rewrite E in H.
  destruct Hf as (_ & _ & _ & Hr & _). destruct rows; [lia | discriminate].
Qed.

Section WithLibrary.
Variable lower : text -> text.
Variable pf : text -> option num.
Variable show : num -> text.
Variable showz : Z -> text.
Notation criteria_match := (criteria_match lower pf show showz).
Notation text_lane := (text_lane lower show).
Notation text_at := (text_at lower show).
Notation slice_text := (slice_text lower show).
Notation text_plan := (text_plan lower).
Notation build_mask := (build_mask lower show).
Notation compute_mask := (compute_mask lower show).
Notation crit_bits := (crit_bits lower pf show showz).
Notation all_bits := (all_bits lower pf show showz).
Notation fallback := (fallback lower pf show showz).
Notation per_cell := (per_cell lower pf show showz).
Notation column := (column pf).
Notation collect := (collect lower pf show showz).

(** * What the mask says of one cell *)
Definition text_bit (k : kind) (pat : text) (special : bool) (o : option text) : option bool :=
  let ne_blank := match k with KNe => negb (match pat with [] => true | _ => false end) | _ => false end in
  let fold := match k with KEq => special | _ => false end || ne_blank in
  match o with
  | None => if fold then Some true else None
  | Some t => Some (match k with KNe => negb (sql_like pat t) | _ => sql_like pat t end)
  end.
Definition maskable (p : pred) : bool :=
  match numeric_test p with Some _ => true | None => match text_plan p with Some _ => true | None => false end end.
Definition elem (p : pred) (x : cell) : option bool :=
  match numeric_test p with
  | Some f => omap f (number_lane (c_val x))
  | None =>
      match text_plan p with
      | Some (k, pat, special) => text_bit k pat special (text_lane x)
      | None => Some (criteria_match p (c_val x))
      end
  end.

Lemma text_part_elem : forall k pat sp w rs rl c,
  text_part k pat sp (slice_text w rs rl c) rl =
  List.map (fun i => text_bit k pat sp (text_at w i c)) (seq rs rl).
Proof.
  intros k pat sp w rs rl c. unfold slice_text.
  assert (Hall : forallb is_none (List.map (fun i => text_at w i c) (seq rs rl)) = true ->
     forall i, In i (seq rs rl) -> text_at w i c = None).
  { intros H i Hi. rewrite forallb_forall in H. specialize (H (text_at w i c)).
    destruct (text_at w i c) eqn:E; [|reflexivity]. exfalso.
    assert (is_none (Some t) = true) by (apply H; rewrite <- E; now apply in_map with (f := fun i => text_at w i c)). discriminate. }
  assert (Hnone : (forall i, In i (seq rs rl) -> text_at w i c = None) ->
     text_part k pat sp None rl = List.map (fun i => text_bit k pat sp (text_at w i c)) (seq rs rl)).
  { intros H. unfold text_part. 
    transitivity (List.map (fun _ => text_bit k pat sp None) (seq rs rl)).
    - unfold text_bit. generalize (if match k with KEq => sp | _ => false end || match k with
        | KNe => negb match pat with [] => true | _ :: _ => false end | _ => false end then Some true else None).
      intros o. clear. revert rs. induction rl as [|n IH]; intros rs; [reflexivity|]. cbn. now rewrite IH with (rs := S rs).
    - apply map_ext_in. intros i Hi. now rewrite H. }
  destruct (Nat.leb_spec (sh_cols (w_sheet w)) (w_sc w + c)) as [L|L].
  { apply Hnone. intros i _. unfold CrModel.text_at, in_sheet.
    replace (w_sc w + c <? sh_cols (w_sheet w)) with false by (symmetry; apply Nat.ltb_ge; lia). now rewrite andb_false_r. }
  cbv zeta. destruct (forallb is_none (List.map (fun i => text_at w i c) (seq rs rl))) eqn:E.
  { apply Hnone. now apply Hall. }
  unfold text_part. cbv zeta.
  match goal with |- (if ?f && _ then _ else _) = _ => destruct f eqn:Ef end.
  - cbn [andb]. destruct (existsb is_none (List.map (fun i => text_at w i c) (seq rs rl))) eqn:Ex.
    + rewrite !map_map. rewrite map_combine_same. rewrite map_map. apply map_ext. intros i. unfold text_bit. rewrite Ef.
      destruct (text_at w i c); cbn [omap is_none or_kleene]; [|reflexivity].
      destruct (match k with KNe => negb (sql_like pat t) | _ => sql_like pat t end); reflexivity.
    + rewrite map_map. apply map_ext_in. intros i Hi. unfold text_bit. rewrite Ef.
      destruct (text_at w i c) eqn:Et; [reflexivity|]. exfalso.
      assert (existsb is_none (List.map (fun i => text_at w i c) (seq rs rl)) = true); [|congruence].
      apply existsb_exists. exists None. split; [|reflexivity]. rewrite <- Et. now apply in_map with (f := fun i => text_at w i c).
  - cbn [andb]. rewrite map_map. apply map_ext. intros i. unfold text_bit. rewrite Ef.
    destruct (text_at w i c); reflexivity.
Qed.

Lemma number_at_cell : forall rows cols w r c, fits rows cols w -> r < rows ->
  number_at w r c = number_lane (c_val (cell_at w r c)).
Proof.
  intros rows cols w r c (_ & Hr & _ & _ & _ & Hin) H. unfold number_at, in_sheet, cell_at.
  replace (w_sr w + r <? sh_rows (w_sheet w)) with true by (symmetry; apply Nat.ltb_lt; lia). cbn [andb].
  destruct (w_sc w + c <? sh_cols (w_sheet w)); reflexivity.
Qed.
Lemma text_at_cell : forall rows cols w r c, fits rows cols w -> r < rows ->
  text_at w r c = text_lane (cell_at w r c).
Proof.
  intros rows cols w r c (_ & Hr & _ & _ & _ & Hin) H. unfold CrModel.text_at, in_sheet, cell_at.
  replace (w_sr w + r <? sh_rows (w_sheet w)) with true by (symmetry; apply Nat.ltb_lt; lia). cbn [andb].
  destruct (w_sc w + c <? sh_cols (w_sheet w)); reflexivity.
Qed.
Lemma get_cell_cell : forall rows cols w r c, fits rows cols w -> r < rows -> c < cols ->
  get_cell w r c = c_val (cell_at w r c).
Proof.
  intros rows cols w r c (_ & Hr & Hc & _ & _ & Hin) H H'. unfold get_cell, cell_at.
  replace (w_rows w <=? r) with false by (symmetry; apply Nat.leb_gt; lia).
  replace (w_cols w <=? c) with false by (symmetry; apply Nat.leb_gt; lia). cbn [orb].
  replace (sh_rows (w_sheet w) <=? w_sr w + r) with false by (symmetry; apply Nat.leb_gt; lia).
  destruct (Nat.leb_spec (sh_cols (w_sheet w)) (w_sc w + c)); destruct (Nat.ltb_spec (w_sc w + c) (sh_cols (w_sheet w)));
    try lia; reflexivity.
Qed.

Lemma concat_rows : forall A (f : nat -> A) l,
  concat (List.map (fun '(rs, rl) => List.map f (seq rs rl)) l) = List.map f (rows_of l).
Proof.
  intros A f l. unfold rows_of. induction l as [|(rs & rl) l IH]; [reflexivity|].
  cbn [List.map concat flat_map]. now rewrite IH, map_app.
Qed.

Lemma build_mask_elem : forall rows cols w c p, fits rows cols w -> c < cols ->
  build_mask w c p = if maskable p then Some (List.map (fun r => elem p (cell_at w r c)) (seq 0 rows)) else None.
Proof.
  intros rows cols w c p Hf Hc. unfold CrModel.build_mask.
  pose proof Hf as (_ & Hr & Hcc & Hr1 & Hc1 & Hin).
  destruct (Nat.eqb_spec (w_cols w) 0); [lia|].
  replace ((sh_rows (w_sheet w) =? 0) || (sh_rows (w_sheet w) <=? w_sr w)) with false
    by (symmetry; apply orb_false_iff; split; [apply Nat.eqb_neq | apply Nat.leb_gt]; lia).
  unfold CrModel.compute_mask, maskable, elem. destruct (numeric_test p) as [f|].
  - replace (c <? w_cols w) with true by (symmetry; apply Nat.ltb_lt; lia). cbv zeta.
    rewrite (concat_rows _ (fun i => omap f (number_at w i c))). rewrite (row_chunks_rows rows cols w Hf).
    destruct (List.map _ (row_chunks w)) eqn:E.
    + apply map_eq_nil in E. now apply (row_chunks_nonempty rows cols w Hf) in E.
    + f_equal. apply map_ext_in. intros r Hi. apply in_seq in Hi. now rewrite (number_at_cell rows cols w r c Hf) by lia.
  - destruct (text_plan p) as [((k & ptn) & sp)|]; [|reflexivity].
    destruct (Nat.leb_spec (w_cols w) c); [lia|]. cbv zeta.
    rewrite (map_ext _ (fun '(rs, rl) => List.map (fun i => text_bit k ptn sp (text_at w i c)) (seq rs rl)))
      by (intros (rs & rl); apply text_part_elem).
    rewrite (concat_rows _ (fun i => text_bit k ptn sp (text_at w i c))). rewrite (row_chunks_rows rows cols w Hf).
    destruct (List.map _ (row_chunks w)) eqn:E.
    + apply map_eq_nil in E. now apply (row_chunks_nonempty rows cols w Hf) in E.
    + f_equal. apply map_ext_in. intros r Hi. apply in_seq in Hi. now rewrite (text_at_cell rows cols w r c Hf) by lia.
Qed.

Definition on (w : view) (p : pred) : crit := {| k_view := Some w; k_pred := p; k_val := None |}.

Lemma crit_bits_elem : forall rows cols w p c rs rl, fits rows cols w -> c < cols -> rs + rl <= rows ->
  crit_bits true (on w p) c rs rl = Mask (List.map (fun r => elem p (cell_at w r c)) (seq rs rl)).
Proof.
  intros rows cols w p c rs rl Hf Hc Hr. unfold CrModel.crit_bits, on. cbn [k_view k_pred].
  rewrite (build_mask_elem rows cols w c p Hf Hc). destruct (maskable p) eqn:E.
  - f_equal. unfold cut. rewrite map_length, seq_length.
    replace (rs + rl <=? rows) with true by (symmetry; apply Nat.leb_le; lia). now apply firstn_skipn_seq.
  - f_equal. unfold maskable in E. unfold CrModel.fallback, elem. destruct (numeric_test p); [discriminate|].
    destruct (text_plan p); [discriminate|]. unfold CrModel.per_cell. apply map_ext_in. intros r Hi. apply in_seq in Hi.
    now rewrite (get_cell_cell rows cols w r c Hf) by lia.
Qed.

Definition hits (ps : list (view * pred)) (r c : nat) : bool :=
  forallb (fun '(w, p) => is_true (elem p (cell_at w r c))) ps.

Lemma is_true_and : forall a b, is_true (and_kleene a b) = is_true a && is_true b.
Proof. intros [[]|] [[]|]; reflexivity. Qed.

Lemma all_bits_hits : forall rows cols c rs rl, c < cols -> rs + rl <= rows ->
  forall ps g, Forall (fun wp => fits rows cols (fst wp)) ps ->
  exists g', all_bits true (List.map (fun '(w, p) => on w p) ps) c rs rl (Some (List.map g (seq rs rl)))
             = Some (Some (List.map g' (seq rs rl)))
    /\ forall r, is_true (g' r) = is_true (g r) && hits ps r c.
Proof.
  intros rows cols c rs rl Hc Hr. induction ps as [|(w & p) ps IH]; intros g Hps.
  - exists g. split; [reflexivity|]. intros r. cbn. now rewrite andb_true_r.
  - inversion Hps; subst. cbn [fst] in *. cbn [List.map CrModel.all_bits].
    rewrite (crit_bits_elem rows cols w p c rs rl) by assumption. rewrite map_combine_same, map_map.
    destruct (IH (fun r => and_kleene (g r) (elem p (cell_at w r c))) H2) as (g' & E & Hg'). exists g'. split; [exact E|].
    intros r. rewrite Hg', is_true_and. unfold hits. cbn [forallb]. now rewrite andb_assoc.
Qed.

Lemma all_bits_first : forall rows cols c rs rl ps, c < cols -> rs + rl <= rows -> ps <> [] ->
  Forall (fun wp => fits rows cols (fst wp)) ps ->
  exists g', all_bits true (List.map (fun '(w, p) => on w p) ps) c rs rl None
             = Some (Some (List.map g' (seq rs rl)))
    /\ forall r, is_true (g' r) = hits ps r c.
Proof.
  intros rows cols c rs rl [|(w & p) ps] Hc Hr Hne Hps; [congruence|]. inversion Hps; subst. cbn [fst] in *.
  cbn [List.map CrModel.all_bits]. rewrite (crit_bits_elem rows cols w p c rs rl) by assumption.
  destruct (all_bits_hits rows cols c rs rl Hc Hr ps (fun r => elem p (cell_at w r c)) H2) as (g' & E & Hg').
  exists g'. split; [exact E|]. intros r. rewrite Hg'. reflexivity.
Qed.

Definition contrib (t : target) (r c : nat) : list num :=
  match t with
  | TCount => [Fin 0%Q]
  | TView w => match number_at w r c with Some n => [n] | None => [] end
  | TScalar v => match to_num pf v with Some n => [n] | None => [] end
  | TNone => []
  end.

Lemma map_filter_id : forall A B (x : B) (f : A -> bool) l,
  List.map (fun _ => x) (filter (fun b => b) (List.map f l)) = flat_map (fun a => if f a then [x] else []) l.
Proof.
  induction l as [|a l IH]; [reflexivity|]. cbn [List.map filter flat_map]. destruct (f a); cbn; now rewrite IH.
Qed.

Lemma column_contrib : forall t c rs rl g h, (forall r, is_true (g r) = h r) ->
  (forall w, t = TView w -> c < w_cols w) ->
  column t c rs rl (Some (List.map g (seq rs rl))) =
  flat_map (fun r => if h r : bool then contrib t r c else []) (seq rs rl).
Proof.
  intros t c rs rl g h Hg Hw. unfold CrModel.column. cbv zeta. rewrite map_map.
  rewrite (map_ext _ h) by exact Hg. destruct t as [|w|v|]; cbn [contrib].
  - apply map_filter_id.
  - specialize (Hw w eq_refl). unfold slice_numbers.
    replace (w_cols w <=? c) with false by (symmetry; apply Nat.leb_gt; lia).
    destruct (Nat.leb_spec (sh_cols (w_sheet w)) (w_sc w + c)) as [L|L].
    + symmetry. clear - L. induction (seq rs rl) as [|r l IH]; [reflexivity|]. cbn [flat_map]. rewrite IH, app_nil_r.
      unfold number_at, in_sheet. replace (w_sc w + c <? sh_cols (w_sheet w)) with false by (symmetry; apply Nat.ltb_ge; lia).
      rewrite andb_false_r. now destruct (h r).
    + cbv zeta. destruct ((pieces w rs rl =? 1) && forallb is_none (List.map (fun i => number_at w i c) (seq rs rl))) eqn:E.
      * apply andb_true_iff in E. destruct E as [_ E]. symmetry. clear - E.
        induction (seq rs rl) as [|r l IH]; [reflexivity|]. cbn [flat_map List.map forallb] in *. apply andb_true_iff in E.
        destruct E as [E1 E2]. rewrite IH by assumption. rewrite app_nil_r. destruct (number_at w r c); [discriminate|]. now destruct (h r).
      * rewrite map_combine_same. clear. induction (seq rs rl) as [|r l IH]; [reflexivity|].
        cbn [List.map flat_map]. rewrite IH. reflexivity.
  - destruct (to_num pf v) as [n|].
    + apply map_filter_id.
    + symmetry. clear. induction (seq rs rl) as [|r l IH]; [reflexivity|]. cbn. rewrite IH. now destruct (h r).
  - symmetry. clear. induction (seq rs rl) as [|r l IH]; [reflexivity|]. cbn. rewrite IH. now destruct (h r).
Qed.

Lemma dims_cols : forall rows cols t ps, Forall (fun wp => fits rows cols (fst wp)) ps -> ps <> [] ->
  (match t with TView w => w_cols w = cols | _ => True end) ->
  snd (dims t (List.map (fun '(w, p) => on w p) ps)) = cols.
Proof.
  intros rows cols t ps Hps Hne Ht. unfold dims.
  set (d0 := match t with TView w => (w_rows w, w_cols w) | _ => (1, 1) end).
  assert (H0 : 1 <= cols) by (destruct ps as [|(w & p) ps]; [congruence|]; inversion Hps; subst; destruct H1 as (_ & _ & _ & _ & H & _); exact H).
  assert (Hd : snd d0 <= cols) by (subst d0; destruct t; cbn [snd] in *; lia).
  assert (G : forall ps d, Forall (fun wp => fits rows cols (fst wp)) ps -> snd d <= cols ->
     (ps <> [] \/ snd d = cols) ->
     snd (fold_left (fun d k => match k_view k with
                        | Some w => (Nat.max (fst d) (w_rows w), Nat.max (snd d) (w_cols w))
                        | None => d end) (List.map (fun '(w, p) => on w p) ps) d) = cols).
  { clear. induction ps as [|(w & p) ps IH]; intros d Hps Hd Hn.
    - destruct Hn as [Hn|Hn]; [congruence | exact Hn].
    - inversion Hps; subst. destruct H1 as (_ & _ & Hc & _). cbn [fst] in Hc. cbn [List.map fold_left]. apply IH.
      + assumption.
      + cbn [snd on k_view]. lia.
      + right. cbn [snd on k_view]. lia. }
  apply G; auto.
Qed.

Theorem collect_perm : forall rows cols multi t ps, ps <> [] ->
  Forall (fun wp => fits rows cols (fst wp)) ps ->
  (match t with TView w => w_cols w = cols /\ (multi = true -> fits rows cols w) | _ => True end) ->
  Permutation (collect true multi t (List.map (fun '(w, p) => on w p) ps))
    (flat_map (fun '(r, c) => if hits ps r c then contrib t r c else []) (positions rows cols)).
Proof.
  intros rows cols multi t ps Hne Hps Ht. unfold CrModel.collect. cbv zeta.
  rewrite (dims_cols rows cols t ps) by (auto; destruct t; tauto).
  assert (Hd : exists d, driver multi t (List.map (fun '(w, p) => on w p) ps) = Some d /\ fits rows cols d).
  { destruct ps as [|(w & p) ps]; [congruence|]. inversion Hps; subst. cbn [fst] in *. unfold driver.
    cbn [List.map first_view on k_view]. destruct t as [|tw|v|]; try (destruct multi; eauto; fail).
    destruct multi; [exists tw; split; [reflexivity | now apply Ht] | eauto]. }
  destruct Hd as (d & -> & Hfd). unfold positions. rewrite flat_map_list_prod.
  rewrite <- (row_chunks_rows rows cols d Hfd). unfold rows_of. rewrite flat_map_flat_map.
  apply flat_map_perm_in. intros (rs & rl) Hin. pose proof (row_chunk_in rows cols d rs rl Hfd Hin) as Hlen.
  rewrite (flat_map_swap _ _ _ (fun r c => if hits ps r c then contrib t r c else []) (seq rs rl) (seq 0 cols)).
  erewrite flat_map_ext_in; [reflexivity|]. intros c Hc. apply in_seq in Hc. cbv beta.
  destruct (all_bits_first rows cols c rs rl ps) as (g & E & Hg); auto; [lia|]. rewrite E.
  apply column_contrib; [exact Hg|]. intros w ->. destruct Ht as [Ht _]. lia.
Qed.

End WithLibrary.
