(** Proofs about spills. *)
From Verif Require Import Base Maps ListSort SpillModel SpillSpec.

Lemma cell_eqb_spec : forall a b, cell_eqb a b = true <-> a = b.
Proof.
  intros [s1 r1 c1] [s2 r2 c2]. unfold cell_eqb. cbn. rewrite !andb_true_iff, !Nat.eqb_eq. split.
  - now intros [[-> ->] ->].
  - intros E. injection E. auto.
Qed.
Lemma cell_eqb_refl : forall a, cell_eqb a a = true.
Proof. intros. now apply cell_eqb_spec. Qed.
Lemma cell_eqb_ne : forall a b, a <> b -> cell_eqb a b = false.
Proof. intros a b H. destruct (cell_eqb a b) eqn:E; auto. apply cell_eqb_spec in E. contradiction. Qed.
Lemma cell_dec : forall a b : cell, {a = b} + {a <> b}.
Proof. intros. destruct (cell_eqb a b) eqn:E; [left; now apply cell_eqb_spec|right; intros ->; now rewrite cell_eqb_refl in E]. Qed.
Lemma memc_spec : forall c l, memc c l = true <-> In c l.
Proof.
  intros c l. unfold memc. rewrite existsb_exists. split.
  - intros (y & H & E). apply cell_eqb_spec in E. now subst.
  - intros H. exists c. split; auto. apply cell_eqb_refl.
Qed.
Lemma memc_false : forall c l, memc c l = false <-> ~ In c l.
Proof. intros. rewrite <- memc_spec. destruct (memc c l); split; intros; try discriminate; auto. exfalso; auto. Qed.
Lemma get_put_same : forall V (m : list (cell * V)) k v, get (put m k v) k = Some v.
Proof. intros. apply (mget_put_same cell_eqb cell_eqb_spec). Qed.
Lemma get_put_other : forall V (m : list (cell * V)) k j v, j <> k -> get (put m k v) j = get m j.
Proof. intros. apply (mget_put_other cell_eqb cell_eqb_spec). congruence. Qed.
Lemma get_del_same : forall V (m : list (cell * V)) k, get (del m k) k = None.
Proof. intros. apply mget_del_same. Qed.
Lemma get_del_other : forall V (m : list (cell * V)) k j, j <> k -> get (del m k) j = get m j.
Proof. intros. apply (mget_del_other cell_eqb cell_eqb_spec). congruence. Qed.

(** Folding puts and deletes. *)
Lemma get_dels : forall V (l : list cell) (m : list (cell * V)) c,
  get (fold_left (fun m c => del m c) l m) c = if memc c l then None else get m c.
Proof.
  induction l as [|d l IH]; intros m c; auto. cbn [fold_left]. rewrite IH. cbn [memc existsb]. fold (memc c l).
  destruct (memc c l); [now rewrite orb_true_r|]. rewrite orb_false_r.
  destruct (cell_dec c d) as [->|H]; [rewrite cell_eqb_refl; apply get_del_same|].
  rewrite (cell_eqb_ne _ _ H). now apply get_del_other.
Qed.
Lemma get_puts : forall V (a : V) (l : list cell) (m : list (cell * V)) c,
  get (fold_left (fun m c => put m c a) l m) c = if memc c l then Some a else get m c.
Proof.
  induction l as [|d l IH]; intros m c; auto. cbn [fold_left]. rewrite IH. cbn [memc existsb]. fold (memc c l).
  destruct (memc c l); [now rewrite orb_true_r|]. rewrite orb_false_r.
  destruct (cell_dec c d) as [->|H]; [rewrite cell_eqb_refl; apply get_put_same|].
  rewrite (cell_eqb_ne _ _ H). now apply get_put_other.
Qed.

(** Writes *)
Fixpoint final (ops : list (cell * val)) (c : cell) : option val :=
  match ops with
  | [] => None
  | (d, v) :: ops' => match final ops' c with Some w => Some w | None => if cell_eqb c d then Some v else None end
  end.
Lemma write_maps : forall a st op, owner (write a st op) = owner st /\ listed (write a st op) = listed st /\ by_sheet (write a st op) = by_sheet st.
Proof. intros. unfold write. destruct (cell_eqb (fst op) a); auto. Qed.
Lemma writes_maps : forall a ops st, owner (fold_left (write a) ops st) = owner st /\
  listed (fold_left (write a) ops st) = listed st /\ by_sheet (fold_left (write a) ops st) = by_sheet st.
Proof.
  intros a. induction ops as [|op ops IH]; intros st; auto. cbn [fold_left].
  destruct (IH (write a st op)) as (-> & -> & ->). apply write_maps.
Qed.
Lemma writes_content : forall a ops st c,
  get (content (fold_left (write a) ops st)) c =
  match final ops c with
  | Some v => Some (Entry (if cell_eqb c a then formula_at st c else None) (Some v))
  | None => get (content st) c
  end.
Proof.
  intros a. induction ops as [|[d v] ops IH]; intros st c; auto. cbn [fold_left final]. rewrite IH.
  assert (W : get (content (write a st (d, v))) c =
     if cell_eqb c d then Some (Entry (if cell_eqb c a then formula_at st c else None) (Some v)) else get (content st) c).
  { unfold write. cbn [fst snd]. destruct (cell_dec c d) as [->|H].
    - rewrite cell_eqb_refl. destruct (cell_dec d a) as [->|H]; [rewrite cell_eqb_refl|rewrite (cell_eqb_ne _ _ H)]; cbn; apply get_put_same.
    - rewrite (cell_eqb_ne _ _ H). destruct (cell_dec d a) as [->|H2]; [rewrite cell_eqb_refl|rewrite (cell_eqb_ne _ _ H2)]; cbn; now apply get_put_other. }
  destruct (final ops c) as [w|].
  - f_equal. f_equal. destruct (cell_eqb c a) eqn:E; auto. unfold formula_at at 1. rewrite W.
    destruct (cell_eqb c d); reflexivity.
  - rewrite W. destruct (cell_eqb c d); reflexivity.
Qed.
Lemma writes_read : forall a ops st c, read (fold_left (write a) ops st) c =
  match final ops c with Some v => v | None => read st c end.
Proof. intros. unfold read. rewrite writes_content. destruct (final ops c); reflexivity. Qed.
Lemma writes_formula : forall a ops st c, formula_at (fold_left (write a) ops st) c =
  match final ops c with Some _ => if cell_eqb c a then formula_at st c else None | None => formula_at st c end.
Proof. intros. unfold formula_at at 1. rewrite writes_content. destruct (final ops c); [reflexivity|]. reflexivity. Qed.
Lemma final_app : forall l1 l2 c, final (l1 ++ l2) c = match final l2 c with Some v => Some v | None => final l1 c end.
Proof.
  induction l1 as [|[d v] l1 IH]; intros l2 c; cbn [app final]; [destruct (final l2 c); reflexivity|].
  rewrite IH. destruct (final l2 c); reflexivity.
Qed.
Lemma final_none : forall ops c, final ops c = None <-> ~ In c (map fst ops).
Proof.
  induction ops as [|[d v] ops IH]; intros c; cbn; [tauto|]. specialize (IH c). destruct (final ops c) as [w|].
  - split; [discriminate|]. intros H. exfalso. assert (~ In c (map fst ops)) by tauto. apply IH in H0. discriminate.
  - destruct (cell_dec c d) as [->|H]; [rewrite cell_eqb_refl|rewrite (cell_eqb_ne _ _ H)].
    + split; [discriminate|]. intros F. exfalso. apply F. now left.
    + split; auto. intros _ [F|F]; [congruence|]. now apply (proj1 IH).
Qed.
Lemma final_fun : forall (g : cell -> val) (l : list cell) c, final (map (fun c => (c, g c)) l) c = if memc c l then Some (g c) else None.
Proof.
  intros g. induction l as [|d l IH]; intros c; auto. cbn [map final]. rewrite IH. cbn [memc existsb]. fold (memc c l).
  destruct (memc c l); [now rewrite orb_true_r|]. rewrite orb_false_r.
  destruct (cell_dec c d) as [->|H]; [rewrite cell_eqb_refl; reflexivity|]. now rewrite (cell_eqb_ne _ _ H).
Qed.

(** Rollback *)
Lemma rollback_read : forall st a ops c,
  read (fold_left (write a) (rev (map (fun op => (fst op, read st (fst op))) ops)) (fold_left (write a) ops st)) c = read st c.
Proof.
  intros. rewrite writes_read, writes_read. rewrite <- map_rev.
  rewrite <- (map_map fst (fun c => (c, read st c))). rewrite final_fun.
  destruct (memc c (map fst (rev ops))) eqn:M; auto. apply memc_false in M.
  rewrite map_rev, <- in_rev in M. apply final_none in M. now rewrite M.
Qed.
Lemma rollback_formula : forall st a ops c,
  (forall d, In d (map fst ops) -> d <> a -> formula_at st d = None) ->
  formula_at (fold_left (write a) (rev (map (fun op => (fst op, read st (fst op))) ops)) (fold_left (write a) ops st)) c = formula_at st c.
Proof.
  intros st a ops c H. rewrite !writes_formula. rewrite <- map_rev, <- (map_map fst (fun c => (c, read st c))), final_fun.
  assert (G : match final ops c with Some _ => if cell_eqb c a then formula_at st c else None | None => formula_at st c end = formula_at st c).
  { destruct (final ops c) eqn:F; auto. destruct (cell_eqb c a) eqn:E; auto.
    assert (In c (map fst ops)).
    { destruct (in_dec cell_dec c (map fst ops)); auto. apply final_none in n. congruence. }
    symmetry. apply H; auto. intros ->. now rewrite cell_eqb_refl in E. }
  destruct (memc c (map fst (rev ops))) eqn:M; [|exact G].
  destruct (cell_eqb c a) eqn:E; [exact G|].
  apply memc_spec in M. rewrite map_rev, <- in_rev in M. symmetry. apply H; auto.
  intros ->. now rewrite cell_eqb_refl in E.
Qed.
Lemma commit_fault : forall st a t rows n st' ok, n < length (ops_of st a t rows) -> commit st a t rows (Some n) = (st', ok) ->
  ok = false /\ (forall c, read st' c = read st c) /\ owner st' = owner st /\ listed st' = listed st /\ by_sheet st' = by_sheet st.
Proof.
  intros st a t rows n st' ok H E. unfold commit in E. apply Nat.ltb_lt in H. rewrite H in E. injection E as <- <-.
  split; auto. split; [intros; apply rollback_read|].
  destruct (writes_maps a (rev (map (fun op => (fst op, read st (fst op))) (firstn n (ops_of st a t rows))))
     (fold_left (write a) (firstn n (ops_of st a t rows)) st)) as (-> & -> & ->). apply writes_maps.
Qed.

(** The rectangle of writes. *)
Lemma row_ops_in : forall vs s r c d v, In (d, v) (row_ops s r c vs) <->
  exists j, nth_error vs j = Some v /\ d = Cell s r (c + j).
Proof.
  induction vs as [|w vs IH]; intros s r c d v; cbn.
  - split; [intros []|intros (j & H & _); destruct j; discriminate].
  - rewrite IH. split.
    + intros [H|(j & H & ->)]; [injection H as <- <-; exists 0; now rewrite Nat.add_0_r|].
      exists (S j). split; auto. f_equal. lia.
    + intros (j & H & ->). destruct j as [|j]; cbn in H.
      * left. injection H as ->. now rewrite Nat.add_0_r.
      * right. exists j. split; auto. f_equal. lia.
Qed.
Lemma rect_ops_in : forall rows s r c d v, In (d, v) (rect_ops s r c rows) <->
  exists i j vs, nth_error rows i = Some vs /\ nth_error vs j = Some v /\ d = Cell s (r + i) (c + j).
Proof.
  induction rows as [|vs rows IH]; intros s r c d v; cbn.
  - split; [intros []|intros (i & j & vs & H & _); destruct i; discriminate].
  - rewrite in_app_iff, row_ops_in, IH. split.
    + intros [(j & H & ->)|(i & j & ws & H & H2 & ->)].
      * exists 0, j, vs. rewrite Nat.add_0_r. auto.
      * exists (S i), j, ws. split; auto. split; auto. f_equal. lia.
    + intros (i & j & ws & H & H2 & ->). destruct i as [|i]; cbn in H.
      * left. injection H as ->. exists j. rewrite Nat.add_0_r. auto.
      * right. exists i, j, ws. split; auto. split; auto. f_equal. lia.
Qed.
(** When each cell is written once the final value is the one written. *)
Lemma final_unique : forall ops c v, (forall w, In (c, w) ops -> w = v) -> In (c, v) ops -> final ops c = Some v.
Proof.
  induction ops as [|[d w] ops IH]; intros c v U H; [destruct H|]. cbn [final].
  destruct (in_dec cell_dec c (map fst ops)) as [Hin|Hin].
  - apply in_map_iff in Hin. destruct Hin as ([d' w'] & E & Hin). cbn in E. subst d'.
    assert (w' = v) by (apply U; now right). subst w'. rewrite (IH c v); auto. intros w0 Hw. apply U. now right.
  - assert (F : final ops c = None) by now apply final_none. rewrite F. destruct H as [H|H].
    + injection H as -> ->. now rewrite cell_eqb_refl.
    + exfalso. apply Hin. apply in_map_iff. exists (c, v). auto.
Qed.
Lemma final_in : forall ops c v, final ops c = Some v -> In (c, v) ops.
Proof.
  induction ops as [|[d w] ops IH]; intros c v H; [discriminate|]. cbn in H. destruct (final ops c) as [u|] eqn:E.
  - injection H as ->. right. auto.
  - destruct (cell_dec c d) as [->|Hne]; [rewrite cell_eqb_refl in H; injection H as ->; now left|].
    rewrite (cell_eqb_ne _ _ Hne) in H. discriminate.
Qed.
Lemma rect_final : forall rows s r c i j vs v, nth_error rows i = Some vs -> nth_error vs j = Some v ->
  final (rect_ops s r c rows) (Cell s (r + i) (c + j)) = Some v.
Proof.
  intros rows s r c i j vs v Hi Hj. apply final_unique.
  - intros w Hw. apply rect_ops_in in Hw. destruct Hw as (i' & j' & vs' & H1 & H2 & E). injection E as E1 E2.
    assert (i' = i) by lia. assert (j' = j) by lia. subst. congruence.
  - apply rect_ops_in. exists i, j, vs. auto.
Qed.
Lemma targets_in : forall a h w c, In c (targets_of a h w) <->
  exists i j, i < h /\ j < w /\ c = Cell (sheet a) (row a + i) (col a + j).
Proof.
  intros a h w c. unfold targets_of. rewrite in_flat_map. split.
  - intros (i & Hi & H). apply in_map_iff in H. destruct H as (j & <- & Hj). apply in_seq in Hi, Hj. exists i, j. split; [lia|]. split; [lia|reflexivity].
  - intros (i & j & Hi & Hj & ->). exists i. split; [apply in_seq; lia|]. apply in_map_iff. exists j. split; auto. apply in_seq. lia.
Qed.
Lemma rect_in_targets : forall a rows d v, rectangular rows ->
  In (d, v) (rect_ops (sheet a) (row a) (col a) rows) -> In d (targets_of a (length rows) (width rows)).
Proof.
  intros a rows d v R H. apply rect_ops_in in H. destruct H as (i & j & vs & Hi & Hj & ->).
  apply targets_in. exists i, j. split; [apply nth_error_Some; congruence|]. split; auto.
  unfold rectangular in R. rewrite Forall_forall in R. rewrite <- (R vs) by (eapply nth_error_In; eauto).
  apply nth_error_Some. congruence.
Qed.
Lemma targets_head : forall a h w c l, targets_of a h w = c :: l -> c = a.
Proof.
  intros [s r c0] h w c l H. destruct h as [|h]; [discriminate|]. destruct w as [|w].
  - exfalso. assert (In c (targets_of (Cell s r c0) (S h) 0)) by (rewrite H; now left).
    apply targets_in in H0. destruct H0 as (i & j & _ & Hj & _). lia.
  - cbn in H. injection H as <- _. f_equal; lia.
Qed.

(** What a successful commit does. *)
Lemma commit_ok : forall st a rows st', rectangular rows ->
  let t := targets_of a (length rows) (width rows) in
  commit st a t rows None = (st', true) ->
  (forall i j vs v, nth_error rows i = Some vs -> nth_error vs j = Some v ->
     read st' (Cell (sheet a) (row a + i) (col a + j)) = v) /\
  (forall c, In c (cells_of st a) -> ~ In c t -> read st' c = Empty) /\
  (forall c, ~ In c t -> ~ In c (cells_of st a) -> get (content st') c = get (content st) c) /\
  formula_at st' a = formula_at st a.
Proof.
  intros st a rows st' R t E. unfold commit in E. injection E as <-.
  assert (RD : forall c, read (take (fold_left (write a) (ops_of st a t rows) st) a t) c = read (fold_left (write a) (ops_of st a t rows) st) c) by reflexivity.
  assert (OPS : ops_of st a t rows = map (fun c => (c, Empty)) (dropped st a t) ++ rect_ops (sheet a) (row a) (col a) rows \/
                (t = [] /\ ops_of st a t rows = map (fun c => (c, Empty)) (dropped st a t))).
  { unfold ops_of. destruct t as [|f l] eqn:Et; [right; rewrite app_nil_r; auto|left].
    rewrite (targets_head _ _ _ _ _ Et). reflexivity. }
  assert (DR : forall c, In c (dropped st a t) <-> In c (cells_of st a) /\ ~ In c t).
  { intros c. unfold dropped. rewrite filter_In, negb_true_iff, memc_false. tauto. }
  assert (FR : forall c, final (ops_of st a t rows) c =
     match final (rect_ops (sheet a) (row a) (col a) rows) c with
     | Some v => Some v
     | None => if memc c (dropped st a t) then Some Empty else None
     end).
  { intros c. destruct OPS as [->|[Et ->]].
    - rewrite final_app, (final_fun (fun _ => Empty)). reflexivity.
    - rewrite (final_fun (fun _ => Empty)).
      destruct (final (rect_ops (sheet a) (row a) (col a) rows) c) eqn:F; auto.
      apply final_in in F. apply (rect_in_targets _ _ _ _ R) in F. fold t in F. rewrite Et in F. destruct F. }
  assert (NT : forall c, ~ In c t -> final (rect_ops (sheet a) (row a) (col a) rows) c = None).
  { intros c H. destruct (final _ c) eqn:F; auto. apply final_in in F. apply (rect_in_targets _ _ _ _ R) in F. contradiction. }
  repeat split.
  - intros i j vs v Hi Hj. rewrite RD, writes_read, FR. now rewrite (rect_final _ _ _ _ _ _ _ _ Hi Hj).
  - intros c Hc Ht. rewrite RD, writes_read, FR, (NT c Ht).
    assert (M : memc c (dropped st a t) = true) by (apply memc_spec, DR; auto). now rewrite M.
  - intros c Ht Hc. change (content (take (fold_left (write a) (ops_of st a t rows) st) a t)) with (content (fold_left (write a) (ops_of st a t rows) st)).
    rewrite writes_content, FR, (NT c Ht).
    assert (M : memc c (dropped st a t) = false) by (apply memc_false; rewrite DR; tauto). now rewrite M.
  - change (formula_at (fold_left (write a) (ops_of st a t rows) st) a = formula_at st a).
    rewrite writes_formula. rewrite cell_eqb_refl. destruct (final _ a); reflexivity.
Qed.

(** Clearing *)
Lemma clear_child_maps : forall a l st, owner (fold_left (clear_child a) l st) = owner st /\
  listed (fold_left (clear_child a) l st) = listed st /\ by_sheet (fold_left (clear_child a) l st) = by_sheet st.
Proof.
  intros a. induction l as [|c l IH]; intros st; auto. cbn [fold_left]. destruct (IH (clear_child a st c)) as (-> & -> & ->).
  unfold clear_child. destruct (cell_eqb c a); auto. destruct (get (content st) c); auto.
Qed.
Lemma clear_child_content : forall a l st c, get (content (fold_left (clear_child a) l st)) c =
  if memc c l && negb (cell_eqb c a) then match get (content st) c with Some _ => Some (Entry None (Some Empty)) | None => None end
  else get (content st) c.
Proof.
  intros a. induction l as [|d l IH]; intros st c; auto. cbn [fold_left]. rewrite IH. cbn [memc existsb]. fold (memc c l).
  assert (W : get (content (clear_child a st d)) c =
     if cell_eqb c d && negb (cell_eqb c a) then match get (content st) c with Some _ => Some (Entry None (Some Empty)) | None => None end
     else get (content st) c).
  { unfold clear_child. destruct (cell_dec d a) as [->|Ha].
    - rewrite cell_eqb_refl. destruct (cell_eqb c a); reflexivity.
    - rewrite (cell_eqb_ne _ _ Ha). destruct (cell_dec c d) as [->|Hd].
      + rewrite cell_eqb_refl, (cell_eqb_ne _ _ Ha). cbn [andb negb]. destruct (get (content st) d) eqn:G; [apply get_put_same|exact G].
      + rewrite (cell_eqb_ne _ _ Hd). cbn [andb]. destruct (get (content st) d) eqn:G; auto. now apply get_put_other. }
  rewrite W. destruct (cell_eqb c d), (memc c l), (cell_eqb c a); cbn; auto; destruct (get (content st) c); auto.
Qed.
Lemma clear_content : forall st a c, get (content (clear st a)) c =
  if memc c (cells_of st a) && negb (cell_eqb c a) then match get (content st) c with Some _ => Some (Entry None (Some Empty)) | None => None end
  else get (content st) c.
Proof.
  intros. unfold clear, cells_of. destruct (get (listed st) a) as [l|]; auto. rewrite clear_child_content. reflexivity.
Qed.
Lemma clear_owner : forall st a c, get (owner (clear st a)) c = if memc c (cells_of st a) then None else get (owner st) c.
Proof.
  intros. unfold clear, cells_of. destruct (get (listed st) a) as [l|]; auto.
  destruct (clear_child_maps a l (State (content st) (fold_left (fun m c => del m c) l (owner st)) (del (listed st) a)
     (fold_left (fun m c => del m c) l (by_sheet st)))) as (-> & _ & _). cbn. apply get_dels.
Qed.
Lemma clear_by_sheet : forall st a c, get (by_sheet (clear st a)) c = if memc c (cells_of st a) then None else get (by_sheet st) c.
Proof.
  intros. unfold clear, cells_of. destruct (get (listed st) a) as [l|]; auto.
  destruct (clear_child_maps a l (State (content st) (fold_left (fun m c => del m c) l (owner st)) (del (listed st) a)
     (fold_left (fun m c => del m c) l (by_sheet st)))) as (_ & _ & ->). cbn. apply get_dels.
Qed.
Lemma clear_listed : forall st a b, get (listed (clear st a)) b = if cell_eqb b a then None else get (listed st) b.
Proof.
  intros. unfold clear. destruct (get (listed st) a) as [l|] eqn:E.
  - destruct (clear_child_maps a l (State (content st) (fold_left (fun m c => del m c) l (owner st)) (del (listed st) a)
     (fold_left (fun m c => del m c) l (by_sheet st)))) as (_ & -> & _). cbn.
    destruct (cell_dec b a) as [->|H]; [rewrite cell_eqb_refl; apply get_del_same|].
    rewrite (cell_eqb_ne _ _ H). now apply get_del_other.
  - destruct (cell_dec b a) as [->|H]; [now rewrite cell_eqb_refl|]. now rewrite (cell_eqb_ne _ _ H).
Qed.

Lemma cells_of_in : forall st a c, In c (cells_of st a) <-> exists l, get (listed st) a = Some l /\ In c l.
Proof.
  intros. unfold cells_of. destruct (get (listed st) a) as [l|].
  - split; [intros H; eauto|]. intros (l' & E & H). injection E as ->. auto.
  - split; [intros []|intros (l' & E & _); discriminate].
Qed.
Lemma clear_inverse : forall st a, inverse st -> inverse (clear st a).
Proof.
  intros st a [I1 I2]. split.
  - intros c b. rewrite clear_owner, clear_listed. destruct (memc c (cells_of st a)) eqn:M.
    + apply memc_spec in M. apply cells_of_in in M. apply I1 in M. split; [discriminate|]. intros (l & E & H).
      destruct (cell_dec b a) as [->|Hb]; [rewrite cell_eqb_refl in E; discriminate|]. rewrite (cell_eqb_ne _ _ Hb) in E.
      assert (get (owner st) c = Some b) by (apply I1; eauto). congruence.
    + apply memc_false in M. rewrite I1. destruct (cell_dec b a) as [->|Hb].
      * rewrite cell_eqb_refl. split; [intros H; apply cells_of_in in H; contradiction|intros (l & E & _); discriminate].
      * rewrite (cell_eqb_ne _ _ Hb). reflexivity.
  - intros c. rewrite clear_owner, clear_by_sheet, I2. reflexivity.
Qed.
Lemma plan_none : forall st a allow t, plan st a t allow = None <->
  forall c, In c t -> get (owner st) c = Some a \/
    (get (owner st) c = None /\ (c = a \/ get (content st) c = None \/
       exists e, get (content st) c = Some e /\
         ((formula e <> None /\ In c allow) \/ (formula e = None /\ (value e = None \/ value e = Some Empty))))).
Proof.
  intros st a allow. induction t as [|c t IH]; cbn [plan].
  - split; auto. intros _ c [].
  - assert (STEP : (plan st a t allow = None <-> forall d, In d (c :: t) -> d <> c \/ True -> d = c \/ True) -> True) by auto.
    clear STEP.
    destruct (get (owner st) c) as [b|] eqn:O.
    + destruct (cell_dec b a) as [->|Hb].
      * rewrite cell_eqb_refl, IH. split; [intros H d [<-|Hd]; auto|intros H d Hd; apply H; now right].
      * rewrite (cell_eqb_ne _ _ Hb). split; [discriminate|]. intros H. destruct (H c (or_introl eq_refl)) as [F|[F _]]; congruence.
    + destruct (get (content st) c) as [e|] eqn:G.
      * destruct (cell_dec c a) as [->|Hc].
        { rewrite cell_eqb_refl, IH. split; [intros H d [<-|Hd]; auto|intros H d Hd; apply H; now right]. }
        rewrite (cell_eqb_ne _ _ Hc). destruct (formula e) as [f|] eqn:Fe.
        { destruct (memc c allow) eqn:M.
          - apply memc_spec in M. rewrite IH. split.
            + intros H d [<-|Hd]; auto. right. split; auto. right. right. exists e. split; auto. left. rewrite Fe. split; [discriminate|auto].
            + intros H d Hd. apply H. now right.
          - apply memc_false in M. split; [discriminate|]. intros H. destruct (H c (or_introl eq_refl)) as [F|[_ F]]; [congruence|].
            destruct F as [F|[F|(e' & E & [[_ F]|[F _]])]]; congruence || contradiction. }
        assert (CASES : (exists n, value e = Some (Val n)) \/ (value e = None \/ value e = Some Empty)).
        { destruct (value e) as [[|n]|]; eauto. }
        destruct CASES as [(n & Ev)|Ev].
        { rewrite Ev. split; [discriminate|]. intros H. destruct (H c (or_introl eq_refl)) as [F|[_ F]]; [congruence|].
          destruct F as [F|[F|(e' & E & [[F _]|[_ [F|F]]])]]; try congruence. }
        assert (EQ : match value e with Some (Val _) => Some ByValue | _ => plan st a t allow end = plan st a t allow).
        { destruct Ev as [->| ->]; reflexivity. }
        rewrite EQ, IH. split.
        { intros H d [<-|Hd]; auto. right. split; auto. right. right. exists e. auto. }
        { intros H d Hd. apply H. now right. }
      * rewrite IH. split; [intros H d [<-|Hd]; auto|intros H d Hd; apply H; now right].
Qed.
(** Clearing one's own spill never blocks a spill that could be planned before. *)
Lemma plan_after_clear : forall st a t, inverse st -> plan st a t [] = None -> plan (clear st a) a t [] = None.
Proof.
  intros st a t [I1 I2] H. rewrite plan_none in *. intros c Hc. specialize (H c Hc).
  rewrite clear_owner, clear_content. destruct (memc c (cells_of st a)) eqn:M.
  - right. split; auto. destruct (cell_dec c a) as [->|Ha]; auto. right. rewrite (cell_eqb_ne _ _ Ha). cbn [andb negb].
    destruct (get (content st) c); auto. right. eexists. split; [reflexivity|]. right. cbn. auto.
  - cbn [andb]. destruct H as [H|H]; auto.
Qed.
Lemma take_inverse : forall st a t, inverse st -> (forall c, In c t -> get (owner st) c = Some a \/ get (owner st) c = None) ->
  inverse (take st a t).
Proof.
  intros st a t [I1 I2] H.
  assert (DR : forall c, memc c (dropped st a t) = true <-> In c (cells_of st a) /\ ~ In c t).
  { intros c. rewrite memc_spec. unfold dropped. rewrite filter_In, negb_true_iff, memc_false. tauto. }
  split.
  - intros c b. unfold take. cbn [owner listed]. rewrite get_puts, get_dels.
    destruct (memc c t) eqn:M.
    + apply memc_spec in M. destruct (cell_dec b a) as [->|Hb].
      * rewrite get_put_same. split; eauto.
      * rewrite get_put_other by auto. split; [intros E; congruence|]. intros E. apply I1 in E. destruct (H c M); congruence.
    + apply memc_false in M. destruct (memc c (dropped st a t)) eqn:D.
      * apply DR in D. destruct D as [D _]. apply cells_of_in in D. apply I1 in D. split; [discriminate|].
        destruct (cell_dec b a) as [->|Hb].
        { rewrite get_put_same. intros (l & E & Hl). injection E as <-. contradiction. }
        rewrite get_put_other by auto. intros E. apply I1 in E. congruence.
      * rewrite I1. destruct (cell_dec b a) as [->|Hb].
        { rewrite get_put_same. split.
          - intros E. apply cells_of_in in E. assert (memc c (dropped st a t) = true) by (apply DR; auto). congruence.
          - intros (l & E & Hl). injection E as <-. contradiction. }
        rewrite get_put_other by auto. reflexivity.
  - intros c. unfold take. cbn [owner by_sheet]. rewrite !get_puts, !get_dels, I2. reflexivity.
Qed.
Lemma same_maps_inverse : forall st st', owner st' = owner st -> listed st' = listed st -> by_sheet st' = by_sheet st -> inverse st -> inverse st'.
Proof. intros st st' E1 E2 E3 [I1 I2]. unfold inverse. rewrite E1, E2, E3. auto. Qed.
Lemma commit_inverse : forall st a t rows fault, inverse st -> plan st a t [] = None -> inverse (fst (commit st a t rows fault)).
Proof.
  intros st a t rows fault I P.
  assert (G : inverse (take (fold_left (write a) (ops_of st a t rows) st) a t)).
  { destruct (writes_maps a (ops_of st a t rows) st) as (E1 & E2 & E3).
    apply take_inverse; [now apply (same_maps_inverse st)|]. rewrite E1. rewrite plan_none in P.
    intros c Hc. destruct (P c Hc) as [|[]]; auto. }
  unfold commit. destruct fault as [n|]; [|exact G]. destruct (n <? length (ops_of st a t rows)) eqn:L; [|exact G].
  apply Nat.ltb_lt in L.
  destruct (commit st a t rows (Some n)) as [st' ok] eqn:E. pose proof E as E'.
  destruct (commit_fault st a t rows n st' ok L E) as (_ & _ & E1 & E2 & E3).
  unfold commit in E'. apply Nat.ltb_lt in L. rewrite L in E'. injection E' as <- _. cbn [fst]. now apply (same_maps_inverse st).
Qed.
Lemma update_inverse : forall st c v, inverse st -> inverse (update_value st c v).
Proof. intros. now apply (same_maps_inverse st). Qed.
Lemma array_inverse : forall st a rows, inverse st -> inverse (array_result st a rows).
Proof.
  intros st a rows I. unfold array_result. destruct (plan st a _ []) eqn:P; [now apply update_inverse, clear_inverse|].
  set (st1 := match cells_of st a with [] => st | _ => clear st a end).
  assert (I1 : inverse st1) by (unfold st1; destruct (cells_of st a); auto; now apply clear_inverse).
  destruct (plan st1 a _ []) eqn:P2; auto. apply update_inverse. now apply commit_inverse.
Qed.
Lemma maybe_clear_inverse : forall st a, inverse st -> inverse (match cells_of st a with [] => st | _ => clear st a end).
Proof. intros. destruct (cells_of st a); auto. now apply clear_inverse. Qed.
Lemma start_inverse : inverse start.
Proof. split; [|reflexivity]. intros c a. cbn. split; [discriminate|intros (l & E & _); discriminate]. Qed.
Lemma edited_inverse : forall st e, inverse st -> inverse (edited st e).
Proof.
  intros st e I. destruct e; cbn [edited].
  - now apply array_inverse.
  - now apply update_inverse, maybe_clear_inverse.
  - apply (same_maps_inverse (match cells_of st c with [] => st | _ => clear st c end)); auto. now apply maybe_clear_inverse.
  - apply (same_maps_inverse (match cells_of st c with [] => st | _ => clear st c end)); auto. now apply maybe_clear_inverse.
Qed.
Lemma direct_inverse : forall st e, inverse st -> inverse (direct st e).
Proof.
  intros st e I. destruct e; cbn [direct]; try (now apply edited_inverse); now apply (same_maps_inverse st).
Qed.
