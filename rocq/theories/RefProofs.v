(** Proofs about reference adjustment under inserts and deletes. *)
From Verif Require Import Base Maps RefModel RefSpec.
From Coq Require Import ZifyN ZifyNat ZifyBool.
Ltac Zify.zify_post_hook ::= Z.div_mod_to_equations.
Open Scope N_scope.

(** * Induction over trees *)
Section AstInd.
  Variable P : ast -> Prop.
  Hypothesis Hlit : forall l, P (ALit l).
  Hypothesis Homit : P AOmitted.
  Hypothesis Href : forall r, P (ARef r).
  Hypothesis Hun : forall o e, P e -> P (AUnary o e).
  Hypothesis Hbin : forall o l r, P l -> P r -> P (ABinary o l r).
  Hypothesis Hfun : forall n l, Forall P l -> P (AFunction n l).
  Hypothesis Hcall : forall c l, P c -> Forall P l -> P (ACall c l).
  Hypothesis Harr : forall l, Forall (Forall P) l -> P (AArray l).
  Fixpoint ast_ind' (a : ast) : P a :=
    let fix many (l : list ast) : Forall P l :=
      match l with
      | [] => @Forall_nil _ P
      | x :: xs => @Forall_cons _ P x xs (ast_ind' x) (many xs)
      end in
    let fix rows (l : list (list ast)) : Forall (Forall P) l :=
      match l with
      | [] => @Forall_nil _ (Forall P)
      | x :: xs => @Forall_cons _ (Forall P) x xs (many x) (rows xs)
      end in
    match a with
    | ALit l => Hlit l
    | AOmitted => Homit
    | ARef r => Href r
    | AUnary o e => Hun o e (ast_ind' e)
    | ABinary o l r => Hbin o l r (ast_ind' l) (ast_ind' r)
    | AFunction n l => Hfun n l (many l)
    | ACall c l => Hcall c l (ast_ind' c) (many l)
    | AArray l => Harr l (rows l)
    end.
End AstInd.

Lemma text_eqb_eq : forall a b, text_eqb a b = true -> a = b.
Proof. intros a b H. now apply text_eqb_spec. Qed.

Lemma on_eqb_eq : forall a b, on_eqb a b = true -> a = b.
Proof. intros [x|] [y|] H; cbn in H; try discriminate; auto. apply N.eqb_eq in H. now subst. Qed.
Lemma otext_eqb_eq : forall a b, otext_eqb a b = true -> a = b.
Proof. intros [x|] [y|] H; cbn in H; try discriminate; auto. apply text_eqb_eq in H. now subst. Qed.
Lemma on_eqb_rfl : forall a, on_eqb a a = true.
Proof. intros [x|]; cbn; auto. apply N.eqb_refl. Qed.
Lemma otext_eqb_rfl : forall a, otext_eqb a a = true.
Proof. intros [x|]; cbn; auto. now apply text_eqb_spec. Qed.

Lemma refty_eqb_eq : forall a b, refty_eqb a b = true -> a = b.
Proof.
  intros [x|x|x] [y|y|y] H; cbn in H; try discriminate.
  - destruct x, y; cbn in H. rewrite !andb_true_iff in H. destruct H as [[[[A B] C] D] E].
    apply otext_eqb_eq in A. apply N.eqb_eq in B. apply N.eqb_eq in C.
    apply eqb_prop in D. apply eqb_prop in E. now subst.
  - destruct x, y; cbn in H. rewrite !andb_true_iff in H. destruct H as [[[[[[[[A B] C] D] E] F] G] I] J].
    apply otext_eqb_eq in A. apply on_eqb_eq in B. apply on_eqb_eq in C. apply on_eqb_eq in D. apply on_eqb_eq in E.
    apply eqb_prop in F. apply eqb_prop in G. apply eqb_prop in I. apply eqb_prop in J. now subst.
  - apply N.eqb_eq in H. now subst.
Qed.
Lemma refty_eqb_rfl : forall a, refty_eqb a a = true.
Proof.
  intros [x|x|x]; cbn; rewrite ?otext_eqb_rfl, ?on_eqb_rfl, ?N.eqb_refl, ?eqb_reflx; auto.
Qed.

Definition node_of (d : adjustment) : ast :=
  match d with AdjRef r => ARef r | Invalidated => ALit LRef end.

(** * From references to trees *)
Section Lift.
  Variable get_id : text -> option N.
  Variables (p : policy) (op : shift_op) (ctx : option N).
  Variable Q : refty -> Prop.
  Variable P : refty -> ast -> Prop.
  Hypothesis one : forall r, Q r -> exists d, adj_reference get_id p op ctx r = Ok d /\ P r (node_of d).

  Lemma adj_children_ok : forall l,
    Forall (fun a => every Q a -> exists o, adj_inner get_id p op ctx a = Ok o /\ lift P a (or_old o a)) l ->
    Forall (every Q) l ->
    exists l' ch, adj_children (adj_inner get_id p op ctx) l = Ok (l', ch) /\ Forall2 (lift P) l l'
                  /\ (ch = false -> l' = l).
  Proof.
    induction l as [|x xs IH]; intros H E; cbn.
    - exists [], false. auto.
    - inversion H as [|? ? H1 H2]; subst. inversion E as [|? ? E1 E2]; subst.
      destruct (H1 E1) as (o & -> & L). cbn. destruct (IH H2 E2) as (ys & ch & -> & F & C). cbn.
      destruct o as [y|]; cbn in L.
      + exists (y :: ys), true. repeat split; auto. discriminate.
      + exists (x :: ys), ch. repeat split; auto. intros X. now rewrite C.
  Qed.

  Lemma adj_rows_ok : forall l,
    Forall (Forall (fun a => every Q a -> exists o, adj_inner get_id p op ctx a = Ok o /\ lift P a (or_old o a))) l ->
    Forall (Forall (every Q)) l ->
    exists l' ch, adj_rows (adj_inner get_id p op ctx) l = Ok (l', ch) /\ Forall2 (Forall2 (lift P)) l l'
                  /\ (ch = false -> l' = l).
  Proof.
    induction l as [|x xs IH]; intros H E; cbn.
    - exists [], false. auto.
    - inversion H as [|? ? H1 H2]; subst. inversion E as [|? ? E1 E2]; subst.
      destruct (adj_children_ok x H1 E1) as (r' & c1 & -> & F1 & C1). cbn.
      destruct (IH H2 E2) as (ys & ch & -> & F & C). cbn.
      exists (r' :: ys), (c1 || ch). repeat split; auto.
      intros X. apply orb_false_elim in X. destruct X. now rewrite C1, C by auto.
  Qed.

  Lemma adj_inner_ok : forall a, every Q a ->
    exists o, adj_inner get_id p op ctx a = Ok o /\ lift P a (or_old o a).
  Proof.
    induction a using ast_ind'; intros E; inversion E; subst; cbn [adj_inner].
    - exists None. split; auto. constructor.
    - exists None. split; auto. constructor.
    - destruct (one r) as (d & -> & D); auto. cbn [rbind]. destruct d as [r'|]; cbn in D.
      + destruct (refty_eqb r' r) eqn:X.
        * apply refty_eqb_eq in X. subst. exists None. split; auto. now constructor.
        * exists (Some (ARef r')). split; auto. now constructor.
      + exists (Some (ALit LRef)). split; auto. now constructor.
    - destruct IHa as (x & -> & L); auto. cbn. destruct x; cbn in L.
      + eexists. split; [reflexivity|]. cbn. now constructor.
      + exists None. split; auto. cbn. now constructor.
    - destruct IHa1 as (x & -> & L); auto. cbn [rbind]. destruct IHa2 as (y & -> & M); auto. cbn [rbind].
      destruct x, y; (eexists; split; [reflexivity|]); cbn in *; now constructor.
    - destruct (adj_children_ok l) as (l' & ch & -> & F & C); auto. cbn [rbind].
      destruct ch; (eexists; split; [reflexivity|]); cbn; constructor; auto. now rewrite C in F by auto.
    - destruct IHa as (x & -> & L); auto. cbn [rbind].
      destruct (adj_children_ok l) as (l' & ch & -> & F & C); auto. cbn [rbind].
      destruct x, ch; (eexists; split; [reflexivity|]); cbn in *; constructor; auto.
      now rewrite C in F by auto.
    - destruct (adj_rows_ok l) as (l' & ch & -> & F & C); auto. cbn [rbind].
      destruct ch; (eexists; split; [reflexivity|]); cbn; constructor; auto. now rewrite C in F by auto.
  Qed.
End Lift.

(** A reported change is a change. *)
Lemma adj_children_changed : forall adj l,
  Forall (fun a => forall a', adj a = Ok (Some a') -> a' <> a) l ->
  forall l', adj_children adj l = Ok (l', true) -> l' <> l.
Proof.
  induction l as [|x xs IH]; intros H l' E; cbn in E; [discriminate|].
  inversion H as [|? ? H1 H2]; subst.
  apply rbind_ok in E. destruct E as (o & O & E). apply rbind_ok in E. destruct E as ([ys ch] & C & E).
  destruct o as [y|]; inversion E; subst; intros X; inversion X; subst.
  - now apply (H1 x O).
  - now apply (IH H2 xs C).
Qed.
Lemma adj_rows_changed : forall adj l,
  Forall (Forall (fun a => forall a', adj a = Ok (Some a') -> a' <> a)) l ->
  forall l', adj_rows adj l = Ok (l', true) -> l' <> l.
Proof.
  induction l as [|x xs IH]; intros H l' E; cbn in E; [discriminate|].
  inversion H as [|? ? H1 H2]; subst.
  apply rbind_ok in E. destruct E as ([r' c1] & O & E). apply rbind_ok in E. destruct E as ([ys ch] & C & E).
  inversion E as [[A B]]. intros X. inversion X; subst.
  apply orb_true_iff in B. destruct B; subst.
  - now apply (adj_children_changed adj x H1 x O).
  - now apply (IH H2 xs C).
Qed.

Lemma adj_inner_changed : forall get_id p op ctx a a',
  adj_inner get_id p op ctx a = Ok (Some a') -> a' <> a.
Proof.
  intros get_id p op ctx. induction a using ast_ind'; intros a' E; cbn [adj_inner] in E; try discriminate.
  - apply rbind_ok in E. destruct E as (d & D & E). destruct d as [r'|].
    + destruct (refty_eqb r' r) eqn:X; inversion E; subst. intros Y. inversion Y; subst.
      now rewrite refty_eqb_rfl in X.
    + inversion E; subst. discriminate.
  - apply rbind_ok in E. destruct E as (o1 & D & E). destruct o1; inversion E; subst.
    intros Y. inversion Y; subst. now apply (IHa a D).
  - apply rbind_ok in E. destruct E as (o1 & D & E). apply rbind_ok in E. destruct E as (o2 & F & E).
    destruct o1 as [x|], o2 as [y|]; inversion E; subst; cbn; intros Y; inversion Y; subst.
    + now apply (IHa1 a1 D). + now apply (IHa1 a1 D). + now apply (IHa2 a2 F).
  - apply rbind_ok in E. destruct E as ([l' ch] & D & E). destruct ch; inversion E; subst.
    intros Y. inversion Y; subst. now apply (adj_children_changed _ _ H l D).
  - apply rbind_ok in E. destruct E as (o1 & D & E). apply rbind_ok in E. destruct E as ([l' ch] & F & E).
    destruct o1 as [x|], ch; inversion E; subst; cbn; intros Y; inversion Y; subst.
    + now apply (IHa a D). + now apply (IHa a D). + now apply (adj_children_changed _ _ H l F).
  - apply rbind_ok in E. destruct E as ([l' ch] & D & E). destruct ch; inversion E; subst.
    intros Y. inversion Y; subst. now apply (adj_rows_changed _ _ H l D).
Qed.

(** * Arithmetic on one axis *)
Lemma addw_small : forall a b, a + b < U32 -> addw a b = a + b.
Proof. intros. unfold addw. now apply N.mod_small. Qed.

Lemma pred1_pos : forall n, 1 <= n -> pred1 n = Some (n - 1).
Proof. intros n H. unfold pred1. destruct (N.eqb_spec n 0); [lia|auto]. Qed.

Lemma bound_of_ok : forall mx b a, bound_ok mx b ->
  bound_of b a = Some (option_map (fun v => mkB (v - 1) a) b).
Proof. intros mx [v|] a H; cbn in *; auto. now rewrite pred1_pos by lia. Qed.

Lemma range_bounds_ok : forall g, on_sheet (RRange g) ->
  range_bounds g = Some (option_map (fun v => mkB (v - 1) (r_sra g)) (r_sr g),
                         option_map (fun v => mkB (v - 1) (r_sca g)) (r_sc g),
                         option_map (fun v => mkB (v - 1) (r_era g)) (r_er g),
                         option_map (fun v => mkB (v - 1) (r_eca g)) (r_ec g)).
Proof.
  intros g (A & B & C & D & E & F). unfold range_bounds.
  rewrite (bound_of_ok ROW_MAX), (bound_of_ok COL_MAX), (bound_of_ok ROW_MAX), (bound_of_ok COL_MAX) by auto.
  assert (X : forall mx s e a b, bound_ok mx s -> ord_ok s e ->
              ordered_b (option_map (fun v => mkB (v - 1) a) s) (option_map (fun v => mkB (v - 1) b) e) = true).
  { intros mx [s|] [e|] a b K O; cbn in *; auto. apply N.leb_le. lia. }
  rewrite (X ROW_MAX), (X COL_MAX) by auto. reflexivity.
Qed.

Lemma cell_coords_ok : forall c, on_sheet (RCell c) -> cell_coords c = Cell0 (c_row c - 1) (c_col c - 1).
Proof.
  intros c (A & B). unfold cell_coords. rewrite !pred1_pos by lia. unfold coord_fits.
  destruct (N.leb_spec (c_row c - 1) ROW_MAX); [|lia]. destruct (N.leb_spec (c_col c - 1) COL_MAX); [|lia]. auto.
Qed.

Definition bidx (o : option N) (a : bool) : option bound := option_map (fun v => mkB (v - 1) a) o.

Lemma succ_small : forall o, match o with Some v => v + 1 < U32 | None => True end ->
  succ_o o = option_map (fun i => i + 1) o.
Proof. intros [v|] H; cbn; auto. now rewrite addw_small. Qed.
Lemma succ_idx : forall mx b a, bound_ok mx b -> mx < U32 - 2 -> succ_o (idx_o (bidx b a)) = b.
Proof. intros mx [v|] a H L; cbn in *; auto. rewrite addw_small; [f_equal; lia|]. unfold U32 in *. lia. Qed.

(** Insertion moves a bound with its line. *)
Lemma insert_bound : forall mx op v a, o_kind op = Insert -> bound_ok mx (Some v) ->
  mx + o_count op + 2 < U32 ->
  exists v', pushed op (v - 1) = Some v'
             /\ addw (adj_insert false (mkB (v - 1) a) (o_at op) (o_count op)) 1 = v' + 1.
Proof.
  intros mx op v a K B L. cbn in B. unfold pushed. rewrite K. eexists. split; [reflexivity|].
  unfold adj_insert. cbn [andb b_idx].
  destruct (N.leb_spec (o_at op) (v - 1)), (N.ltb_spec (v - 1) (o_at op)); try lia.
  - rewrite (addw_small (v - 1)) by lia. rewrite addw_small by lia. reflexivity.
  - rewrite addw_small by lia. reflexivity.
Qed.

Lemma insert_axis : forall mx op s e sa ea, o_kind op = Insert ->
  bound_ok mx s -> bound_ok mx e -> mx + o_count op + 2 < U32 ->
  exists s' e', adj_bounds false Insert (o_at op) (o_count op) (bidx s sa) (bidx e ea) = Some (s', e')
    /\ edge_image op s (succ_o s') /\ edge_image op e (succ_o e').
Proof.
  intros mx op s e sa ea K B1 B2 L. cbn [adj_bounds]. do 2 eexists. split; [reflexivity|].
  split; [destruct s as [v|]|destruct e as [v|]]; cbn [edge_image bidx option_map succ_o]; auto.
  - destruct (insert_bound mx op v sa K B1 L) as (v' & A & B). exists v'. now rewrite B.
  - destruct (insert_bound mx op v ea K B2 L) as (v' & A & B). exists v'. now rewrite B.
Qed.

Lemma pushed_insert_mono : forall op i j i' j', o_kind op = Insert ->
  pushed op i = Some i' -> pushed op j = Some j' -> (i <= j <-> i' <= j').
Proof.
  intros op i j i' j' K A B. unfold pushed in *. rewrite K in *. inversion A; inversion B; subst. clear A B.
  destruct (N.ltb_spec i (o_at op)), (N.ltb_spec j (o_at op)); lia.
Qed.

Lemma edge_axis : forall op s e s' e' i i', o_kind op = Insert ->
  (forall v, s = Some v -> 1 <= v) -> (forall v, e = Some v -> 1 <= v) ->
  edge_image op s s' -> edge_image op e e' -> pushed op i = Some i' ->
  (in_axis s' e' i' <-> in_axis s e i).
Proof.
  intros op s e s' e' i i' K P1 P2 A B C. unfold in_axis.
  destruct s as [v|]; cbn in A; [destruct A as (v' & A & ->)|subst];
  destruct e as [w|]; cbn in B; [destruct B as (w' & B & ->)|subst| destruct B as (w' & B & ->)|subst].
  - pose proof (pushed_insert_mono op _ _ _ _ K A C). pose proof (pushed_insert_mono op _ _ _ _ K C B).
    specialize (P1 _ eq_refl). specialize (P2 _ eq_refl). lia.
  - pose proof (pushed_insert_mono op _ _ _ _ K A C). specialize (P1 _ eq_refl). lia.
  - pose proof (pushed_insert_mono op _ _ _ _ K C B). specialize (P2 _ eq_refl). lia.
  - tauto.
Qed.

Lemma bound_pos : forall mx b v, bound_ok mx b -> b = Some v -> 1 <= v.
Proof. intros mx b v H E. subst. cbn in H. lia. Qed.

(** * Sheets *)
Lemma other_sheet_spec : forall get_id op f s,
  other_sheet get_id op (Some f) s = true <-> sheet_of get_id f s <> Some (o_sheet op).
Proof.
  intros get_id op f s. unfold other_sheet, reference_sheet_id, sheet_of.
  destruct s as [n|].
  - destruct (get_id n) as [k|]; [|split; auto; discriminate].
    rewrite negb_true_iff, N.eqb_neq. split; congruence.
  - rewrite negb_true_iff, N.eqb_neq. split; congruence.
Qed.
Lemma other_sheet_false : forall get_id op f s,
  other_sheet get_id op (Some f) s = false -> sheet_of get_id f s = Some (o_sheet op).
Proof.
  intros get_id op f s H. destruct (sheet_of get_id f s) as [k|] eqn:E.
  - destruct (N.eq_dec k (o_sheet op)); [subst; auto|].
    assert (X : other_sheet get_id op (Some f) s = true) by (apply other_sheet_spec; congruence). congruence.
  - assert (X : other_sheet get_id op (Some f) s = true) by (apply other_sheet_spec; congruence). congruence.
Qed.

Definition ref_sheet (r : refty) : option text :=
  match r with RCell c => c_sheet c | RRange g => r_sheet g | ROther _ => None end.

(** A reference to another sheet denotes the same cells before and after. *)
Lemma same_cells_off : forall get_id op f r,
  sheet_of get_id f (ref_sheet r) <> Some (o_sheet op) \/ (exists t, r = ROther t) ->
  same_cells get_id op f r r.
Proof.
  intros get_id op f r H [[s row] col] k' G. unfold goes in G.
  destruct H as [H|(t & ->)]; [|destruct k' as [[? ?] ?]; cbn; tauto].
  destruct (N.eqb_spec s (o_sheet op)) as [->|].
  - assert (L : forall a b, ~ refers get_id f r (o_sheet op, a, b)).
    { intros a b X. destruct r as [c|g|t]; cbn in *; [destruct X; contradiction|destruct X; contradiction|auto]. }
    destruct k' as [[s' row'] col'].
    assert (s' = o_sheet op).
    { destruct (o_axis op); [destruct (pushed op row)|destruct (pushed op col)]; inversion G; auto. }
    subst. split; intros X; exfalso; eapply L; eauto.
  - inversion G; subst. tauto.
Qed.

Lemma goes_cases : forall op s row col k', goes op (s, row, col) = Some k' -> s = o_sheet op ->
  (o_axis op = Rows /\ exists row', pushed op row = Some row' /\ k' = (s, row', col)) \/
  (o_axis op = Cols /\ exists col', pushed op col = Some col' /\ k' = (s, row, col')).
Proof.
  intros op s row col k' G E. unfold goes in G. rewrite E, N.eqb_refl in G.
  destruct (o_axis op).
  - left. split; auto. destruct (pushed op row) as [x|]; inversion G; subst. eauto.
  - right. split; auto. destruct (pushed op col) as [x|]; inversion G; subst. eauto.
Qed.
