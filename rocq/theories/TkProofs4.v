(** Equal keys and copies: what supported formulas canonicalize to. *)
From Coq Require Import List Bool NArith ZArith String Lia ZifyN ZifyNat ZifyBool.
From Verif Require Import Base LexModel RtModel TkModel TkSpec TkProofs1 TkProofs2 TkProofs3.
Import ListNotations.
Open Scope N_scope.

(** * Reject reasons *)
Definition quiet (l : list event) : Prop := forall r, ~ In (Reject r) l.
Lemma quiet_app a b : quiet (a ++ b) <-> quiet a /\ quiet b.
Proof.
  unfold quiet. split.
  - intros H. split; intros r Hr; apply (H r), in_or_app; tauto.
  - intros [Ha Hb] r Hr. apply in_app_or in Hr. destruct Hr as [Hr | Hr]; [exact (Ha r Hr) | exact (Hb r Hr)].
Qed.
Lemma quiet_nil : quiet [].
Proof. intros r []. Qed.
Lemma quiet_reject r l : ~ quiet (Reject r :: l).
Proof. intros H. apply (H r). left. reflexivity. Qed.
Lemma quiet_flag f l : quiet (Flag f :: l) <-> quiet l.
Proof.
  unfold quiet. split; intros H r Hr; apply (H r).
  - right. exact Hr.
  - destruct Hr as [Hr | Hr]; [discriminate Hr | exact Hr].
Qed.
Lemma quiet_flat {A} (f : A -> list event) l : quiet (flat_map f l) <-> Forall (fun x => quiet (f x)) l.
Proof.
  induction l as [|x l IH]; cbn [flat_map].
  - split; intros _; [constructor | exact quiet_nil].
  - rewrite quiet_app, Forall_cons_iff, IH. reflexivity.
Qed.

Lemma sinsert_some {A} (cmp : A -> A -> comparison) x l : sinsert cmp x l <> [].
Proof. destruct l as [|y l]; cbn; [discriminate |]. destruct (cmp x y); discriminate. Qed.

Lemma fold_rejects ev : forall l, l_rejects (fold_left record_event ev l) = [] -> l_rejects l = [] /\ quiet ev.
Proof.
  induction ev as [|e ev IH]; intros l H; cbn [fold_left] in H.
  - split; [exact H | exact quiet_nil].
  - apply IH in H. destruct H as [H1 H2]. destruct e as [r | f]; cbn [record_event l_rejects] in H1.
    + exfalso. exact (sinsert_some _ _ _ H1).
    + split; [exact H1 |]. apply quiet_flag. exact H2.
Qed.
Lemma supported_quiet ident r c vol a : supported (t_labels (canonicalize ident r c vol a)) = true ->
  quiet (o_events (canon ident r c a CValue true)) /\ vol = false /\ r <> 0 /\ c <> 0.
Proof.
  unfold canonicalize, supported. cbv zeta. cbn [t_labels]. intros H.
  set (ev := _ ++ _ ++ o_events _) in H.
  assert (K : l_rejects (fold_left record_event ev (Labels [] [])) = []).
  { destruct (has_flag FAbsolute _ && has_flag FRelative _) in H; cbn [record_event l_rejects] in H;
      destruct (l_rejects (fold_left record_event ev (Labels [] []))); [reflexivity | discriminate H | reflexivity | discriminate H]. }
  apply fold_rejects in K. destruct K as [_ K]. unfold ev in K. apply quiet_app in K. destruct K as [K1 K].
  apply quiet_app in K. destruct K as [K2 K]. split; [exact K |].
  split; [destruct vol; [| reflexivity]; exfalso; apply quiet_flag in K2; exact (quiet_reject _ _ K2) |].
  destruct (N.eqb_spec r 0) as [-> | Hr]; [exfalso; exact (quiet_reject _ _ K1) |].
  destruct (N.eqb_spec c 0) as [-> | Hc]; [exfalso; exact (quiet_reject _ _ K1) |]. split; assumption.
Qed.

(** * The canonicalizer on lists of arguments *)
Section Args.
Variable ident : text -> N -> option fid.
Variables ar ac : N.
Fixpoint cargs (f : N -> refctx) (i : N) (l : list ast) : list out :=
  match l with [] => [] | a :: r => canon ident ar ac a (f i) true :: cargs f (i + 1) r end.
Lemma canon_fn name args c emit : canon ident ar ac (AFn name args) c emit =
  let f := resolve ident name (len args) in
  let outs := cargs (CFnArg f) 0 args in
  Out (EFn f (map o_expr outs)) (classify_fn f ++ Flag FFunctionCall :: flat_map o_events outs) (flat_map o_slots outs).
Proof.
  cbn [canon]. cbv zeta.
  assert (K : forall l i, (fix go (i : N) (l : list ast) : list out :=
      match l with [] => [] | a :: r => canon ident ar ac a (CFnArg (resolve ident name (len args)) i) true :: go (i + 1) r end) i l
    = cargs (CFnArg (resolve ident name (len args))) i l).
  { induction l as [|x l IH]; intros i; [reflexivity |]. cbn [cargs]. rewrite IH. reflexivity. }
  rewrite K. reflexivity.
Qed.
Lemma canon_call x args c emit : canon ident ar ac (ACall x args) c emit =
  let outs := cargs CCallArg 0 args in
  let y := canon ident ar ac x CValue true in
  Out (ECall (o_expr y) (map o_expr outs)) (Reject (RBare CallExpr) :: flat_map o_events outs ++ o_events y)
      (flat_map o_slots outs ++ o_slots y).
Proof.
  cbn [canon]. cbv zeta.
  assert (K : forall l i, (fix go (i : N) (l : list ast) : list out :=
      match l with [] => [] | a :: r => canon ident ar ac a (CCallArg i) true :: go (i + 1) r end) i l = cargs CCallArg i l).
  { induction l as [|y l IH]; intros i; [reflexivity |]. cbn [cargs]. rewrite IH. reflexivity. }
  rewrite K. reflexivity.
Qed.

(** The identities of an expression are those of the provider. *)
Hypothesis Hid : provider_ok ident.
Lemma resolve_ok n k : fid_ok (resolve ident n k).
Proof.
  unfold resolve, fid_ok. destruct (ident n k) as [f|] eqn:E.
  - pose proof (Hid _ _ _ E) as H. destruct (f_con f) eqn:K; [exact H |].
    destruct H as (_ & _ & _ & _ & _ & H). rewrite K in H. destruct H.
  - cbn. repeat split.
Qed.
Lemma canon_ok : forall a c emit, ctx_ok c -> expr_ok (o_expr (canon ident ar ac a c emit)).
Proof.
  apply (ast_ind' (fun a => forall c emit, ctx_ok c -> expr_ok (o_expr (canon ident ar ac a c emit)))).
  - intros v c emit Hc. exact I.
  - intros c emit Hc. exact I.
  - intros o r c emit Hc. cbn [canon]. destruct (canon_ref ar ac o r). exact Hc.
  - intros op e IH c emit Hc. cbn [canon o_expr expr_ok]. apply IH. exact I.
  - intros op l r IHl IHr c emit Hc. cbn [canon]. cbv zeta. cbn [o_expr expr_ok].
    split; [apply IHl | apply IHr]; destruct (text_eqb op (tx ":")); exact I.
  - intros n args IH c emit Hc. rewrite canon_fn. cbv zeta. cbn [o_expr expr_ok]. split; [apply resolve_ok |].
    apply go_ok. pose proof (resolve_ok n (len args)) as Hf. revert Hf. generalize (resolve ident n (len args)) as f. intros f Hf.
    generalize 0 as i. induction IH as [|x l Hx Hl IH]; intros i; cbn [cargs map]; constructor; [apply Hx; exact Hf | apply IH].
  - intros x args IHx IH c emit Hc. rewrite canon_call. cbv zeta. cbn [o_expr expr_ok]. split; [apply IHx; exact I |].
    apply go_ok. generalize 0 as i. induction IH as [|y l Hy Hl IH]; intros i; cbn [cargs map]; constructor; [apply Hy; exact I | apply IH].
  - intros rows IH c emit Hc. cbn [canon]. cbv zeta. cbn [o_expr expr_ok]. apply rws_ok.
    induction IH as [|row rest Hrow Hrows IH]; cbn [map]; constructor; [| exact IH].
    clear Hrows IH. induction Hrow as [|x l Hx Hl IH]; cbn [map]; constructor; [apply Hx; exact I | exact IH].
Qed.
End Args.

(** * Literals under a function *)
Fixpoint emap (g : lit -> lit) (e : cexpr) : cexpr :=
  match e with
  | ELit v => ELit (g v)
  | EOmit | ERef _ _ | EArr _ => e
  | EUn op x => EUn op (emap g x)
  | EBin op l r => EBin op (emap g l) (emap g r)
  | EFn f args => EFn f (map (emap g) args)
  | ECall x args => ECall (emap g x) (map (emap g) args)
  end.
Definition blank (v : lit) : lit := if is_array v then v else LPending.
Lemma map_id_in {A} (f : A -> A) l : Forall (fun x => f x = x) l -> map f l = l.
Proof. intros H. induction H as [|x l Hx Hl IH]; [reflexivity |]. cbn. rewrite Hx, IH. reflexivity. Qed.
Lemma emap_id : forall e, emap (fun v => v) e = e.
Proof.
  apply (cexpr_ind' (fun e => emap (fun v => v) e = e)); try reflexivity; intros; cbn [emap];
    rewrite ?(map_id_in _ _ H), ?(map_id_in _ _ H0); congruence.
Qed.
Lemma emap_blank : forall e, erase e = emap blank e.
Proof.
  apply (cexpr_ind' (fun e => erase e = emap blank e)); try reflexivity.
  - intros v. cbn. unfold blank. destruct (is_array v); reflexivity.
  - intros op e IH. cbn. rewrite IH. reflexivity.
  - intros op l r IHl IHr. cbn. rewrite IHl, IHr. reflexivity.
  - intros f args IH. cbn. f_equal. apply map_ext_Forall. exact IH.
  - intros x args IHx IH. cbn. rewrite IHx. f_equal. apply map_ext_Forall. exact IH.
Qed.

(** * References *)
Lemma axis_of_inj v w a b fa fb : fst (axis_of v a fa) = fst (axis_of w b fb) ->
  fa = fb /\ shifted (Z.of_N b - Z.of_N a) fa v w.
Proof.
  unfold axis_of, shifted. destruct fa, fb; cbn [fst]; intros E; try discriminate E; injection E as E; split; (reflexivity || lia).
Qed.
Lemma axis_of_eq v w a b fa : shifted (Z.of_N b - Z.of_N a) fa v w -> axis_of v a fa = axis_of w b fa.
Proof. unfold axis_of, shifted. destruct fa; intros E; [congruence |]. f_equal. f_equal. lia. Qed.

Definition spread (b : bound) : bool := match b with Some _ => true | None => false end.
Lemma bound_quiet o x y : quiet (bound_events o x y) -> spread x = spread y.
Proof. destruct x, y; cbn; intros H; try reflexivity; exfalso; exact (quiet_reject _ _ H). Qed.

Lemma axis_not_open v a f : open_low (fst (axis_of v a f)) = false /\ open_high (fst (axis_of v a f)) = false.
Proof. unfold axis_of. destruct f; split; reflexivity. Qed.

Lemma pair_inj x y x' y' a b : spread x = spread y -> spread x' = spread y' ->
  fst (axis_pair x y a) = fst (axis_pair x' y' b) ->
  bound_shifted (Z.of_N b - Z.of_N a) x x' /\ bound_shifted (Z.of_N b - Z.of_N a) y y'.
Proof.
  intros H H'. destruct x as [[x fx]|], y as [[y fy]|]; try discriminate H;
    destruct x' as [[x' fx']|], y' as [[y' fy']|]; try discriminate H'; cbn [axis_pair].
  - pose proof (axis_of_inj x x' a b fx fx') as K1. pose proof (axis_of_inj y y' a b fy fy') as K2.
    destruct (axis_of x a fx), (axis_of y a fy), (axis_of x' b fx'), (axis_of y' b fy'). cbn [fst] in *.
    intros E. injection E as E1 E2. destruct (K1 E1) as [-> K1']. destruct (K2 E2) as [-> K2'].
    cbn. split; split; (reflexivity || assumption).
  - unfold axis_of. destruct fx, fy; cbn [fst]; intros E; discriminate E.
  - unfold axis_of. destruct fx', fy'; cbn [fst]; intros E; discriminate E.
  - intros _. split; exact I.
Qed.
Lemma pair_eq x y x' y' a b : bound_shifted (Z.of_N b - Z.of_N a) x x' -> bound_shifted (Z.of_N b - Z.of_N a) y y' ->
  axis_pair x y a = axis_pair x' y' b /\ spread x = spread x' /\ spread y = spread y'.
Proof.
  destruct x as [[x fx]|], x' as [[x' fx']|]; cbn [bound_shifted]; intros Hx; try destruct Hx as [-> Hx]; try destruct Hx;
    destruct y as [[y fy]|], y' as [[y' fy']|]; cbn [bound_shifted]; intros Hy; try destruct Hy as [-> Hy]; try destruct Hy;
    cbn [axis_pair spread]; try rewrite (axis_of_eq _ _ _ _ _ Hx); try rewrite (axis_of_eq _ _ _ _ _ Hy);
    split; try reflexivity; split; reflexivity.
Qed.

Lemma sheet_binding_inj s t : sheet_binding s = sheet_binding t -> s = t.
Proof. destruct s, t; cbn; congruence. Qed.
Lemma bound_events_spread o o' x y x' y' : spread x = spread x' -> spread y = spread y' ->
  quiet (bound_events o x y) -> bound_events o' x' y' = bound_events o x y.
Proof.
  intros H1 H2 H. apply bound_quiet in H. destruct x, y, x', y'; try discriminate; reflexivity.
Qed.

Lemma canon_ref_sound o r o' r' a1 b1 a2 b2 :
  quiet (snd (canon_ref a1 b1 o r)) -> quiet (snd (canon_ref a2 b2 o' r')) ->
  fst (canon_ref a1 b1 o r) = fst (canon_ref a2 b2 o' r') ->
  ref_copy (Z.of_N a2 - Z.of_N a1) (Z.of_N b2 - Z.of_N b1) r r'.
Proof.
  destruct r as [sh row col ra ca | sh b | | | | | |]; cbn [canon_ref];
    try (cbn [snd]; intros H; exfalso; exact (quiet_reject _ _ H)).
  - destruct (spill_text o).
    { cbn [snd]. intros H. exfalso. apply quiet_flag in H. exact (quiet_reject _ _ H). }
    destruct r' as [sh' row' col' ra' ca' | sh' b' | | | | | |]; cbn [canon_ref];
      try (cbn [snd]; intros _ H; exfalso; exact (quiet_reject _ _ H)).
    + destruct (spill_text o').
      { cbn [snd]. intros _ H. exfalso. apply quiet_flag in H. exact (quiet_reject _ _ H). }
      intros _ _.
      pose proof (axis_of_inj row row' a1 a2 ra ra') as K1. pose proof (axis_of_inj col col' b1 b2 ca ca') as K2.
      destruct (axis_of row a1 ra), (axis_of col b1 ca), (axis_of row' a2 ra'), (axis_of col' b2 ca'). cbn [fst] in *.
      intros E. injection E as Es E1 E2. destruct (K1 E1) as [-> K1']. destruct (K2 E2) as [-> K2'].
      apply sheet_binding_inj in Es. subst sh'. constructor; assumption.
    + intros _ _. destruct (spill_text o'); destruct (axis_of row a1 ra), (axis_of col b1 ca); cbn [fst]; [discriminate |].
      destruct (axis_pair (b_sr b') (b_er b') a2) as [[? ?] ?], (axis_pair (b_sc b') (b_ec b') b2) as [[? ?] ?]. discriminate.
    + intros _ _. destruct (axis_of row a1 ra), (axis_of col b1 ca); discriminate.
  - destruct (spill_text o).
    { cbn [snd]. intros H. exfalso. apply quiet_flag in H. exact (quiet_reject _ _ H). }
    destruct r' as [sh' row' col' ra' ca' | sh' b' | | | | | |]; cbn [canon_ref];
      try (cbn [snd]; intros _ H; exfalso; exact (quiet_reject _ _ H)).
    + intros _ _. destruct (axis_pair (b_sr b) (b_er b) a1) as [[? ?] ?], (axis_pair (b_sc b) (b_ec b) b1) as [[? ?] ?].
      destruct (spill_text o'); [discriminate |]. destruct (axis_of row' a2 ra'), (axis_of col' b2 ca'); discriminate.
    + destruct (spill_text o').
      { cbn [snd]. intros _ H. exfalso. apply quiet_flag in H. exact (quiet_reject _ _ H). }
      pose proof (pair_inj (b_sr b) (b_er b) (b_sr b') (b_er b') a1 a2) as K1.
      pose proof (pair_inj (b_sc b) (b_ec b) (b_sc b') (b_ec b') b1 b2) as K2.
      destruct (axis_pair (b_sr b) (b_er b) a1) as [[x1 x2] u1], (axis_pair (b_sc b) (b_ec b) b1) as [[y1 y2] v1],
        (axis_pair (b_sr b') (b_er b') a2) as [[x1' x2'] u1'], (axis_pair (b_sc b') (b_ec b') b2) as [[y1' y2'] v1'].
      cbn [fst snd] in *. intros H H'.
      apply quiet_flag in H. apply quiet_app in H. destruct H as [H1 H]. apply quiet_app in H. destruct H as [H2 _].
      apply quiet_flag in H'. apply quiet_app in H'. destruct H' as [H1' H']. apply quiet_app in H'. destruct H' as [H2' _].
      intros E. injection E as Es E1 E2 E3 E4. apply sheet_binding_inj in Es. subst sh'.
      assert (F1 : (x1, x2) = (x1', x2')) by congruence. assert (F2 : (y1, y2) = (y1', y2')) by congruence.
      destruct (K1 (bound_quiet _ _ _ H1) (bound_quiet _ _ _ H1') F1) as [A B].
      destruct (K2 (bound_quiet _ _ _ H2) (bound_quiet _ _ _ H2') F2) as [C D].
      constructor; assumption.
    + intros _ _. destruct (axis_pair (b_sr b) (b_er b) a1) as [[? ?] ?], (axis_pair (b_sc b) (b_ec b) b1) as [[? ?] ?]; discriminate.
  - intros _. destruct r' as [sh' row' col' ra' ca' | sh' b' | | | | | |]; cbn [canon_ref];
      try (cbn [snd]; intros H; exfalso; exact (quiet_reject _ _ H)); intros _.
    + destruct (spill_text o'); [discriminate |]. destruct (axis_of row' a2 ra'), (axis_of col' b2 ca'); discriminate.
    + destruct (spill_text o'); [discriminate |].
      destruct (axis_pair (b_sr b') (b_er b') a2) as [[? ?] ?], (axis_pair (b_sc b') (b_ec b') b2) as [[? ?] ?]; discriminate.
    + cbn [fst]. intros E. injection E as ->. constructor.
Qed.

Lemma canon_ref_complete o r o' r' a1 b1 a2 b2 :
  quiet (snd (canon_ref a1 b1 o r)) -> quiet (snd (canon_ref a2 b2 o' r')) ->
  ref_copy (Z.of_N a2 - Z.of_N a1) (Z.of_N b2 - Z.of_N b1) r r' ->
  canon_ref a1 b1 o r = canon_ref a2 b2 o' r'.
Proof.
  intros Q Q' H. destruct H as [sh row col ra ca row' col' Hr Hc | sh b b' H1 H2 H3 H4 | n]; cbn [canon_ref] in *.
  - destruct (spill_text o).
    { exfalso. cbn [snd] in Q. apply quiet_flag in Q. exact (quiet_reject _ _ Q). }
    destruct (spill_text o').
    { exfalso. cbn [snd] in Q'. apply quiet_flag in Q'. exact (quiet_reject _ _ Q'). }
    rewrite (axis_of_eq _ _ _ _ _ Hr), (axis_of_eq _ _ _ _ _ Hc). reflexivity.
  - destruct (spill_text o).
    { exfalso. cbn [snd] in Q. apply quiet_flag in Q. exact (quiet_reject _ _ Q). }
    destruct (spill_text o').
    { exfalso. cbn [snd] in Q'. apply quiet_flag in Q'. exact (quiet_reject _ _ Q'). }
    destruct (pair_eq _ _ _ _ _ _ H1 H3) as (E1 & S1 & S3). destruct (pair_eq _ _ _ _ _ _ H2 H4) as (E2 & S2 & S4).
    rewrite E1, E2 in *.
    destruct (axis_pair (b_sr b') (b_er b') a2) as [[x1' x2'] u1'], (axis_pair (b_sc b') (b_ec b') b2) as [[y1' y2'] v1'].
    cbn [snd] in Q. apply quiet_flag in Q. apply quiet_app in Q. destruct Q as [Q1 Q]. apply quiet_app in Q. destruct Q as [Q2 _].
    rewrite (bound_events_spread o o' _ _ _ _ S1 S3 Q1), (bound_events_spread o o' _ _ _ _ S2 S4 Q2). reflexivity.
  - reflexivity.
Qed.
