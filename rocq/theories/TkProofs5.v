(** Supported formulas have equal keys exactly when they are copies; what a span evaluates
    for a placement. *)
From Coq Require Import List Bool NArith ZArith String Lia ZifyN ZifyNat ZifyBool.
From Verif Require Import Base LexModel RtModel TkModel TkSpec TkProofs1 TkProofs2 TkProofs3 TkProofs4.
Import ListNotations.
Open Scope N_scope.

Lemma lit_quiet v : quiet (lit_events v) -> is_array v = false.
Proof. destruct v; cbn [lit_events is_array]; intros H; try reflexivity. exfalso. exact (quiet_reject _ _ H). Qed.
Lemma scalar_events v : is_array v = false -> lit_events v = [].
Proof. destruct v; cbn; intros H; (reflexivity || discriminate H). Qed.

Lemma ref_events ident r c o k cx emit : o_events (canon ident r c (ARef o k) cx emit) = snd (canon_ref r c o k).
Proof. cbn [canon]. destruct (canon_ref r c o k). reflexivity. Qed.
Lemma ref_expr ident r c o k cx emit : o_expr (canon ident r c (ARef o k) cx emit) = ERef cx (fst (canon_ref r c o k)).
Proof. cbn [canon]. destruct (canon_ref r c o k). reflexivity. Qed.
Lemma ref_slots ident r c o k cx emit : o_slots (canon ident r c (ARef o k) cx emit) = [].
Proof. cbn [canon]. destruct (canon_ref r c o k). reflexivity. Qed.

Lemma unknown_rejected f : f_con f = None -> ~ quiet (classify_fn f).
Proof.
  intros H Q. unfold classify_fn in Q. cbv zeta in Q. rewrite H in Q.
  do 5 (apply quiet_app in Q; destruct Q as [_ Q]). exact (quiet_reject _ _ Q).
Qed.
Lemma resolve_known ident n k : quiet (classify_fn (resolve ident n k)) -> ident n k = Some (resolve ident n k).
Proof.
  intros Q. unfold resolve in *. destruct (ident n k) as [f|]; [reflexivity |].
  exfalso. refine (unknown_rejected _ _ Q). reflexivity.
Qed.
Lemma resolve_some ident n k f : ident n k = Some f -> resolve ident n k = f.
Proof. intros E. unfold resolve. rewrite E. reflexivity. Qed.

Section Sound.
Variable ident : text -> N -> option fid.
Variables a1 b1 a2 b2 : N.
Variable g : lit -> lit.
Variable L : lit -> lit -> Prop.
Hypothesis HL : forall v w, is_array v = false -> is_array w = false -> (g v = g w <-> L v w).

Notation canon1 := (canon ident a1 b1).
Notation canon2 := (canon ident a2 b2).
Notation DR := (Z.of_N a2 - Z.of_N a1)%Z.
Notation DC := (Z.of_N b2 - Z.of_N b1)%Z.

Lemma args_len {r c} f l i : List.length (cargs ident r c f i l) = List.length l.
Proof. revert i; induction l as [|x l IH]; intros i; [reflexivity |]. cbn. rewrite IH. reflexivity. Qed.

Lemma sound : forall a b c c' e e',
  quiet (o_events (canon1 a c e)) -> quiet (o_events (canon2 b c' e')) ->
  emap g (o_expr (canon1 a c e)) = emap g (o_expr (canon2 b c' e')) ->
  copy ident L DR DC a b.
Proof.
  apply (ast_ind' (fun a => forall b c c' e e',
    quiet (o_events (canon1 a c e)) -> quiet (o_events (canon2 b c' e')) ->
    emap g (o_expr (canon1 a c e)) = emap g (o_expr (canon2 b c' e')) -> copy ident L DR DC a b)).
  - intros v b c c' e e' Q Q' E. destruct b; rewrite ?canon_fn, ?canon_call, ?ref_expr, ?ref_events in *; cbv zeta in *;
      cbn [canon o_expr o_events emap] in *; try discriminate E.
    apply lit_quiet in Q. apply lit_quiet in Q'. injection E as E. constructor. apply HL; assumption.
  - intros b c c' e e' Q Q' E. destruct b; rewrite ?canon_fn, ?canon_call, ?ref_expr, ?ref_events in *; cbv zeta in *;
      cbn [canon o_expr o_events emap] in *; try discriminate E. constructor.
  - intros o r b c c' e e' Q Q' E. destruct b; rewrite ?canon_fn, ?canon_call, ?ref_expr, ?ref_events in *; cbv zeta in *;
      cbn [canon o_expr o_events emap] in *; try discriminate E.
    injection E as _ E. constructor. exact (canon_ref_sound _ _ _ _ _ _ _ _ Q Q' E).
  - intros op x IH b c c' e e' Q Q' E. destruct b; rewrite ?canon_fn, ?canon_call, ?ref_expr, ?ref_events in *; cbv zeta in *;
      cbn [canon o_expr o_events emap] in *; try discriminate E.
    injection E as E1 E. subst op0. apply quiet_app in Q. apply quiet_app in Q'. constructor.
    exact (IH _ _ _ _ _ (proj2 Q) (proj2 Q') E).
  - intros op l r IHl IHr b c c' e e' Q Q' E. destruct b; rewrite ?canon_fn, ?canon_call, ?ref_expr, ?ref_events in *; cbv zeta in *;
      cbn [canon o_expr o_events emap] in *; try discriminate E.
    injection E as E1 E2 E3. subst op0. apply quiet_app in Q. apply quiet_app in Q'. destruct Q as [Ql Qr], Q' as [Ql' Qr'].
    constructor; [exact (IHl _ _ _ _ _ Ql Ql' E2) | exact (IHr _ _ _ _ _ Qr Qr' E3)].
  - intros n args IH b c c' e e' Q Q' E. destruct b; rewrite ?canon_fn, ?canon_call, ?ref_expr, ?ref_events in *; cbv zeta in *;
      cbn [canon o_expr o_events emap] in *; try discriminate E.
    apply quiet_app in Q. apply quiet_app in Q'. destruct Q as [Q1 Q], Q' as [Q1' Q'].
    apply quiet_flag in Q. apply quiet_flag in Q'. injection E as Ef E.
    assert (Ln : len args0 = len args).
    { apply (f_equal (@List.length _)) in E. rewrite !map_length, !args_len in E. unfold len. lia. }
    apply (copy_fn _ _ _ _ n name args args0 (resolve ident n (len args))).
    + exact (resolve_known _ _ _ Q1).
    + rewrite Ef, <- Ln. exact (resolve_known _ _ _ Q1').
    + rewrite Ln in *. rewrite <- Ef in *. clear Q1 Q1' Ef Ln. revert Q Q' E. generalize (resolve ident n (len args)) as f. intros f.
      generalize 0 as i. revert args0.
      induction IH as [|x l Hx Hl IH]; intros [|y m] i Q Q' E; cbn [cargs map flat_map] in *; try discriminate E; constructor.
      * apply quiet_app in Q. apply quiet_app in Q'. injection E as E _.
        exact (Hx _ _ _ _ _ (proj1 Q) (proj1 Q') E).
      * apply quiet_app in Q. apply quiet_app in Q'. injection E as _ E. exact (IH _ _ (proj2 Q) (proj2 Q') E).
  - intros x args _ _ b c c' e e' Q. exfalso. rewrite canon_call in Q. exact (quiet_reject _ _ Q).
  - intros rows _ b c c' e e' Q. exfalso. cbn [canon o_events] in Q. exact (quiet_reject _ _ Q).
Qed.

(** A copy has the same expression up to [g], the same labels, and slots with the same contexts. *)
Definition alike (x y : out) : Prop :=
  emap g (o_expr x) = emap g (o_expr y) /\ o_events x = o_events y /\ map s_ctx (o_slots x) = map s_ctx (o_slots y).

Lemma scalar_slot v c : is_array v = false -> map s_ctx (slot_of v c) = [slot_context c].
Proof. destruct v; cbn; intros H; (reflexivity || discriminate H). Qed.

Lemma complete : forall a b c e,
  quiet (o_events (canon1 a c e)) -> quiet (o_events (canon2 b c e)) ->
  copy ident L DR DC a b -> alike (canon1 a c e) (canon2 b c e).
Proof.
  apply (ast_ind' (fun a => forall b c e,
    quiet (o_events (canon1 a c e)) -> quiet (o_events (canon2 b c e)) ->
    copy ident L DR DC a b -> alike (canon1 a c e) (canon2 b c e))).
  - intros v b c e Q Q' C. inversion C as [v' w H | | | | |]; subst. cbn [canon o_events] in *.
    apply lit_quiet in Q. apply lit_quiet in Q'. unfold alike. cbn [o_expr o_events o_slots emap].
    rewrite (scalar_events v Q), (scalar_events w Q'), (proj2 (HL v w Q Q') H).
    split; [reflexivity |]. split; [reflexivity |]. destruct e; [| reflexivity].
    rewrite (scalar_slot v c Q), (scalar_slot w c Q'). reflexivity.
  - intros b c e Q Q' C. inversion C; subst. repeat split.
  - intros o r b c e Q Q' C. inversion C as [| | o1 r1 o' r' H | | |]; subst. unfold alike. rewrite !ref_expr, !ref_events, !ref_slots in *.
    rewrite (canon_ref_complete _ _ _ _ _ _ _ _ Q Q' H). repeat split.
  - intros op x IH b c e Q Q' C. inversion C as [| | | op1 y y' H | |]; subst. unfold alike in *. cbn [canon o_expr o_events o_slots emap] in *.
    apply quiet_app in Q. apply quiet_app in Q'.
    destruct (IH _ _ _ (proj2 Q) (proj2 Q') H) as (-> & -> & ->). repeat split.
  - intros op l r IHl IHr b c e Q Q' C. inversion C as [| | | | op1 l1 r1 l' r' H1 H2 |]; subst. unfold alike in *.
    cbn [canon] in *. cbv zeta in *. cbn [o_expr o_events o_slots emap] in *.
    apply quiet_app in Q. apply quiet_app in Q'. destruct Q as [Q1 Q2], Q' as [Q1' Q2'].
    destruct (IHl _ _ _ Q1 Q1' H1) as (-> & -> & E1). destruct (IHr _ _ _ Q2 Q2' H2) as (-> & -> & E2).
    rewrite !map_app, E1, E2. repeat split.
  - intros n args IH b c e Q Q' C. inversion C as [| | | | | n1 n' args1 args' f E1 E2 H]; subst.
    unfold alike in *. rewrite !canon_fn in *. cbv zeta in *. cbn [o_expr o_events o_slots emap] in *.
    assert (Ln : len args' = len args).
    { unfold len. clear -H. induction H; [reflexivity |]. cbn [List.length]. lia. }
    rewrite Ln in *. rewrite (resolve_some _ _ _ _ E1), (resolve_some _ _ _ _ E2) in *.
    apply quiet_app in Q. apply quiet_app in Q'. destruct Q as [_ Q], Q' as [_ Q'].
    apply quiet_flag in Q. apply quiet_flag in Q'.
    assert (K : map (emap g) (map o_expr (cargs ident a1 b1 (CFnArg f) 0 args)) = map (emap g) (map o_expr (cargs ident a2 b2 (CFnArg f) 0 args')) /\
                flat_map o_events (cargs ident a1 b1 (CFnArg f) 0 args) = flat_map o_events (cargs ident a2 b2 (CFnArg f) 0 args') /\
                map s_ctx (flat_map o_slots (cargs ident a1 b1 (CFnArg f) 0 args)) = map s_ctx (flat_map o_slots (cargs ident a2 b2 (CFnArg f) 0 args'))).
    { clear E1 E2 Ln C. revert Q Q'. generalize 0 as i. revert args' H.
      induction IH as [|x l Hx Hl IH]; intros args' H i Q Q'; inversion H as [|x1 y l1 m Hxy Hlm]; subst; cbn [cargs map flat_map] in *; [repeat split |].
      apply quiet_app in Q. apply quiet_app in Q'. destruct Q as [Q1 Q2], Q' as [Q1' Q2'].
      destruct (Hx _ _ _ Q1 Q1' Hxy) as (-> & -> & F1). destruct (IH _ Hlm _ Q2 Q2') as (-> & -> & F2).
      rewrite !map_app, F1, F2. repeat split. }
    destruct K as (-> & -> & ->). repeat split.
  - intros x args _ _ b c e Q. exfalso. rewrite canon_call in Q. exact (quiet_reject _ _ Q).
  - intros rows _ b c e Q. exfalso. cbn [canon o_events] in Q. exact (quiet_reject _ _ Q).
Qed.
End Sound.

(** * Keys of supported formulas *)
Section Keys.
Variable ident : text -> N -> option fid.
Hypothesis Hid : provider_ok ident.
Variables a1 b1 a2 b2 : N.
Variables v1 v2 : bool.
Variables x y : ast.
Let t1 := canonicalize ident a1 b1 v1 x.
Let t2 := canonicalize ident a2 b2 v2 y.
Hypothesis H1 : supported (t_labels t1) = true.
Hypothesis H2 : supported (t_labels t2) = true.

Lemma expr1_ok : expr_ok (t_expr t1).
Proof. exact (canon_ok ident a1 b1 Hid x CValue true I). Qed.
Lemma expr2_ok : expr_ok (t_expr t2).
Proof. exact (canon_ok ident a2 b2 Hid y CValue true I). Qed.

Lemma labels_same : o_events (canon ident a1 b1 x CValue true) = o_events (canon ident a2 b2 y CValue true) ->
  t_labels t1 = t_labels t2.
Proof.
  intros E. destruct (supported_quiet _ _ _ _ _ H1) as (_ & Hv1 & Hr1 & Hc1).
  destruct (supported_quiet _ _ _ _ _ H2) as (_ & Hv2 & Hr2 & Hc2).
  unfold t1, t2, canonicalize. cbv zeta. cbn [t_labels]. rewrite Hv1, Hv2, E.
  apply N.eqb_neq in Hr1, Hc1, Hr2, Hc2. rewrite Hr1, Hc1, Hr2, Hc2. reflexivity.
Qed.

Theorem exact_keys : exact_key t1 = exact_key t2 <->
  copy ident eq (Z.of_N a2 - Z.of_N a1) (Z.of_N b2 - Z.of_N b1) x y.
Proof.
  assert (HL : forall v w, is_array v = false -> is_array w = false -> ((fun v : lit => v) v = (fun v => v) w <-> v = w)) by (intros; reflexivity).
  destruct (supported_quiet _ _ _ _ _ H1) as (Q1 & _). destruct (supported_quiet _ _ _ _ _ H2) as (Q2 & _).
  split.
  - intros E. apply (exact_key_inj _ _ expr1_ok expr2_ok) in E. destruct E as [E _].
    apply (sound ident a1 b1 a2 b2 (fun v => v) eq HL x y CValue CValue true true Q1 Q2).
    rewrite !emap_id. exact E.
  - intros C. destruct (complete ident a1 b1 a2 b2 (fun v => v) eq HL x y CValue true Q1 Q2 C) as (E & F & _).
    rewrite !emap_id in E. unfold exact_key. rewrite (labels_same F). 
    change (t_expr t1) with (o_expr (canon ident a1 b1 x CValue true)).
    change (t_expr t2) with (o_expr (canon ident a2 b2 y CValue true)). rewrite E. reflexivity.
Qed.

(** Equal erasures have equal parameterized texts. *)
Lemma erase_par : forall e e' n, erase e = erase e' -> w_par e n true = w_par e' n true.
Proof.
  apply (cexpr_ind' (fun e => forall e' n, erase e = erase e' -> w_par e n true = w_par e' n true)).
  - intros v e' n E. destruct e'; cbn [erase] in E; destruct (is_array v) eqn:A; try discriminate E;
      cbn [w_par]; rewrite A; destruct (is_array v0) eqn:B; cbn [andb negb]; try congruence.
    + injection E as ->. discriminate A.
    + injection E as <-. discriminate B.
  - intros e' n E. destruct e'; cbn [erase] in E; try destruct (is_array v); try discriminate E. reflexivity.
  - intros c r e' n E. destruct e'; cbn [erase] in E; try destruct (is_array v); try discriminate E. injection E as -> ->. reflexivity.
  - intros op e IH e' n E. destruct e'; cbn [erase] in E; try destruct (is_array v); try discriminate E. injection E as -> E.
    rewrite !w_par_un, (IH _ n E). reflexivity.
  - intros op l r IHl IHr e' n E. destruct e'; cbn [erase] in E; try destruct (is_array v); try discriminate E. injection E as -> E E'.
    rewrite !w_par_bin. cbv zeta. rewrite (IHl _ n E), (IHr _ _ E'). reflexivity.
  - intros f args IH e' n E. destruct e'; cbn [erase] in E; try destruct (is_array v); try discriminate E. injection E as -> E.
    rewrite !w_par_fn.
    assert (K : w_pars args n true = w_pars args0 n true).
    { clear -IH E. revert args0 n E. induction IH as [|z l Hz Hl IH]; intros [|w m] n E; try discriminate E; [reflexivity |].
      cbn [map] in E. injection E as E1 E. cbn [w_pars]. rewrite (Hz _ _ E1). destruct (w_par w n true). rewrite (IH _ _ E). reflexivity. }
    assert (Ln : len args = len args0).
    { unfold len. apply (f_equal (@List.length _)) in E. rewrite !map_length in E. lia. }
    rewrite K, Ln. reflexivity.
  - intros z args IHz IH e' n E. destruct e'; cbn [erase] in E; try destruct (is_array v); try discriminate E. injection E as E0 E.
    rewrite !w_par_call. cbv zeta. rewrite (IHz _ n E0).
    assert (K : forall n, w_pars args n true = w_pars args0 n true).
    { clear -IH E. revert args0 E. induction IH as [|q l Hz Hl IH]; intros [|w m] E n; try discriminate E; [reflexivity |].
      cbn [map] in E. injection E as E1 E. cbn [w_pars]. rewrite (Hz _ _ E1). destruct (w_par w n true). rewrite (IH _ E). reflexivity. }
    assert (Ln : len args = len args0).
    { unfold len. apply (f_equal (@List.length _)) in E. rewrite !map_length in E. lia. }
    rewrite K, Ln. reflexivity.
  - intros rows _ e' n E. destruct e'; cbn [erase] in E; try destruct (is_array v); try discriminate E. injection E as ->. reflexivity.
Qed.

Lemma blank_any v w : is_array v = false -> is_array w = false -> (blank v = blank w <-> any_scalar v w).
Proof. intros A B. unfold blank, any_scalar. rewrite A, B. tauto. Qed.

Theorem par_keys : par_key t1 = par_key t2 <->
  copy ident any_scalar (Z.of_N a2 - Z.of_N a1) (Z.of_N b2 - Z.of_N b1) x y.
Proof.
  destruct (supported_quiet _ _ _ _ _ H1) as (Q1 & _). destruct (supported_quiet _ _ _ _ _ H2) as (Q2 & _).
  split.
  - intros E. apply (par_key_inj _ _ expr1_ok expr2_ok) in E. destruct E as [E _].
    apply (sound ident a1 b1 a2 b2 blank any_scalar blank_any x y CValue CValue true true Q1 Q2).
    rewrite <- !emap_blank. exact E.
  - intros C. destruct (complete ident a1 b1 a2 b2 blank any_scalar blank_any x y CValue true Q1 Q2 C) as (E & F & _).
    rewrite <- !emap_blank in E. unfold par_key. rewrite (labels_same F).
    change (t_expr t1) with (o_expr (canon ident a1 b1 x CValue true)).
    change (t_expr t2) with (o_expr (canon ident a2 b2 y CValue true)). rewrite (erase_par _ _ 0 E). reflexivity.
Qed.

Theorem par_contexts : par_key t1 = par_key t2 -> map s_ctx (t_slots t1) = map s_ctx (t_slots t2).
Proof.
  intros K. destruct (supported_quiet _ _ _ _ _ H1) as (Q1 & _). destruct (supported_quiet _ _ _ _ _ H2) as (Q2 & _).
  destruct (complete ident a1 b1 a2 b2 blank any_scalar blank_any x y CValue true Q1 Q2 (proj1 par_keys K)) as (_ & _ & F). exact F.
Qed.
End Keys.

(** * Slots hold the literals of the formula *)
Lemma quiet_slots ident r c : forall a cx,
  quiet (o_events (canon ident r c a cx true)) -> map s_val (o_slots (canon ident r c a cx true)) = literals a.
Proof.
  apply (ast_ind' (fun a => forall cx,
    quiet (o_events (canon ident r c a cx true)) -> map s_val (o_slots (canon ident r c a cx true)) = literals a)).
  - intros v cx Q. cbn [canon o_events o_slots literals] in *. apply lit_quiet in Q. destruct v; try discriminate Q; reflexivity.
  - intros cx _. reflexivity.
  - intros o k cx _. rewrite ref_slots. reflexivity.
  - intros op e IH cx Q. cbn [canon o_events o_slots literals] in *. apply quiet_app in Q. exact (IH _ (proj2 Q)).
  - intros op l k IHl IHk cx Q. cbn [canon] in *. cbv zeta in *. cbn [o_events o_slots literals] in *.
    apply quiet_app in Q. rewrite map_app, (IHl _ (proj1 Q)), (IHk _ (proj2 Q)). reflexivity.
  - intros n args IH cx Q. rewrite canon_fn in *. cbv zeta in *. cbn [o_events o_slots literals] in *.
    apply quiet_app in Q. destruct Q as [_ Q]. apply quiet_flag in Q. revert Q.
    generalize (resolve ident n (len args)) as f. intros f. generalize 0 as i.
    induction IH as [|x l Hx Hl IH]; intros i Q; [reflexivity |]. cbn [cargs flat_map] in *.
    apply quiet_app in Q. rewrite map_app, (Hx _ (proj1 Q)), (IH _ (proj2 Q)). reflexivity.
  - intros x args _ _ cx Q. exfalso. rewrite canon_call in Q. exact (quiet_reject _ _ Q).
  - intros rows _ cx Q. exfalso. cbn [canon o_events] in Q. exact (quiet_reject _ _ Q).
Qed.
Lemma quiet_walk ident r c : forall a cx e,
  quiet (o_events (canon ident r c a cx e)) -> walk_lits a = literals a.
Proof.
  apply (ast_ind' (fun a => forall cx e, quiet (o_events (canon ident r c a cx e)) -> walk_lits a = literals a)).
  - intros v cx e Q. cbn [canon o_events walk_lits literals] in *. apply lit_quiet in Q. rewrite Q. reflexivity.
  - intros cx e _. reflexivity.
  - intros o k cx e _. reflexivity.
  - intros op x IH cx e Q. cbn [canon o_events walk_lits literals] in *. apply quiet_app in Q. exact (IH _ _ (proj2 Q)).
  - intros op l k IHl IHk cx e Q. cbn [canon] in *. cbv zeta in *. cbn [o_events walk_lits literals] in *.
    apply quiet_app in Q. rewrite (IHl _ _ (proj1 Q)), (IHk _ _ (proj2 Q)). reflexivity.
  - intros n args IH cx e Q. rewrite canon_fn in *. cbv zeta in *. cbn [o_events walk_lits literals] in *.
    apply quiet_app in Q. destruct Q as [_ Q]. apply quiet_flag in Q. revert Q.
    generalize (resolve ident n (len args)) as f. intros f. generalize 0 as i.
    induction IH as [|x l Hx Hl IH]; intros i Q; [reflexivity |]. cbn [cargs flat_map] in *.
    apply quiet_app in Q. rewrite (Hx _ _ (proj1 Q)), (IH _ (proj2 Q)). reflexivity.
  - intros x args _ _ cx e Q. exfalso. rewrite canon_call in Q. exact (quiet_reject _ _ Q).
  - intros rows _ cx e Q. exfalso. cbn [canon o_events] in Q. exact (quiet_reject _ _ Q).
Qed.
