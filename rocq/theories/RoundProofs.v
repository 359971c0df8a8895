(* Parser side of the round trip: the tokens of a printed tree parse to it. *)
From Coq Require Import List Bool NArith PeanoNat Lia String.
From Verif Require Import LexModel LexSpec LexProofs PrattModel PrattSpec PrattProofs PrattProofs2
  RoundSpec.
Import ListNotations.
Open Scope N_scope.

Section E.
Variables num ref : Type.
Notation expr := (expr num ref).

(* Induction with hypotheses for the elements of argument lists and arrays. *)
Section Ind.
Variable P : expr -> Prop.
Hypothesis Hnum : forall n, P (ENum _ _ n).
Hypothesis Htext : forall t, P (EText _ _ t).
Hypothesis Hbool : forall b, P (EBool _ _ b).
Hypothesis Herr : forall x, P (EErr _ _ x).
Hypothesis Href : forall r, P (ERef _ _ r).
Hypothesis Homit : P (EOmit _ _).
Hypothesis Hun : forall op x, P x -> P (EUn _ _ op x).
Hypothesis Hbin : forall op l r, P l -> P r -> P (EBin _ _ op l r).
Hypothesis Hfn : forall name a, Forall P a -> P (EFn _ _ name a).
Hypothesis Hcall : forall f a, P f -> Forall P a -> P (ECall _ _ f a).
Hypothesis Harr : forall rows, Forall (Forall P) rows -> P (EArr _ _ rows).

Fixpoint expr_ind2 (e : expr) : P e :=
  match e return P e with
  | ENum _ _ n => Hnum n
  | EText _ _ t => Htext t
  | EBool _ _ b => Hbool b
  | EErr _ _ x => Herr x
  | ERef _ _ r => Href r
  | EOmit _ _ => Homit
  | EUn _ _ op x => Hun op x (expr_ind2 x)
  | EBin _ _ op l r => Hbin op l r (expr_ind2 l) (expr_ind2 r)
  | EFn _ _ name a =>
      Hfn name a ((fix go (l : list expr) : Forall P l :=
        match l with
        | [] => Forall_nil P
        | x :: t => Forall_cons x (expr_ind2 x) (go t)
        end) a)
  | ECall _ _ f a =>
      Hcall f a (expr_ind2 f) ((fix go (l : list expr) : Forall P l :=
        match l with
        | [] => Forall_nil P
        | x :: t => Forall_cons x (expr_ind2 x) (go t)
        end) a)
  | EArr _ _ rows =>
      Harr rows ((fix gor (rs : list (list expr)) : Forall (Forall P) rs :=
        match rs with
        | [] => Forall_nil (Forall P)
        | row :: t =>
            Forall_cons row ((fix go (l : list expr) : Forall P l :=
              match l with
              | [] => Forall_nil P
              | x :: t => Forall_cons x (expr_ind2 x) (go t)
              end) row) (gor t)
        end) rows)
  end.
End Ind.
End E.

Section R.
Variables num ref : Type.
Variable pnum : text -> option num.
Variable snum : num -> text.
Variable pref : text -> option ref.
Variable sref : ref -> text.
Variable upper : text -> text.
Variable dia : dialect.
Notation expr := (expr num ref).
Notation bp := (bp num ref pnum pref).
Notation loop := (loop num ref pnum pref).
Notation prefix := (prefix num ref pnum pref).
Notation enter := (enter num ref pnum pref).
Notation args := (args num ref pnum pref).
Notation arr := (arr num ref pnum pref).
Notation operand := (operand num ref pnum pref).
Notation left_parens := (left_parens num ref).
Notation right_parens := (right_parens num ref).
Notation un_parens := (un_parens num ref).
Notation node_prec := (node_prec num ref).
Notation faithful := (faithful num ref pnum snum pref sref upper dia).
Notation ref_ok := (ref_ok num ref pnum pref sref dia).
Notation num_ok := (num_ok num pnum snum).

(* ---- the tokens of a printed tree ---- *)
Definition t_open := Tok TParen SOpen [c_lp].
Definition t_close := Tok TParen SClose [c_rp].
Definition t_ws := Tok TWs SNone [c_sp].
Definition t_inf (op : text) := Tok TInf SNone op.
Definition t_sep (call : bool) := if call then t_inf [c_comma] else Tok TSep SArg [c_comma].

Definition wrapt (b : bool) (ts : list tok) : list tok :=
  if b then t_open :: ts ++ [t_close] else ts.

Definition infix_toks (op : text) (ls rs : list tok) : list tok :=
  if text_eqb op (tx ":") then ls ++ [t_inf op] ++ rs
  else if text_eqb op (tx " ") then ls ++ [t_inf op] ++ rs
  else if text_eqb op (tx ",") then ls ++ [t_inf op; t_ws] ++ rs
  else ls ++ [t_ws; t_inf op; t_ws] ++ rs.

Definition rest_toks (call : bool) (l : list (bool * list tok)) : list tok :=
  List.concat (map (fun a : bool * list tok =>
    let '(om, s) := a in t_sep call :: (if om then [] else [t_ws]) ++ s) l).
Definition join_toks (call : bool) (l : list (bool * list tok)) : list tok :=
  match l with [] => [] | (_, s) :: r => s ++ rest_toks call r end.

Fixpoint joint (sep : list tok) (l : list (list tok)) : list tok :=
  match l with
  | [] => []
  | [s] => s
  | s :: r => s ++ sep ++ joint sep r
  end.

Definition simple_call (f : expr) : bool :=
  match f with EFn _ _ _ _ | ECall _ _ _ _ => true | _ => false end.

Fixpoint tk (e : expr) : list tok :=
  match e with
  | ENum _ _ n => [Tok TOperand SNumber (snum n)]
  | EText _ _ t => [Tok TOperand SText (quote t)]
  | EBool _ _ b => [Tok TOperand SLogical (if b then tx "true" else tx "false")]
  | EErr _ _ x => [Tok TOperand SError (show_error x)]
  | ERef _ _ r => [Tok TOperand SRange (sref r)]
  | EOmit _ _ => []
  | EUn _ _ op x =>
      let s := wrapt (un_parens op x) (tk x) in
      if postfix_op op then s ++ [Tok TPost SNone op] else Tok TPre SNone op :: s
  | EBin _ _ op l r =>
      infix_toks op (wrapt (left_parens op l) (tk l)) (wrapt (right_parens op r) (tk r))
  | EFn _ _ name a =>
      Tok TFunc SOpen (name ++ [c_lp])
        :: join_toks false (map (fun x => (is_omit _ _ x, tk x)) a) ++ [Tok TFunc SClose [c_rp]]
  | ECall _ _ f a =>
      wrapt (negb (simple_call f)) (tk f)
      ++ t_open :: join_toks true (map (fun x => (is_omit _ _ x, tk x)) a) ++ [t_close]
  | EArr _ _ rows =>
      Tok TArray SOpen [c_lc]
        :: joint [Tok TSep SRow [c_semi]; t_ws]
             (map (fun row => joint [Tok TSep SArg [c_comma]; t_ws] (map tk row)) rows)
        ++ [Tok TArray SClose [c_rc]]
  end.

(* ---- successful runs ---- *)
Definition Rbp k m ts x := exists n, bp n k m ts = POk x.
Definition Rloop k m l ts x := exists n, loop n k m l ts = POk x.
Definition Rpre k ts x := exists n, prefix n k ts = POk x.
Definition Rent c k ts x := exists n, enter n c k ts = POk x.
Definition Rargs c k ex sw acc ts x := exists n, args n c k ex sw acc ts = POk x.
Definition Rarr k rows row ts x := exists n, arr n k rows row ts = POk x.

Lemma R_bp : forall k m ts l ts1 x, Rpre k ts (l, ts1) -> Rloop k m l ts1 x -> Rbp k m ts x.
Proof.
  intros k m ts l ts1 x [n1 H1] [n2 H2]. exists (S (n1 + n2)). rewrite bp_S.
  rewrite (prefix_more _ _ _ _ n1 (n1 + n2) k ts (POk (l, ts1))); [|lia|auto|discriminate].
  apply (loop_more _ _ _ _ n2); [lia|auto|discriminate].
Qed.

Definition nomore (k : bool) (m : N) (ts : list tok) : Prop :=
  match skip_ws ts with
  | [] => True
  | t :: _ => is_tok TParen SOpen t = false /\
      (tt t = TPost -> fst (op_prec (sem_value t)) < m) /\
      (tt t = TInf -> k && text_eqb (tv t) [c_comma] = true \/ fst (op_prec (sem_value t)) < m)
  end.

Lemma nomore_le : forall k m m' ts, m <= m' -> nomore k m ts -> nomore k m' ts.
Proof.
  intros k m m' ts Hm H. unfold nomore in *. destruct (skip_ws ts) as [|t r]; auto.
  destruct H as [A [B C]]. split; auto. split.
  - intro E. specialize (B E). lia.
  - intro E. destruct (C E); [auto|right; lia].
Qed.

Lemma R_loop_stop : forall k m l ts, nomore k m ts -> Rloop k m l ts (l, skip_ws ts).
Proof.
  intros k m l ts H. exists 1%nat. rewrite loop_S. unfold nomore in H.
  destruct (skip_ws ts) as [|t r]; auto. destruct H as [A [B C]]. rewrite A.
  destruct (ttype_eqb (tt t) TPost) eqn:E.
  - apply ttype_eqb_eq in E. specialize (B E). apply N.ltb_lt in B. rewrite B. reflexivity.
  - destruct (ttype_eqb (tt t) TInf) eqn:E2; [|reflexivity].
    apply ttype_eqb_eq in E2. cbn [negb]. destruct (C E2) as [C1|C1].
    + rewrite C1. reflexivity.
    + destruct (k && text_eqb (tv t) [c_comma]); auto.
      destruct (op_prec (sem_value t)) as [p la]. simpl in C1. apply N.ltb_lt in C1. rewrite C1. reflexivity.
Qed.

Lemma skip_skip : forall ts, skip_ws (skip_ws ts) = skip_ws ts.
Proof.
  induction ts as [|t ts IH]; simpl; auto. destruct (ttype_eqb (tt t) TWs) eqn:E; auto.
  simpl. rewrite E. reflexivity.
Qed.

Lemma R_loop_skip : forall k m l ts x, Rloop k m l ts x <-> Rloop k m l (skip_ws ts) x.
Proof.
  intros k m l ts x. split; intros [n H]; exists n; destruct n; try discriminate;
    rewrite loop_S in *; rewrite skip_skip in *; auto.
Qed.

Lemma R_loop_infix : forall k m l op la p r y r1 x,
  op_prec (sem_value (t_inf op)) = (p, la) -> m <= p ->
  k && text_eqb op [c_comma] = false ->
  Rbp k (if la then p + 1 else p) r (y, r1) ->
  Rloop k m (EBin _ _ (sem_value (t_inf op)) l y) r1 x ->
  Rloop k m l (t_inf op :: r) x.
Proof.
  intros k m l op la p r y r1 x Hp Hm Hc [n1 H1] [n2 H2]. exists (S (n1 + n2)).
  rewrite loop_S.
  change (skip_ws (t_inf op :: r)) with (t_inf op :: r). cbn iota.
  change (is_tok TParen SOpen (t_inf op)) with false.
  change (ttype_eqb (tt (t_inf op)) TPost) with false.
  change (ttype_eqb (tt (t_inf op)) TInf) with true. cbn [negb]. cbn iota.
  change (tv (t_inf op)) with op. rewrite Hc, Hp.
  assert (E : p <? m = false) by (apply N.ltb_ge; auto). rewrite E.
  rewrite (bp_more _ _ _ _ n1 (n1 + n2) k (if la then p + 1 else p) r (POk (y, r1))); [|lia|auto|discriminate].
  apply (loop_more _ _ _ _ n2); [lia|auto|discriminate].
Qed.

Lemma R_loop_post : forall k m l op r x,
  m <= fst (op_prec op) -> Rloop k m (EUn _ _ op l) r x ->
  Rloop k m l (Tok TPost SNone op :: r) x.
Proof.
  intros k m l op r x Hm [n H]. exists (S n). rewrite loop_S.
  change (skip_ws (Tok TPost SNone op :: r)) with (Tok TPost SNone op :: r). cbn iota.
  change (is_tok TParen SOpen (Tok TPost SNone op)) with false.
  change (ttype_eqb (tt (Tok TPost SNone op)) TPost) with true. cbn iota.
  change (sem_value (Tok TPost SNone op)) with op.
  assert (E : fst (op_prec op) <? m = false) by (apply N.ltb_ge; auto). rewrite E. exact H.
Qed.

Lemma R_loop_call : forall k m l r a r1 x,
  Rent true k r (a, r1) -> Rloop k m (ECall _ _ l a) r1 x -> Rloop k m l (t_open :: r) x.
Proof.
  intros k m l r a r1 x [n1 H1] [n2 H2]. exists (S (n1 + n2)). rewrite loop_S.
  change (skip_ws (t_open :: r)) with (t_open :: r). cbn iota.
  change (is_tok TParen SOpen t_open) with true. cbn iota.
  rewrite (enter_more _ _ _ _ n1 (n1 + n2) true k r (POk (a, r1))); [|lia|auto|discriminate].
  apply (loop_more _ _ _ _ n2); [lia|auto|discriminate].
Qed.

Lemma R_pre_operand : forall k sb v e r,
  operand sb v = Some e -> Rpre k (Tok TOperand sb v :: r) (e, r).
Proof.
  intros k sb v e r H. exists 1%nat. rewrite prefix_S.
  change (skip_ws (Tok TOperand sb v :: r)) with (Tok TOperand sb v :: r). cbn iota.
  cbn [tt tsb tv]. rewrite H. reflexivity.
Qed.

Lemma R_pre_prefix : forall k op r x r1,
  Rbp k pre_prec r (x, r1) -> Rpre k (Tok TPre SNone op :: r) (EUn _ _ op x, r1).
Proof.
  intros k op r x r1 [n H]. exists (S n). rewrite prefix_S.
  change (skip_ws (Tok TPre SNone op :: r)) with (Tok TPre SNone op :: r). cbn iota.
  cbn [tt]. rewrite H. reflexivity.
Qed.

Lemma R_pre_paren : forall k r x r1 r2,
  Rbp k 0 r (x, r1) -> skip_ws r1 = t_close :: r2 -> Rpre k (t_open :: r) (x, r2).
Proof.
  intros k r x r1 r2 [n H] Hs. exists (S n). rewrite prefix_S.
  change (skip_ws (t_open :: r)) with (t_open :: r). cbn iota.
  change (tt t_open) with TParen. cbn iota. change (tsub_eqb (tsb t_open) SOpen) with true.
  cbn iota. rewrite H, Hs. reflexivity.
Qed.

Lemma R_pre_fn : forall k name r a r1,
  Rent false k r (a, r1) -> Rpre k (Tok TFunc SOpen (name ++ [c_lp]) :: r) (EFn _ _ name a, r1).
Proof.
  intros k name r a r1 [n H]. exists (S n). rewrite prefix_S.
  change (skip_ws (Tok TFunc SOpen (name ++ [c_lp]) :: r)) with (Tok TFunc SOpen (name ++ [c_lp]) :: r).
  cbn iota. cbn [tt tv]. rewrite H, removelast_last. reflexivity.
Qed.

(* ---- parentheses are put where they are needed ---- *)
Fixpoint fitb (m : N) (e : expr) : Prop :=
  match e with
  | EBin _ _ op l _ => m <= fst (in_prec op) /\ (left_parens op l = false -> fitb m l)
  | EUn _ _ op x =>
      if postfix_op op then m <= un_prec op /\ (un_parens op x = false -> fitb m x) else True
  | _ => True
  end.

Definition nextmin (op : text) : N :=
  let '(p, la) := in_prec op in if la then p + 1 else p.

Fixpoint rb (e : expr) : N :=
  match e with
  | EBin _ _ op _ r => N.min (nextmin op) (if right_parens op r then 255 else rb r)
  | EUn _ _ op x =>
      if postfix_op op then 255 else N.min 6 (if un_parens op x then 255 else rb x)
  | _ => 255
  end.

(* The operators, one by one. *)
Lemma infix_cases : forall (Q : text -> Prop),
  Forall Q infix_ops -> forall op, In op infix_ops -> Q op.
Proof. intros Q H op Hin. rewrite Forall_forall in H. auto. Qed.

Definition bin_prec_ok (p : N) : Prop := In p [1; 2; 3; 4; 5; 8; 9; 10].

Lemma infix_facts : forall op, In op infix_ops ->
  in_prec op = op_prec op /\ bin_prec_ok (fst (in_prec op)) /\
  sem_value (t_inf op) = op /\ (snd (in_prec op) = false <-> op = tx "^") /\
  postfix_op op = false.
Proof.
  apply infix_cases. unfold infix_ops. cbn [map].
  repeat apply Forall_cons; try apply Forall_nil;
    (split; [reflexivity|]; split; [vm_compute; tauto|]; split; [reflexivity|];
     split; [vm_compute; split; intro Q; congruence|reflexivity]).
Qed.

Lemma un_prec_cases : forall op,
  (op = tx "#" /\ un_prec op = 11 /\ postfix_op op = true) \/
  (op = tx "%" /\ un_prec op = 7 /\ postfix_op op = true) \/
  (postfix_op op = false /\ un_prec op = 6).
Proof.
  intro op. unfold un_prec, postfix_op.
  destruct (text_eqb op (tx "#")) eqn:A.
  - left. apply text_eqb_spec in A. rewrite orb_true_r. auto.
  - destruct (text_eqb op (tx "%")) eqn:B; [right; left; apply text_eqb_spec in B; auto|auto].
Qed.

Lemma left_no : forall op l p la, in_prec op = (p, la) -> left_parens op l = false ->
  p <= node_prec l /\ (p = node_prec l -> la = true \/ match l with EBin _ _ _ _ _ => False | _ => True end).
Proof.
  intros op l p la E H. unfold PrattModel.left_parens in H. rewrite E in H.
  apply orb_false_iff in H. destruct H as [A B]. apply N.ltb_ge in A. split; auto.
  intro Eq. rewrite <- Eq, N.eqb_refl in B. simpl in B. destruct la; auto. right.
  simpl in B. destruct l; auto. discriminate.
Qed.

Lemma right_no : forall op r p la, in_prec op = (p, la) -> right_parens op r = false ->
  p <= node_prec r /\
  (p = node_prec r -> match r with
     | EBin _ _ op2 _ _ => op2 = op /\ (la = true -> op <> tx "-" /\ op <> tx "/")
     | _ => True end).
Proof.
  intros op r p la E H. unfold PrattModel.right_parens in H. rewrite E in H.
  apply orb_false_iff in H. destruct H as [A B]. apply N.ltb_ge in A. split; auto.
  intro Eq. rewrite <- Eq, N.eqb_refl in B. simpl in B. destruct r; auto.
  destruct la.
  - apply orb_false_iff in B. destruct B as [B B3]. apply orb_false_iff in B. destruct B as [B1 B2].
    apply negb_false_iff in B1. apply text_eqb_spec in B1. split; auto. intros _.
    split; intro Q; [rewrite Q in B2; vm_compute in B2|rewrite Q in B3; vm_compute in B3]; discriminate.
  - apply negb_false_iff in B. apply text_eqb_spec in B. split; auto. discriminate.
Qed.

Lemma fitb_prec : forall e u g m, faithful u g e -> m <= node_prec e -> fitb m e.
Proof.
  induction e as [n|t|b|x|r| |op x IH|op l r IHl IHr|name a _|f a IHf _|rows _] using expr_ind2;
    intros u g m Hf Hm; simpl; auto.
  - simpl in Hf, Hm. destruct Hf as [Hop Hx].
    destruct (postfix_op op) eqn:P; auto. split; auto. intro Hu.
    destruct x; simpl; auto.
    + (* unary *) destruct Hop as [P2 Hop]. eapply IH; eauto. simpl.
      destruct (un_prec_cases op) as [[O [E _]]|[[O [E _]]|[O _]]]; [| |congruence];
        rewrite E in Hm; destruct (un_prec_cases op0) as [[O0 [E0 _]]|[[O0 [E0 _]]|[O0 _]]]; try congruence;
        rewrite E0; try lia. rewrite (Hop O) in O0. discriminate.
    + (* binary *) unfold PrattModel.un_parens in Hu. rewrite P in Hu. discriminate.
  - simpl in Hf, Hm. destruct Hf as [Hin [_ [_ [_ [_ [Hl _]]]]]]. split; auto. intro Hp.
    destruct (in_prec op) as [p la] eqn:E. simpl in Hm.
    destruct (left_no _ _ _ _ E Hp) as [A _]. eapply IHl; eauto. lia.
Qed.

Lemma right_fits : forall op l r u g, faithful u g (EBin _ _ op l r) ->
  right_parens op r = false -> fitb (nextmin op) r.
Proof.
  intros op l r u g Hf Hp. simpl in Hf. destruct Hf as [Hin [Hsame [_ [_ [_ [_ Hr]]]]]].
  destruct (infix_facts op Hin) as [_ [Hb [_ [Hla _]]]]. unfold nextmin.
  destruct (in_prec op) as [p la] eqn:E. simpl in Hb, Hla.
  destruct (right_no _ _ _ _ E Hp) as [A B].
  destruct (N.eq_dec p (node_prec r)) as [Eq|Ne].
  - specialize (B Eq). destruct r; simpl; auto.
    + (* unary *) exfalso. unfold bin_prec_ok in Hb. rewrite Eq in Hb. simpl in Hb.
      destruct (un_prec_cases op0) as [[_ [Q _]]|[[_ [Q _]]|[_ Q]]]; rewrite Q in Hb;
        intuition discriminate.
    + (* binary *) destruct B as [-> B].
      destruct la.
      * destruct (B eq_refl) as [B1 B2]. destruct (Hsame eq_refl) as [Q|[Q|Q]]; try contradiction.
        apply Hla in Q. discriminate.
      * rewrite E. simpl. split; [lia|]. intro Hl.
        destruct (left_no _ _ _ _ E Hl) as [C _]. simpl in Hr.
        destruct Hr as [_ [_ [_ [_ [_ [Hl2 _]]]]]]. eapply fitb_prec; [exact Hl2|]. exact C.
  - eapply fitb_prec; [exact Hr|]. destruct la; lia.
Qed.

Lemma rb_gt : forall e u g q, faithful u g e -> bin_prec_ok q ->
  q <= node_prec e ->
  (q = node_prec e -> match e with EBin _ _ op _ _ => snd (in_prec op) = true | _ => True end) ->
  q < rb e.
Proof.
  induction e as [n|t|b|x|r| |op x IH|op l r IHl IHr|name a _|f a IHf _|rows _] using expr_ind2;
    intros u g q Hf Hq Hle Heq;
    try (simpl; unfold bin_prec_ok in Hq; simpl in Hq;
         repeat (destruct Hq as [<-|Hq]; [reflexivity|]); contradiction).
  - simpl. destruct (postfix_op op) eqn:P.
    { unfold bin_prec_ok in Hq. simpl in Hq.
      repeat (destruct Hq as [<-|Hq]; [reflexivity|]). contradiction. }
    simpl in Hf, Hle. rewrite P in Hf. destruct Hf as [_ Hx].
    destruct (un_prec_cases op) as [[_ [_ Q]]|[[_ [_ Q]]|[_ Q]]]; try congruence. rewrite Q in Hle.
    assert (H6 : q < 6).
    { unfold bin_prec_ok in Hq. simpl in Hq. intuition (subst; lia). }
    apply N.min_glb_lt; auto.
    destruct (un_parens op x) eqn:U; [lia|].
    assert (Hx6 : 6 <= node_prec x).
    { unfold PrattModel.un_parens in U. rewrite P in U. destruct x; simpl; try lia.
      - destruct (un_prec_cases op0) as [[_ [Z _]]|[[_ [Z _]]|[_ Z]]]; rewrite Z; lia.
      - simpl in U. apply N.ltb_ge in U. rewrite Q in U. exact U. }
    eapply IH; eauto; [lia|]. intro Z. lia.
  - simpl in Hf. destruct Hf as [Hin [Hsame [_ [_ [_ [_ Hr]]]]]].
    destruct (infix_facts op Hin) as [_ [Hb [_ [Hla _]]]]. simpl. unfold nextmin. simpl in Hle, Heq.
    destruct (in_prec op) as [p la] eqn:E. simpl in Hb, Hla, Hle, Heq.
    apply N.min_glb_lt.
    + destruct la; [lia|]. destruct (N.eq_dec q p) as [->|Ne]; [|lia].
      specialize (Heq eq_refl). discriminate.
    + destruct (right_parens op r) eqn:Rp.
      { unfold bin_prec_ok in Hq. simpl in Hq. intuition (subst; lia). }
      destruct (right_no _ _ _ _ E Rp) as [A B].
      eapply IHr; eauto; [lia|]. intro Z.
      assert (Ep : p = node_prec r) by lia. specialize (B Ep). destruct r; auto.
      destruct B as [-> B]. rewrite E. simpl.
      assert (H : q = p) by lia. apply Heq. exact H.
Qed.

Lemma left_rb : forall op l r u g, faithful u g (EBin _ _ op l r) ->
  left_parens op l = false -> fst (in_prec op) < rb l.
Proof.
  intros op l r u g Hf Hp. simpl in Hf. destruct Hf as [Hin [_ [_ [_ [_ [Hl _]]]]]].
  destruct (infix_facts op Hin) as [_ [Hb [_ [Hla _]]]].
  destruct (in_prec op) as [p la] eqn:E. simpl in *.
  destruct (left_no _ _ _ _ E Hp) as [A B]. eapply rb_gt; eauto.
  intro Q. specialize (B Q). destruct l; auto.
  destruct B as [-> | []]. simpl in Q.
  (* same precedence: same associativity *)
  simpl in Hl. destruct Hl as [Hin2 _].
  destruct (infix_facts op0 Hin2) as [_ [_ [_ [Hla2 _]]]].
  destruct (snd (in_prec op0)) eqn:S0; auto. exfalso.
  assert (S1 : op0 = tx "^") by (apply Hla2; reflexivity). subst op0. unfold in_prec in Q. simpl in Q.
  change (p = 5) in Q. subst p.
  assert (Hx : forall o, In o infix_ops -> in_prec o <> (5, true)).
  { apply infix_cases. repeat constructor; discriminate. }
  apply (Hx op Hin E).
Qed.

Lemma post_rb : forall op x, postfix_op op = true ->
  match x with EUn _ _ op2 _ => postfix_op op2 = true | _ => True end ->
  un_parens op x = false -> rb x = 255.
Proof.
  intros op x P H U. destruct x; simpl; auto.
  - rewrite H. reflexivity.
  - unfold PrattModel.un_parens in U. rewrite P in U. discriminate.
Qed.

(* The first token of a printed tree starts an operand. *)
Definition starter (t : tok) : bool :=
  match tt t with
  | TOperand | TPre => true
  | TFunc | TParen | TArray => tsub_eqb (tsb t) SOpen
  | _ => false
  end.

Lemma wrapt_first : forall b ts t r, (b = false -> ts = t :: r) -> starter t = true ->
  exists t' r', wrapt b ts = t' :: r' /\ starter t' = true.
Proof.
  intros b ts t r H S. unfold wrapt. destruct b; [eexists; eexists; split; reflexivity|].
  rewrite (H eq_refl). eauto.
Qed.

Lemma infix_toks_first : forall op t ls rs, exists x, infix_toks op (t :: ls) rs = t :: x.
Proof.
  intros. unfold infix_toks.
  destruct (text_eqb op (tx ":")); [simpl; eauto|].
  destruct (text_eqb op (tx " ")); [simpl; eauto|].
  destruct (text_eqb op (tx ",")); simpl; eauto.
Qed.

Lemma tk_first : forall e u g, faithful u g e -> exists t r, tk e = t :: r /\ starter t = true.
Proof.
  induction e as [n|t|b|x|r| |op x IH|op l r IHl IHr|name a _|f a IHf _|rows _] using expr_ind2;
    intros u g Hf; simpl; try (eexists; eexists; split; reflexivity).
  - contradiction.
  - simpl in Hf. destruct Hf as [_ Hx]. destruct (IH _ _ Hx) as [t [r [E S]]].
    destruct (wrapt_first (un_parens op x) (tk x) t r) as [t' [r' [E' S']]]; auto.
    destruct (postfix_op op).
    + rewrite E'. simpl. eauto.
    + eexists; eexists; split; reflexivity.
  - simpl in Hf. destruct Hf as [_ [_ [_ [_ [_ [Hl _]]]]]]. destruct (IHl _ _ Hl) as [t [q [E S]]].
    destruct (wrapt_first (left_parens op l) (tk l) t q) as [t' [r' [E' S']]]; auto.
    rewrite E'. destruct (infix_toks_first op t' r' (wrapt (right_parens op r) (tk r))) as [x Ex].
    rewrite Ex. eauto.
  - simpl in Hf. destruct Hf as [Hc _].
    assert (exists u' g', faithful u' g' f) as [u' [g' Hf']] by (destruct f; eauto).
    destruct (IHf _ _ Hf') as [t [r [E S]]].
    destruct (wrapt_first (negb (simple_call f)) (tk f) t r) as [t' [r' [E' S']]]; auto.
    rewrite E'. simpl. eauto.
Qed.

Lemma starter_not : forall call t, starter t = true ->
  is_sep call t = false /\ is_close call t = false /\ is_tok TArray SClose t = false /\
  ttype_eqb (tt t) TWs = false.
Proof.
  intros call [ty sb v]. unfold starter, is_sep, is_close, is_tok. simpl.
  destruct ty, sb; simpl; intro H; try discriminate; destruct call; auto.
Qed.

(* ---- argument lists ---- *)
Definition closer_of (call : bool) : tok :=
  Tok (if call then TParen else TFunc) SClose [c_rp].

(* Parsing the tokens of [e] in a context where they end. *)
Definition parses_to (k : bool) (e : expr) : Prop :=
  forall rest, nomore k 0 rest -> Rbp k 0 (tk e ++ rest) (e, skip_ws rest).

Definition arg_ok (k : bool) (x : expr) : Prop :=
  x = EOmit _ _ \/
  (parses_to k x /\ is_omit _ _ x = false /\ exists t r, tk x = t :: r /\ starter t = true).

Notation atoks := (fun x => (is_omit _ _ x, tk x)).

Lemma nomore_sep : forall call k rest, (call = true -> k = true) -> nomore k 0 (t_sep call :: rest).
Proof.
  intros call k rest Hk. unfold nomore. destruct call; simpl.
  - rewrite Hk by auto. repeat split; auto; discriminate.
  - repeat split; discriminate.
Qed.

Lemma nomore_close : forall call k rest, nomore k 0 (closer_of call :: rest).
Proof. intros call k rest. unfold nomore. destruct call; simpl; repeat split; discriminate. Qed.

Lemma skip_sep : forall call rest, skip_ws (t_sep call :: rest) = t_sep call :: rest.
Proof. destruct call; reflexivity. Qed.

Lemma skip_closer : forall call rest, skip_ws (closer_of call :: rest) = closer_of call :: rest.
Proof. destruct call; reflexivity. Qed.

Lemma R_args_more : forall call k rest, (call = true -> k = true) ->
  forall l acc, Forall (arg_ok k) l ->
  Rargs call k false true acc (rest_toks call (map atoks l) ++ closer_of call :: rest) (acc ++ l, rest).
Proof.
  intros call k rest Hk. induction l as [|x l IH]; intros acc Hl.
  - exists 1%nat. rewrite args_S. simpl rest_toks. simpl app. rewrite skip_closer.
    rewrite app_nil_r. destruct call; reflexivity.
  - inversion Hl as [|? ? Hx Hl']; subst. cbn [map rest_toks List.concat].
    unfold rest_toks. cbn [map List.concat]. fold (rest_toks call (map atoks l)).
    destruct Hx as [->|[Hp [Ho [t [r [Et St]]]]]].
    + (* omitted *)
      cbn [is_omit tk app].
      destruct l as [|y l2].
      * exists 2%nat. rewrite args_S. simpl app. rewrite skip_sep.
        assert (Es : is_sep call (t_sep call) = true) by (destruct call; reflexivity).
        rewrite Es. rewrite args_S. rewrite skip_closer. destruct call; reflexivity.
      * destruct (IH (acc ++ [EOmit _ _]) Hl') as [n H].
        exists (S (S n)). rewrite args_S. simpl app. rewrite skip_sep.
        assert (Es : is_sep call (t_sep call) = true) by (destruct call; reflexivity).
        assert (Ec : is_close call (t_sep call) = false) by (destruct call; reflexivity).
        rewrite Es.
        destruct n as [|n]; [discriminate|]. rewrite args_S in H.
        unfold rest_toks in H |- *. cbn [map List.concat] in H |- *. simpl app in H |- *.
        rewrite skip_sep in H. rewrite Es in H.
        rewrite args_S, skip_sep, Ec, Es. rewrite <- (app_assoc acc) in H. cbn [app] in H.
        apply (args_more _ _ _ _ n (S n)); [lia| |discriminate].
        exact H.
    + (* present *)
      rewrite Ho. cbn [app].
      destruct (IH (acc ++ [x]) Hl') as [n1 H1].
      set (after := rest_toks call (map atoks l) ++ closer_of call :: rest) in *.
      assert (Hn : nomore k 0 after).
      { unfold after, rest_toks. destruct l as [|y l2]; simpl.
        - apply nomore_close.
        - apply nomore_sep. auto. }
      assert (Hsk : skip_ws after = after).
      { unfold after, rest_toks. destruct l as [|y l2]; simpl; [apply skip_closer|apply skip_sep]. }
      destruct (Hp after Hn) as [n2 H2]. rewrite Hsk in H2.
      exists (S (S (n1 + n2))). rewrite args_S. rewrite <- !app_assoc. cbn [app].
      rewrite skip_sep.
      assert (Es : is_sep call (t_sep call) = true) by (destruct call; reflexivity). rewrite Es.
      rewrite args_S. fold after. rewrite Et in *. cbn [app] in *.
      destruct (starter_not call t St) as [S1 [S2 [_ S3]]].
      assert (Ew : skip_ws (t_ws :: t :: r ++ after) = t :: r ++ after)
        by (simpl; rewrite S3; reflexivity).
      rewrite Ew, S2, S1.
      rewrite (bp_more _ _ _ _ n2 (n1 + n2) k 0 _ (POk (x, after))); [|lia|exact H2|discriminate].
      apply (args_more _ _ _ _ n1); [lia| |discriminate].
      rewrite H1, <- app_assoc. reflexivity.
Qed.

Lemma R_enter_all : forall call k0 rest l,
  Forall (arg_ok (call || k0)) l -> l <> [EOmit _ _] ->
  Rent call k0 (join_toks call (map atoks l) ++ closer_of call :: rest) (l, rest).
Proof.
  intros call k0 rest l Hl Hne. set (k := call || k0) in *.
  assert (Hk : call = true -> k = true) by (unfold k; intros ->; reflexivity).
  destruct l as [|x l].
  { exists 1%nat. rewrite enter_S. simpl app. rewrite skip_closer. destruct call; reflexivity. }
  inversion Hl as [|? ? Hx Hl']; subst. cbn [map join_toks].
  destruct Hx as [->|[Hp [Ho [t [r [Et St]]]]]].
  - destruct l as [|y l2]; [congruence|].
    destruct (R_args_more call k rest Hk (y :: l2) [EOmit _ _] Hl') as [n H].
    exists (S (S n)). rewrite enter_S. cbn [tk app].
    unfold rest_toks in *. cbn [map List.concat] in *. simpl app in H |- *.
    rewrite skip_sep.
    assert (Es : is_sep call (t_sep call) = true) by (destruct call; reflexivity).
    assert (Ec : is_close call (t_sep call) = false) by (destruct call; reflexivity).
    rewrite Ec. fold k. rewrite args_S, skip_sep, Ec, Es.
    destruct n as [|n]; [discriminate|]. rewrite args_S in H. rewrite skip_sep, Es in H.
    apply (args_more _ _ _ _ n (S n)); [lia| |discriminate]. exact H.
  - destruct (R_args_more call k rest Hk l [x] Hl') as [n1 H1].
    set (after := rest_toks call (map atoks l) ++ closer_of call :: rest) in *.
    assert (Hn : nomore k 0 after).
    { unfold after, rest_toks. destruct l as [|y l2]; simpl.
      - apply nomore_close.
      - apply nomore_sep. auto. }
    assert (Hsk : skip_ws after = after).
    { unfold after, rest_toks. destruct l as [|y l2]; simpl; [apply skip_closer|apply skip_sep]. }
    destruct (Hp after Hn) as [n2 H2]. rewrite Hsk in H2.
    exists (S (S (n1 + n2))). rewrite enter_S. rewrite <- app_assoc. fold after. rewrite Et in *.
    cbn [app] in *. destruct (starter_not call t St) as [S1 [S2 [_ S3]]].
    assert (Ew : skip_ws (t :: r ++ after) = t :: r ++ after) by (simpl; rewrite S3; reflexivity).
    rewrite Ew, S2. fold k. rewrite args_S, Ew, S2, S1.
    rewrite (bp_more _ _ _ _ n2 (n1 + n2) k 0 _ (POk (x, after))); [|lia|exact H2|discriminate].
    apply (args_more _ _ _ _ n1); [lia|exact H1|discriminate].
Qed.

(* ---- arrays ---- *)
Definition t_arg := Tok TSep SArg [c_comma].
Definition t_row := Tok TSep SRow [c_semi].
Definition t_lb := Tok TArray SOpen [c_lc].
Definition t_rb := Tok TArray SClose [c_rc].

Definition more_cells (l : list expr) : list tok :=
  List.concat (map (fun x => t_arg :: t_ws :: tk x) l).

Lemma joint_cons : forall sep x l,
  joint sep (x :: l) = x ++ List.concat (map (fun y => sep ++ y) l).
Proof.
  intros sep x l. revert x. induction l as [|y l IH]; intro x; [simpl; rewrite app_nil_r; reflexivity|].
  change (joint sep (x :: y :: l)) with (x ++ sep ++ joint sep (y :: l)). rewrite IH.
  simpl. rewrite <- !app_assoc. reflexivity.
Qed.

Lemma joint_row : forall x l, joint [t_arg; t_ws] (map tk (x :: l)) = tk x ++ more_cells l.
Proof.
  intros x l. cbn [map]. rewrite joint_cons. f_equal. unfold more_cells. f_equal.
  rewrite map_map. reflexivity.
Qed.

Definition arr_end (t : tok) : Prop := t = t_arg \/ t = t_row \/ t = t_rb.

Lemma nomore_end : forall k t rest, arr_end t -> nomore k 0 (t :: rest).
Proof. intros k t rest [-> | [-> | ->]]; unfold nomore; simpl; repeat split; discriminate. Qed.

Lemma skip_end : forall t rest, arr_end t -> skip_ws (t :: rest) = t :: rest.
Proof. intros t rest [-> | [-> | ->]]; reflexivity. Qed.

Lemma skip_t_ws : forall k x ts n, bp n k 0 ts = x -> bp n k 0 (t_ws :: ts) = x.
Proof.
  intros k x ts n H. destruct n; auto. rewrite bp_S in *. destruct n; auto.
Qed.

(* The rest of a row, up to a token that ends it. *)
Lemma R_cells : forall k t tail rows, (t = t_row \/ t = t_rb) ->
  forall l row x, Forall (parses_to k) l ->
  Rarr k rows (row ++ l) (t :: tail) x ->
  Rarr k rows row (more_cells l ++ t :: tail) x.
Proof.
  intros k t tail rows Ht. induction l as [|y l IH]; intros row x Hl H.
  - rewrite app_nil_r in H. exact H.
  - inversion Hl as [|? ? Hy Hl']; subst.
    replace (row ++ y :: l) with ((row ++ [y]) ++ l) in H by (rewrite <- app_assoc; reflexivity).
    destruct (IH (row ++ [y]) x Hl' H) as [n1 H1].
    set (after := more_cells l ++ t :: tail) in *.
    assert (Ha : exists t' tl, after = t' :: tl /\ arr_end t').
    { unfold after, more_cells. destruct l; simpl.
      - exists t, tail. split; auto. unfold arr_end. tauto.
      - eexists; eexists. split; [reflexivity|left; reflexivity]. }
    destruct Ha as [t' [tl [Ea Ha]]].
    destruct (Hy after) as [n2 H2]; [rewrite Ea; apply nomore_end; auto|].
    assert (Hsk : skip_ws after = after) by (rewrite Ea; apply skip_end; auto). rewrite Hsk in H2.
    exists (S (n1 + n2)). rewrite arr_S. unfold more_cells. cbn [map List.concat app].
    fold (more_cells l). rewrite <- app_assoc. fold after.
    change (skip_ws (t_arg :: t_ws :: tk y ++ after)) with (t_arg :: t_ws :: tk y ++ after). cbn iota.
    change (ttype_eqb (tt t_arg) TSep) with true. cbn iota. change (tsb t_arg) with SArg. cbn iota.
    rewrite (skip_t_ws k (POk (y, after))).
    + apply (arr_more _ _ _ _ n1); [lia|exact H1|discriminate].
    + apply (bp_more _ _ _ _ n2); [lia|exact H2|discriminate].
Qed.

Definition row_toks (row : list expr) : list tok := joint [t_arg; t_ws] (map tk row).

Lemma R_rows : forall k rest rs rows row,
  Forall (fun r => r <> [] /\ Forall (parses_to k) r) rs ->
  Rarr k rows row
    (List.concat (map (fun r => t_row :: t_ws :: row_toks r) rs) ++ t_rb :: rest)
    (EArr _ _ (rows ++ row :: rs), rest).
Proof.
  intros k rest rs. induction rs as [|r rs IH]; intros rows row Hrs.
  - exists 1%nat. reflexivity.
  - inversion Hrs as [|? ? [Hne Hr] Hrs']; subst. destruct r as [|y l]; [congruence|].
    inversion Hr as [|? ? Hy Hl]; subst. cbn [map List.concat].
    set (tail := List.concat (map (fun r => t_row :: t_ws :: row_toks r) rs) ++ t_rb :: rest) in *.
    specialize (IH (rows ++ [row]) (y :: l) Hrs'). fold tail in IH.
    assert (Ht : exists t' tl, tail = t' :: tl /\ (t' = t_row \/ t' = t_rb)).
    { unfold tail. destruct rs; simpl; eexists; eexists; split; try reflexivity; auto. }
    destruct Ht as [t' [tl [Et Ht]]].
    change (y :: l) with ([y] ++ l) in IH at 1. rewrite Et in IH.
    apply (R_cells k t' tl (rows ++ [row]) Ht l [y]) in IH; auto. rewrite <- Et in IH.
    destruct IH as [n1 H1].
    set (after := more_cells l ++ tail) in *.
    assert (Ha : exists t' tl, after = t' :: tl /\ arr_end t').
    { unfold after, more_cells. destruct l; simpl.
      - exists t', tl. split; auto. unfold arr_end. tauto.
      - eexists; eexists. split; [reflexivity|left; reflexivity]. }
    destruct Ha as [t2 [tl2 [Ea Ha]]].
    destruct (Hy after) as [n2 H2]; [rewrite Ea; apply nomore_end; auto|].
    assert (Hsk : skip_ws after = after) by (rewrite Ea; apply skip_end; auto). rewrite Hsk in H2.
    exists (S (n1 + n2)). rewrite arr_S. cbn [app].
    rewrite <- app_assoc. fold tail. unfold row_toks. rewrite joint_row, <- app_assoc. fold after.
    change (skip_ws (t_row :: t_ws :: tk y ++ after)) with (t_row :: t_ws :: tk y ++ after). cbn iota.
    change (ttype_eqb (tt t_row) TSep) with true. cbn iota. change (tsb t_row) with SRow. cbn iota.
    rewrite (skip_t_ws k (POk (y, after))).
    + rewrite (arr_more _ _ _ _ n1 (n1 + n2) k (rows ++ [row]) [y] after
        (POk (EArr _ _ ((rows ++ [row]) ++ (y :: l) :: rs), rest))); [|lia|exact H1|discriminate].
      rewrite <- app_assoc. reflexivity.
    + apply (bp_more _ _ _ _ n2); [lia|exact H2|discriminate].
Qed.

(* ---- the main statement ---- *)
Definition PB (e : expr) : Prop := forall u g k m rest x,
  faithful u g e -> (u = true -> g = true) -> (g = true -> k = false) ->
  fitb m e -> (rb e < 255 -> nomore k (rb e) rest) ->
  Rloop k m e rest x -> Rbp k m (tk e ++ rest) x.

Lemma fitb_0 : forall e, fitb 0 e.
Proof.
  intro e. induction e as [n|t|b|x|r| |op x IH|op l r IHl IHr|name a _|f a IHf _|rows _] using expr_ind2;
    simpl; auto.
  - destruct (postfix_op op); auto. split; [lia|auto].
  - split; [lia|auto].
Qed.

(* From [PB]: a tree in a context that ends it. *)
Lemma PB_parses : forall e u g k, PB e -> faithful u g e -> (u = true -> g = true) ->
  (g = true -> k = false) -> parses_to k e.
Proof.
  intros e u g k H Hf Hu Hk rest Hn. eapply H; eauto.
  - apply fitb_0.
  - intros _. eapply nomore_le; [|exact Hn]. lia.
  - apply R_loop_stop. exact Hn.
Qed.

(* A parenthesised tree is an operand. *)
Lemma paren_pre : forall e g k rest, PB e -> faithful g g e -> (g = true -> k = false) ->
  Rpre k (wrapt true (tk e) ++ rest) (e, rest).
Proof.
  intros e g k rest H Hf Hk. unfold wrapt. cbn [app]. rewrite <- app_assoc. cbn [app].
  apply (R_pre_paren k _ e (t_close :: rest) rest); [|reflexivity].
  change (t_close :: rest) with (skip_ws (t_close :: rest)) at 2.
  apply (PB_parses e g g k H Hf); auto. unfold nomore. simpl. repeat split; discriminate.
Qed.

(* An operand that is parenthesised if [b], at level [m]. *)
Lemma wrapped_bp : forall (b : bool) e u g k m rest x, PB e ->
  faithful (if b then g else u) g e -> (u = true -> g = true) -> (g = true -> k = false) ->
  (b = false -> fitb m e) -> (b = false -> rb e < 255 -> nomore k (rb e) rest) ->
  Rloop k m e rest x -> Rbp k m (wrapt b (tk e) ++ rest) x.
Proof.
  intros b e u g k m rest x H Hf Hu Hk Hfit Hno HR. destruct b.
  - eapply R_bp; [apply (paren_pre e g); auto|exact HR].
  - unfold wrapt. eapply H; eauto.
Qed.

Lemma infix_toks_eq : forall op ls rs, In op infix_ops ->
  exists w1 w2, infix_toks op ls rs = ls ++ w1 ++ t_inf op :: w2 ++ rs /\
    (forall ts, skip_ws (w1 ++ ts) = skip_ws ts) /\ (w2 = [] \/ w2 = [t_ws]).
Proof.
  intros op ls rs _. unfold infix_toks.
  destruct (text_eqb op (tx ":")); [exists [], []; repeat split; auto|].
  destruct (text_eqb op (tx " ")); [exists [], []; repeat split; auto|].
  destruct (text_eqb op (tx ",")); [exists [], [t_ws]; repeat split; auto|].
  exists [t_ws], [t_ws]. repeat split; auto.
Qed.

Lemma bp_ws : forall k m ts x, Rbp k m ts x -> Rbp k m (t_ws :: ts) x.
Proof.
  intros k m ts x [n H]. exists n. destruct n; [discriminate|]. rewrite bp_S in *.
  destruct n; [discriminate|]. exact H.
Qed.

Lemma operand_num : forall n, num_ok n -> operand SNumber (snum n) = Some (ENum _ _ n).
Proof. intros n [H _]. unfold PrattModel.operand. rewrite H. reflexivity. Qed.

Lemma undouble_double : forall s, undouble (double_dq s) = s.
Proof.
  induction s as [|c s IH]; [reflexivity|]. cbn [double_dq].
  destruct (c =? c_dq) eqn:E.
  - apply N.eqb_eq in E. subst c. cbn [undouble]. rewrite N.eqb_refl. cbn [andb]. rewrite IH. reflexivity.
  - cbn [undouble]. destruct (double_dq s) as [|d r] eqn:D.
    + destruct s as [|z s]; [reflexivity|]. cbn [double_dq] in D. destruct (z =? c_dq); discriminate.
    + rewrite E. cbn [andb]. rewrite IH. reflexivity.
Qed.

Lemma operand_text : forall t, operand SText (quote t) = Some (EText _ _ t).
Proof.
  intro t. unfold PrattModel.operand, quote.
  destruct (double_dq t ++ [c_dq]) as [|a r] eqn:E; [destruct (double_dq t); discriminate|].
  rewrite N.eqb_refl. cbn [andb]. rewrite <- E, last_last, removelast_last, N.eqb_refl.
  rewrite undouble_double. reflexivity.
Qed.

Lemma error_known : forall v, In v known_errors -> error_of v = EKnown v.
Proof.
  assert (H : Forall (fun v => error_of v = EKnown v) known_errors) by (repeat constructor).
  intros v Hv. rewrite Forall_forall in H. auto.
Qed.

Lemma atom_bp : forall k m sb v e rest x, operand sb v = Some e ->
  Rloop k m e rest x -> Rbp k m ([Tok TOperand sb v] ++ rest) x.
Proof. intros. eapply R_bp; [apply R_pre_operand; eauto|auto]. Qed.

Lemma all_p_In : forall (A : Type) (f : A -> Prop) l, all_p (map f l) -> forall x, In x l -> f x.
Proof.
  induction l as [|a l IH]; simpl; intros H x Hin; [contradiction|].
  destruct H as [H1 H2]. destruct Hin as [->|Hin]; auto.
Qed.

Lemma PB_all : forall e, PB e.
Proof.
  induction e as [n|t|b|x|r| |op x IH|op l r IHl IHr|name a IHa|f a IHf IHa|rows IHrows] using expr_ind2;
    intros u g k m rest z Hf Hu Hk Hfit Hno HR.
  - eapply atom_bp; [apply operand_num; exact Hf|exact HR].
  - eapply atom_bp; [apply operand_text|exact HR].
  - eapply atom_bp; [|exact HR]. destruct b; reflexivity.
  - simpl in Hf. destruct x as [v|v]; [|contradiction]. destruct Hf as [_ Hv].
    eapply atom_bp; [|exact HR]. simpl. rewrite error_known by auto. reflexivity.
  - simpl in Hf. destruct Hf as [Hp _]. eapply atom_bp; [|exact HR]. simpl. rewrite Hp. reflexivity.
  - contradiction.
  - (* unary *)
    simpl in Hf, Hfit. destruct Hf as [Hop Hx]. simpl tk.
    destruct (postfix_op op) eqn:P.
    + destruct Hfit as [Hm Hfit].
      assert (Hx2 : match x with EUn _ _ op2 _ => postfix_op op2 = true | _ => True end)
        by (destruct x; tauto).
      rewrite <- app_assoc. cbn [app].
      eapply (wrapped_bp _ x u g); eauto.
      * intros U Hrb. rewrite (post_rb op x P Hx2 U) in Hrb. lia.
      * apply R_loop_post; auto.
        assert (E : fst (op_prec op) = un_prec op).
        { destruct (un_prec_cases op) as [[-> _]|[[-> _]|[Q _]]]; try reflexivity. congruence. }
        rewrite E. exact Hm.
    + cbn [app]. eapply R_bp; [apply R_pre_prefix with (r1 := skip_ws rest)|apply R_loop_skip in HR; exact HR].
      simpl in Hno. rewrite P in Hno.
      assert (Hn6 : nomore k (N.min 6 (if un_parens op x then 255 else rb x)) rest) by (apply Hno; lia).
      eapply (wrapped_bp _ x u g); eauto.
      * intro U. eapply fitb_prec; [rewrite U in Hx; exact Hx|].
        unfold PrattModel.un_parens in U. rewrite P in U.
        destruct (un_prec_cases op) as [[_ [_ Q]]|[[_ [_ Q]]|[_ Q]]]; try congruence.
        unfold pre_prec. destruct x; simpl; try lia.
        -- destruct (un_prec_cases op0) as [[_ [Z _]]|[[_ [Z _]]|[_ Z]]]; rewrite Z; lia.
        -- simpl in U. apply N.ltb_ge in U. rewrite Q in U. exact U.
      * intros U Hrb. rewrite U in Hn6. eapply nomore_le; [|exact Hn6]. lia.
      * apply R_loop_stop. eapply nomore_le; [|exact Hn6]. unfold pre_prec. lia.
  - (* binary *)
    pose proof (right_fits op l r u g Hf) as RF. pose proof (left_rb op l r u g Hf) as LR.
    simpl in Hf. destruct Hf as [Hin [_ [Hcomma [_ [_ [Hl Hr]]]]]].
    destruct (infix_facts op Hin) as [Epr [Hb [Esem [_ _]]]].
    simpl in Hfit. destruct Hfit as [Hm Hfl]. simpl in Hno.
    assert (Hnm : nextmin op <= 11).
    { unfold nextmin. destruct (in_prec op) as [p la]. unfold bin_prec_ok in Hb. simpl in Hb.
      destruct la; intuition lia. }
    assert (Hn : nomore k (N.min (nextmin op) (if right_parens op r then 255 else rb r)) rest)
      by (apply Hno; lia).
    simpl tk. destruct (infix_toks_eq op (wrapt (left_parens op l) (tk l))
      (wrapt (right_parens op r) (tk r)) Hin) as [w1 [w2 [-> [Hw1 Hw2]]]].
    rewrite <- !app_assoc. cbn [app]. rewrite <- !app_assoc.
    eapply (wrapped_bp _ l u g); eauto.
    + intros Lp Hrb. specialize (LR Lp). unfold nomore. rewrite Hw1. simpl.
      split; [reflexivity|]. split; [discriminate|]. intros _. right.
      change (sem_value (Tok TInf SNone op)) with (sem_value (t_inf op)). rewrite Esem, <- Epr. exact LR.
    + apply R_loop_skip. rewrite Hw1. change (skip_ws (t_inf op :: w2 ++ wrapt (right_parens op r) (tk r) ++ rest))
        with (t_inf op :: w2 ++ wrapt (right_parens op r) (tk r) ++ rest).
      destruct (op_prec op) as [p la] eqn:Ep.
      assert (Enm : (if la then p + 1 else p) = nextmin op) by (unfold nextmin; rewrite Epr; reflexivity).
      eapply R_loop_infix with (p := p) (la := la) (y := r) (r1 := skip_ws rest).
      * rewrite Esem. exact Ep.
      * rewrite Epr in Hm. exact Hm.
      * destruct (text_eqb op [c_comma]) eqn:Ec; [|apply andb_false_r].
        apply text_eqb_spec in Ec. rewrite Hk; auto.
      * rewrite Enm.
        assert (Q : Rbp k (nextmin op) (wrapt (right_parens op r) (tk r) ++ rest) (r, skip_ws rest)).
        { eapply (wrapped_bp _ r u g); eauto.
          - intros Rp Hrb. rewrite Rp in Hn. eapply nomore_le; [|exact Hn]. lia.
          - apply R_loop_stop. eapply nomore_le; [|exact Hn]. lia. }
        destruct Hw2 as [-> | ->]; [exact Q|apply bp_ws; exact Q].
      * rewrite Esem. apply R_loop_skip in HR. exact HR.
  - (* function *)
    simpl in Hf. destruct Hf as [_ [_ [Hne Ha]]]. simpl tk. cbn [app]. rewrite <- app_assoc. cbn [app].
    eapply R_bp; [apply R_pre_fn|exact HR].
    apply (R_enter_all false k rest a); auto. cbn [orb].
    apply Forall_forall. intros y Hy. pose proof (all_p_In _ _ _ Ha y Hy) as Hy2. simpl in Hy2.
    rewrite Forall_forall in IHa.
    destruct (is_omit num ref y) eqn:O.
    + left. destruct y; try discriminate. reflexivity.
    + destruct Hy2 as [Q|Q]; [congruence|]. right. split; [|split; auto].
      * eapply PB_parses; [apply IHa; auto|exact Q|discriminate|exact Hk].
      * eapply tk_first; eauto.
  - (* call *)
    simpl in Hf. destruct Hf as [Hc [Hne Ha]]. simpl tk. rewrite <- app_assoc. cbn [app].
    rewrite <- app_assoc. cbn [app].
    assert (Hent : Rent true k (join_toks true (map (fun x => (is_omit num ref x, tk x)) a)
                                 ++ t_close :: rest) (a, rest)).
    { apply (R_enter_all true k rest a); auto. cbn [orb].
      apply Forall_forall. intros y Hy. pose proof (all_p_In _ _ _ Ha y Hy) as Hy2. simpl in Hy2.
      rewrite Forall_forall in IHa.
      destruct (is_omit num ref y) eqn:O.
      + left. destruct y; try discriminate. reflexivity.
      + destruct Hy2 as [Q|Q]; [congruence|]. right. split; [|split; auto].
        * eapply PB_parses; [apply IHa; auto|exact Q|discriminate|discriminate].
        * eapply tk_first; eauto. }
    eapply (wrapped_bp (negb (simple_call f)) f u g); eauto.
    + destruct f; exact Hc.
    + intro B. apply negb_false_iff in B. destruct f; try discriminate; exact I.
    + intros B Hrb. apply negb_false_iff in B. destruct f; simpl in Hrb; try discriminate; lia.
    + eapply R_loop_call; eauto.
  - (* array *)
    simpl in Hf. simpl tk. cbn [app]. rewrite <- app_assoc. cbn [app].
    eapply R_bp; [|exact HR].
    assert (Hrows : Forall (fun r => r <> [] /\ Forall (parses_to k) r) rows).
    { apply Forall_forall. intros row Hrow. pose proof (all_p_In _ _ _ Hf row Hrow) as Q. simpl in Q.
      destruct Q as [Q1 Q2]. split; auto. apply Forall_forall. intros y Hy.
      pose proof (all_p_In _ _ _ Q2 y Hy) as Q3.
      rewrite Forall_forall in IHrows. specialize (IHrows row Hrow). rewrite Forall_forall in IHrows.
      eapply PB_parses; [apply IHrows; auto|exact Q3|discriminate|exact Hk]. }
    destruct rows as [|row rows].
    { exists 1%nat. reflexivity. }
    inversion Hrows as [|? ? [Hne Hr] Hrows']; subst. destruct row as [|y l]; [congruence|].
    inversion Hr as [|? ? Hy Hl]; subst. cbn [map].
    rewrite joint_cons. rewrite map_map.
    change (joint [Tok TSep SArg [c_comma]; t_ws] (map tk (y :: l)))
      with (joint [t_arg; t_ws] (map tk (y :: l))).
    change (tk y :: map tk l) with (map tk (y :: l)). 
    change (joint [Tok TSep SArg [c_comma]; t_ws] (map tk (y :: l)))
      with (joint [t_arg; t_ws] (map tk (y :: l))).
    rewrite joint_row.
    pose proof (R_rows k rest rows [] (y :: l) Hrows') as HRows. cbn [app] in HRows.
    set (tail := List.concat (map (fun r => t_row :: t_ws :: row_toks r) rows) ++ t_rb :: rest) in *.
    assert (Ht : exists t' tl, tail = t' :: tl /\ (t' = t_row \/ t' = t_rb)).
    { unfold tail. destruct rows; simpl; eexists; eexists; split; try reflexivity; auto. }
    destruct Ht as [t' [tl [Et Ht]]].
    change (y :: l) with ([y] ++ l) in HRows at 1. rewrite Et in HRows.
    apply (R_cells k t' tl [] Ht l [y]) in HRows; auto. rewrite <- Et in HRows.
    destruct HRows as [n1 H1].
    set (after := more_cells l ++ tail) in *.
    assert (Hend : exists t' tl, after = t' :: tl /\ arr_end t').
    { unfold after, more_cells. destruct l; simpl.
      - exists t', tl. split; auto. unfold arr_end. tauto.
      - eexists; eexists. split; [reflexivity|left; reflexivity]. }
    destruct Hend as [t2 [tl2 [Ea Hend]]].
    destruct (Hy after) as [n2 H2]; [rewrite Ea; apply nomore_end; auto|].
    assert (Hsk : skip_ws after = after) by (rewrite Ea; apply skip_end; auto). rewrite Hsk in H2.
    rewrite <- !app_assoc.
    change (List.concat (map (fun x : list expr =>
        [Tok TSep SRow [c_semi]; t_ws] ++ joint [Tok TSep SArg [c_comma]; t_ws] (map tk x)) rows)
        ++ Tok TArray SClose [c_rc] :: rest) with tail.
    fold after.
    assert (Ht1 : exists t r, tk y = t :: r /\ starter t = true).
    { simpl in Hf. destruct Hf as [[_ [Hy1 _]] _]. eapply tk_first; eauto. }
    destruct Ht1 as [t1 [r1 [E1 S1]]].
    destruct (starter_not true t1 S1) as [_ [_ [S3 S4]]].
    exists (S (n1 + n2)). rewrite prefix_S.
    change (skip_ws (Tok TArray SOpen [c_lc] :: tk y ++ after)) with (Tok TArray SOpen [c_lc] :: tk y ++ after).
    cbn iota. cbn [tt tsb tsub_eqb]. cbn iota.
    assert (Ew : skip_ws (tk y ++ after) = tk y ++ after) by (rewrite E1; simpl; rewrite S4; reflexivity).
    rewrite Ew. rewrite E1 at 1. cbn [app]. cbn iota. rewrite S3.
    change (t1 :: r1 ++ after) with ((t1 :: r1) ++ after). rewrite <- E1.
    rewrite (bp_more _ _ _ _ n2 (n1 + n2) k 0 _ (POk (y, after))); [|lia|exact H2|discriminate].
    apply (arr_more _ _ _ _ n1); [lia|exact H1|discriminate].
Qed.

(* The tokens of a printed tree are parsed as that tree. *)
Theorem tokens_parse : forall e, faithful true true e ->
  parse_tokens num ref pnum pref (tk e) = POk e.
Proof.
  intros e Hf. destruct (PB_parses e true true false (PB_all e) Hf) with (rest := @nil tok) as [n H]; auto.
  { exact I. }
  rewrite app_nil_r in H. simpl in H.
  destruct (tk_first e true true Hf) as [t [r [Et St]]].
  destruct (starter_not true t St) as [_ [_ [_ S4]]].
  unfold parse_tokens.
  assert (Ew : skip_ws (tk e) = t :: r) by (rewrite Et; simpl; rewrite S4; reflexivity).
  rewrite Ew.
  assert (El : ttype_eqb (tt t) TLiteral = false).
  { unfold starter in St. destruct (tt t); auto; discriminate. }
  rewrite El.
  destruct (fuel_enough num ref pnum pref (4 * List.length (tk e) + 4)) as [Hfe _].
  destruct (Hfe false 0 (tk e) ltac:(lia)) as [E _].
  assert (Hb : bp (4 * List.length (tk e) + 4) false 0 (tk e) = POk (e, [])).
  { destruct (Nat.le_ge_cases n (4 * List.length (tk e) + 4)) as [Hle|Hge].
    - eapply bp_more; [exact Hle|exact H|discriminate].
    - destruct (bp (4 * List.length (tk e) + 4) false 0 (tk e)) as [z| |] eqn:B; try contradiction.
      + apply (bp_more _ _ _ _ _ n) in B; [|exact Hge|discriminate]. congruence.
      + apply (bp_more _ _ _ _ _ n) in B; [|exact Hge|discriminate]. congruence. }
  rewrite Hb. reflexivity.
Qed.
End R.
