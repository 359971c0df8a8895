From Coq Require Import List Bool NArith PeanoNat Lia String.
From Verif Require Import LexModel LexSpec.
Import ListNotations.
Open Scope N_scope.

Lemma text_eqb_spec : forall a b, text_eqb a b = true <-> a = b.
Proof.
  induction a as [|x a IH]; destruct b as [|y b]; simpl; split; intro H; try discriminate; auto.
  - apply andb_true_iff in H. destruct H as [H1 H2]. apply N.eqb_eq in H1.
    apply IH in H2. subst. reflexivity.
  - inversion H; subst. rewrite N.eqb_refl. simpl. apply IH. reflexivity.
Qed.

Lemma text_eqb_refl : forall a, text_eqb a a = true.
Proof. intro a. apply text_eqb_spec. reflexivity. Qed.

Lemma LOk_inj : forall (A : Type) (a b : A), LOk a = LOk b -> b = a.
Proof. intros A a b H. inversion H. reflexivity. Qed.

Lemma nest_app : forall a s b,
  nest s (a ++ b) = match nest s a with Some s' => nest s' b | None => None end.
Proof.
  induction a as [|t a IH]; intros s b; simpl; auto.
  destruct (opens t); [apply IH|].
  destruct (closes t); [|apply IH].
  destruct s as [|o s]; auto. destruct (ttype_eqb o (tt t)); auto.
Qed.

Lemma scan_str_app : forall n d s a r,
  (List.length s <= n)%nat -> scan_str d s = Some (a, r) -> s = a ++ r /\ a <> [].
Proof.
  induction n as [|n IH]; intros d s a r Hn; destruct s as [|c s]; simpl in *; try discriminate.
  - lia.
  - destruct (c =? d).
    + destruct s as [|c2 s2].
      * intro H. inversion H; subst. split; [reflexivity|discriminate].
      * destruct (c2 =? d).
        -- destruct (scan_str d s2) as [[x y]|] eqn:E; try discriminate.
           intro H. inversion H; subst. apply IH in E; [|simpl in Hn; lia].
           destruct E as [E _]. subst. split; [reflexivity|discriminate].
        -- intro H. inversion H; subst. split; [reflexivity|discriminate].
    + destruct (scan_str d s) as [[x y]|] eqn:E; try discriminate.
      intro H. inversion H; subst. apply IH in E; [|simpl in Hn; lia].
      destruct E as [E _]. subst. split; [reflexivity|discriminate].
Qed.

Lemma scan_brk_app : forall n m s a r,
  (List.length s <= n)%nat -> scan_brk m s = Some (a, r) -> s = a ++ r.
Proof.
  induction n as [|n IH]; intros m s a r Hn; destruct s as [|c s]; cbn [scan_brk];
    try discriminate.
  - simpl in Hn. lia.
  - simpl in Hn. destruct (c =? c_sq).
    + destruct s as [|c2 s2]; try discriminate.
      destruct (scan_brk m s2) as [[x y]|] eqn:E; try discriminate.
      intro H. inversion H; subst. apply IH in E; [|simpl in Hn; lia]. subst. reflexivity.
    + destruct (c =? c_rb).
      * destruct m as [|[|m]].
        -- intro H. inversion H; subst. reflexivity.
        -- intro H. inversion H; subst. reflexivity.
        -- destruct (scan_brk (S m) s) as [[x y]|] eqn:E; try discriminate.
           intro H. inversion H; subst. apply IH in E; [|lia]. subst. reflexivity.
      * destruct (scan_brk (if c =? c_lb then S m else m) s) as [[x y]|] eqn:E; try discriminate.
        intro H. inversion H; subst. apply IH in E; [|lia]. subst. reflexivity.
Qed.

Lemma find_code_app : forall codes i v r,
  Forall (fun c => c <> []) codes -> find_code codes i = Some (v, r) -> i = v ++ r /\ v <> [].
Proof.
  induction codes as [|c cs IH]; intros i v r HF; cbn [find_code]; try discriminate.
  inversion HF as [|? ? Hc Hcs]; subst.
  destruct (eq_ic (firstn (List.length c) i) c) eqn:E.
  - intro H. inversion H; subst. split; [symmetry; apply firstn_skipn|].
    intro Hv. rewrite Hv in E. destruct c; [congruence|]. discriminate.
  - apply IH; auto.
Qed.

Lemma codes_nonempty : Forall (fun c => c <> []) error_codes.
Proof. repeat constructor; discriminate. Qed.

Lemma take_drop : forall p l, l = take_while p l ++ drop_while p l.
Proof.
  induction l as [|c l IH]; simpl; auto. destruct (p c); simpl; [f_equal; auto|reflexivity].
Qed.

Lemma take_while_all : forall p l, forallb p (take_while p l) = true.
Proof. induction l as [|c l IH]; simpl; auto. destruct (p c) eqn:E; simpl; auto. rewrite E. auto. Qed.

Lemma ttype_eqb_refl : forall t, ttype_eqb t t = true.
Proof. destruct t; reflexivity. Qed.

Lemma ttype_eqb_eq : forall a b, ttype_eqb a b = true -> a = b.
Proof. destruct a, b; simpl; congruence. Qed.

Lemma tsub_eqb_eq : forall a b, tsub_eqb a b = true -> a = b.
Proof. destruct a, b; simpl; congruence. Qed.

Section Lex.
Variable is_num : text -> bool.
Variable dia : dialect.

Notation save := (save is_num).
Notation operand_subtype := (operand_subtype is_num).

Lemma operand_shape : forall v, v <> [] ->
  shape (Tok TOperand (operand_subtype v) v) /\
  opens (Tok TOperand (operand_subtype v) v) = false /\
  closes (Tok TOperand (operand_subtype v) v) = false.
Proof.
  intros v Hv. unfold LexModel.operand_subtype.
  assert (Hg : shape (Tok TOperand (if eq_ic v (tx "TRUE") || eq_ic v (tx "FALSE") then SLogical
         else if is_num v then SNumber else SRange) v) /\
    opens (Tok TOperand (if eq_ic v (tx "TRUE") || eq_ic v (tx "FALSE") then SLogical
         else if is_num v then SNumber else SRange) v) = false /\
    closes (Tok TOperand (if eq_ic v (tx "TRUE") || eq_ic v (tx "FALSE") then SLogical
         else if is_num v then SNumber else SRange) v) = false).
  { destruct (eq_ic v (tx "TRUE") || eq_ic v (tx "FALSE")); [|destruct (is_num v)];
      unfold shape, opens, closes; simpl; auto. }
  destruct v as [|c v]; [congruence|].
  destruct (N.eq_dec c 34) as [->|H34].
  { unfold shape, opens, closes. simpl. repeat split. exists v. reflexivity. }
  destruct (N.eq_dec c 35) as [->|H35].
  { unfold shape, opens, closes. simpl. repeat split. discriminate. }
  assert (E : forall (A : Type) (x y z : A), match c with 34 => x | 35 => y | _ => z end = z).
  { intros A x y z. destruct c as [|p]; auto.
    do 6 (destruct p as [p|p|]; auto); congruence. }
  rewrite E. exact Hg.
Qed.

(* The invariant of the main loop. *)
Record inv (f : text) (s : lst) : Prop := {
  inv_spell : exists p, spells p (rev (out s)) /\ f = p ++ cur s ++ inp s;
  inv_nest : nest [] (rev (out s)) = Some (stack s);
  inv_stack : Forall (fun o => o = TFunc \/ o = TParen \/ o = TArray) (stack s);
  inv_shape : Forall shape (out s);
  inv_lit : Forall (fun t => tt t <> TLiteral) (out s)
}.

Lemma inv_save : forall f s, inv f s -> inv f (save s).
Proof.
  intros f s [[p [Hp Hf]] Hn Hst Hs Hl]. unfold LexModel.save, flush_out.
  destruct (cur s) as [|c cs] eqn:Ec.
  { constructor; simpl; auto. exists p. split; auto. }
  destruct (operand_shape (c :: cs)) as [Hsh [Ho Hc]]; [discriminate|].
  constructor; cbn [out stack cur inp rev]; auto.
  - exists (p ++ c :: cs). split.
    + apply (spells_tok p (rev (out s)) (Tok TOperand (operand_subtype (c :: cs)) (c :: cs))). auto.
    + rewrite Hf, <- app_assoc. reflexivity.
  - rewrite nest_app, Hn. cbn [nest]. rewrite Ho, Hc. reflexivity.
  - constructor; auto. discriminate.
Qed.

Lemma save_cur : forall s, cur (save s) = [].
Proof. reflexivity. Qed.

Lemma save_inp : forall s, inp (save s) = inp s.
Proof. reflexivity. Qed.

Lemma save_stack : forall s, stack (save s) = stack s.
Proof. reflexivity. Qed.

(* Pushing a token that is neither opener nor closer. *)
Lemma inv_push : forall f s t rest,
  inv f s -> cur s = [] -> inp s = tv t ++ rest ->
  shape t -> opens t = false -> closes t = false -> tt t <> TLiteral ->
  inv f (push t s rest).
Proof.
  intros f s t rest [[p [Hp Hf]] Hn Hst Hs Hl] Hc Hi Hsh Ho Hcl Hlit.
  unfold push. constructor; cbn [out stack cur inp rev]; auto.
  - exists (p ++ tv t). split; [constructor; auto|].
    rewrite Hf, Hc, Hi. rewrite <- app_assoc. reflexivity.
  - rewrite nest_app, Hn. cbn [nest]. rewrite Ho, Hcl. reflexivity.
Qed.

Lemma inv_extend : forall f s a rest,
  inv f s -> inp s = a ++ rest -> inv f (LS (out s) (stack s) (cur s ++ a) rest).
Proof.
  intros f s a rest [[p [Hp Hf]] Hn Hst Hs Hl] Hi.
  constructor; cbn [out stack cur inp]; auto.
  exists p. split; auto. rewrite Hf, Hi, <- app_assoc. reflexivity.
Qed.

(* What a step leaves to be read is a proper suffix. *)
Definition shorter (s s' : lst) : Prop := (List.length (inp s') < List.length (inp s))%nat.

Lemma last_bang : forall (v : text), (last v 0 =? c_bang) = true ->
  (Nat.leb (List.length v) 1) = false -> exists q, q <> [] /\ v = q ++ [c_bang].
Proof.
  intros v Hl Hn. apply N.eqb_eq in Hl. apply Nat.leb_gt in Hn.
  assert (v <> []) by (destruct v; simpl in Hn; [lia|discriminate]).
  exists (removelast v). split.
  - intro E. pose proof (app_removelast_last 0 H) as A. rewrite E in A. rewrite A in Hn.
    simpl in Hn. lia.
  - rewrite <- Hl. apply app_removelast_last. auto.
Qed.

Lemma lex_string_inv : forall f s d r s',
  inv f s -> inp s = d :: r -> (d = c_dq \/ d = c_sq) ->
  lex_string is_num s d r = LOk s' -> inv f s' /\ shorter s s'.
Proof.
  intros f s d r s' HI Hi Hd H. unfold lex_string in H.
  set (s1 := if (d =? c_sq) && text_eqb (cur s) [c_dollar]
                || (d =? c_sq) && has_token s && (last (cur s) 0 =? c_colon)
             then s else save s) in *.
  assert (HI1 : inv f s1) by (unfold s1; destruct (_ || _); auto using inv_save).
  assert (Hi1 : inp s1 = inp s) by (unfold s1; destruct (_ || _); reflexivity).
  destruct (scan_str d r) as [[a rest]|] eqn:E; try discriminate.
  apply (scan_str_app (List.length r)) in E; [|lia]. destruct E as [E Ha].
  destruct (d =? c_dq) eqn:Edq.
  - apply LOk_inj in H; subst s'. split.
    + apply N.eqb_eq in Edq. subst d.
      apply inv_push; auto.
      * rewrite Hi1, Hi, E. reflexivity.
      * unfold shape. simpl. exists a. reflexivity.
      * discriminate.
    + unfold shorter, push. simpl. rewrite Hi, E. simpl. rewrite app_length. lia.
  - apply LOk_inj in H; subst s'. split.
    + apply inv_extend; auto. rewrite Hi1, Hi, E. reflexivity.
    + unfold shorter. simpl. rewrite Hi, E. simpl. rewrite app_length. lia.
Qed.

Lemma lex_brackets_inv : forall f s r s',
  inv f s -> inp s = c_lb :: r -> lex_brackets s r = LOk s' -> inv f s' /\ shorter s s'.
Proof.
  intros f s r s' HI Hi H. unfold lex_brackets in H.
  destruct (scan_brk 1 r) as [[a rest]|] eqn:E; try discriminate.
  apply (scan_brk_app (List.length r)) in E; [|lia].
  apply LOk_inj in H; subst s'. split.
  - apply inv_extend; auto. rewrite Hi, E. reflexivity.
  - unfold shorter. simpl. rewrite Hi, E. simpl. rewrite app_length. lia.
Qed.

Lemma lex_error_inv : forall f s s',
  inv f s -> lex_error is_num s = LOk s' -> inv f s' /\ shorter s s'.
Proof.
  intros f s s' HI H. unfold lex_error in H.
  set (q := has_token s && (last (cur s) 0 =? c_bang)) in *.
  destruct (q && Nat.leb (List.length (cur s)) 1) eqn:Eq; try discriminate.
  destruct (find_code error_codes (inp s)) as [[v rest]|] eqn:E; try discriminate.
  apply find_code_app in E; [|apply codes_nonempty]. destruct E as [E Hv].
  destruct q eqn:Q; apply LOk_inj in H; subst s'; split.
  - unfold q in Q. apply andb_true_iff in Q. destruct Q as [_ Q].
    simpl in Eq. destruct (last_bang _ Q Eq) as [w [Hw Hcur]].
    destruct HI as [[p [Hp Hf]] Hn Hst Hs Hl].
    unfold push. constructor; cbn [out stack cur inp rev]; auto.
    + exists (p ++ (w ++ [c_bang]) ++ v). split.
      * apply (spells_err p (rev (out s)) (Tok TOperand SError v) w); auto.
      * rewrite Hf, Hcur, E. rewrite <- !app_assoc. reflexivity.
    + rewrite nest_app, Hn. reflexivity.
    + constructor; auto. discriminate.
  - unfold shorter, push. simpl. rewrite E, app_length. destruct v; [congruence|simpl; lia].
  - apply inv_push; auto using inv_save. discriminate.
  - unfold shorter, push. simpl. rewrite E, app_length. destruct v; [congruence|simpl; lia].
Qed.

Lemma lex_ws_inv : forall f s c r s',
  inv f s -> inp s = c :: r -> is_ws c = true ->
  lex_ws is_num s = LOk s' -> inv f s' /\ shorter s s'.
Proof.
  intros f s c r s' HI Hi Hc H. unfold lex_ws in H. apply LOk_inj in H; subst s'.
  assert (Hw : take_while is_ws (inp s) <> []) by (rewrite Hi; simpl; rewrite Hc; discriminate).
  pose proof (take_drop is_ws (inp s)) as TD.
  split.
  - apply inv_push; auto using inv_save.
    + unfold shape. match goal with |- context[if ?b then TInf else TWs] => destruct b end;
        simpl; auto. split; auto. apply take_while_all.
    + match goal with |- context[if ?b then TInf else TWs] => destruct b end; reflexivity.
    + match goal with |- context[if ?b then TInf else TWs] => destruct b end; reflexivity.
    + match goal with |- context[if ?b then TInf else TWs] => destruct b end; discriminate.
  - unfold shorter, push. cbn [inp]. rewrite TD at 2. rewrite app_length.
    destruct (take_while is_ws (inp s)); [congruence|simpl; lia].
Qed.

Lemma lex_operator_inv : forall f s c r s',
  inv f s -> inp s = c :: r ->
  memc c [43; 45; 42; 47; 94; 38; 61; 62; 60; 37; 64] = true ->
  lex_operator is_num s c r = LOk s' -> inv f s' /\ shorter s s'.
Proof.
  intros f s c r s' HI Hi Hc H. unfold lex_operator in H.
  match type of H with context[LOk (push (Tok ?ty SNone [c]) (save s) r)] => set (t := ty) in * end.
  assert (Hs1 : inv f (push (Tok t SNone [c]) (save s) r) /\
                shorter s (push (Tok t SNone [c]) (save s) r)).
  { split.
    - apply inv_push; auto using inv_save.
      + unfold t. destruct (c =? c_at) eqn:Ea.
        { apply N.eqb_eq in Ea. subst. unfold shape. simpl. auto. }
        destruct (c =? c_pct) eqn:Ep.
        { apply N.eqb_eq in Ep. subst. unfold shape. simpl. auto. }
        destruct ((c =? c_plus) || (c =? c_minus)) eqn:Epm.
        { assert (Hc2 : c = c_plus \/ c = c_minus).
          { apply orb_true_iff in Epm. destruct Epm as [Q|Q]; apply N.eqb_eq in Q; auto. }
          destruct (prev (save s)) as [t0|].
          - match goal with |- context[if ?b then TInf else TPre] => destruct b end;
              unfold shape; simpl; [discriminate|].
            destruct Hc2; subst; auto.
          - unfold shape; simpl. destruct Hc2; subst; auto. }
        unfold shape. simpl. discriminate.
      + unfold t. destruct (c =? c_at); [reflexivity|]. destruct (c =? c_pct); [reflexivity|].
        destruct ((c =? c_plus) || (c =? c_minus)); [|reflexivity].
        destruct (prev (save s)) as [t0|]; [|reflexivity].
        match goal with |- context[if ?b then TInf else TPre] => destruct b end; reflexivity.
      + unfold t. destruct (c =? c_at); [reflexivity|]. destruct (c =? c_pct); [reflexivity|].
        destruct ((c =? c_plus) || (c =? c_minus)); [|reflexivity].
        destruct (prev (save s)) as [t0|]; [|reflexivity].
        match goal with |- context[if ?b then TInf else TPre] => destruct b end; reflexivity.
      + unfold t. destruct (c =? c_at); [discriminate|]. destruct (c =? c_pct); [discriminate|].
        destruct ((c =? c_plus) || (c =? c_minus)); [|discriminate].
        destruct (prev (save s)) as [t0|]; [|discriminate].
        match goal with |- context[if ?b then TInf else TPre] => destruct b end; discriminate.
    - unfold shorter, push. simpl. rewrite Hi. simpl. lia. }
  destruct r as [|d r2].
  - inversion H; subst. exact Hs1.
  - match type of H with (if ?b then _ else _) = _ => destruct b end.
    + apply LOk_inj in H; subst s'. split.
      * apply inv_push; auto using inv_save; try discriminate.
      * unfold shorter, push. simpl. rewrite Hi. simpl. lia.
    + inversion H; subst. exact Hs1.
Qed.

Lemma lex_opener_inv : forall f s c r s',
  inv f s -> inp s = c :: r -> (c = c_lc \/ c = c_lp) ->
  lex_opener is_num s c r = LOk s' -> inv f s' /\ shorter s s'.
Proof.
  intros f s c r s' HI Hi Hc H. unfold lex_opener in H.
  destruct (c =? c_lc) eqn:El.
  - apply N.eqb_eq in El. subst c. apply LOk_inj in H; subst s'. split.
    + destruct (inv_save f s HI) as [[p [Hp Hf]] Hn Hst Hs Hl].
      rewrite save_cur, save_inp in Hf. rewrite save_stack in *.
      constructor; cbn [out stack cur inp rev]; auto.
      * exists (p ++ [c_lc]). split; [apply (spells_tok p _ (Tok TArray SOpen [c_lc])); auto|].
        rewrite Hf, Hi, <- app_assoc. reflexivity.
      * rewrite nest_app, Hn. reflexivity.
      * constructor; auto. unfold shape. simpl. reflexivity.
      * constructor; auto. discriminate.
    + unfold shorter. simpl. rewrite Hi. simpl. lia.
  - destruct Hc as [-> | ->]; [discriminate|].
    destruct (has_token s) eqn:Et.
    + apply LOk_inj in H; subst s'. split.
      * destruct HI as [[p [Hp Hf]] Hn Hst Hs Hl].
        constructor; cbn [out stack cur inp rev]; auto.
        -- exists (p ++ cur s ++ [c_lp]). split.
           ++ apply (spells_tok p _ (Tok TFunc SOpen (cur s ++ [c_lp]))). auto.
           ++ rewrite Hf, Hi, <- !app_assoc. reflexivity.
        -- rewrite nest_app, Hn. reflexivity.
        -- constructor; auto. unfold shape. simpl. exists (cur s). split; auto.
           unfold has_token in Et. destruct (cur s); [discriminate|]. discriminate.
        -- constructor; auto. discriminate.
      * unfold shorter. simpl. rewrite Hi. simpl. lia.
    + apply LOk_inj in H; subst s'. split.
      * destruct HI as [[p [Hp Hf]] Hn Hst Hs Hl].
        assert (Ec : cur s = []) by (unfold has_token in Et; destruct (cur s); [auto|discriminate]).
        constructor; cbn [out stack cur inp rev]; auto.
        -- exists (p ++ [c_lp]). split.
           ++ apply (spells_tok p _ (Tok TParen SOpen [c_lp])). auto.
           ++ rewrite Hf, Ec, Hi, <- !app_assoc. reflexivity.
        -- rewrite nest_app, Hn. reflexivity.
        -- constructor; auto. unfold shape. simpl. reflexivity.
        -- constructor; auto. discriminate.
      * unfold shorter. simpl. rewrite Hi. simpl. lia.
Qed.

Lemma lex_closer_inv : forall f s c r s',
  inv f s -> inp s = c :: r ->
  lex_closer is_num s c r = LOk s' -> inv f s' /\ shorter s s'.
Proof.
  intros f s c r s' HI Hi H. unfold lex_closer in H. rewrite save_stack in H.
  destruct (stack s) as [|o st] eqn:Est; try discriminate.
  destruct (c =? (if ttype_eqb o TArray then c_rc else c_rp)) eqn:Ec; try discriminate.
  apply N.eqb_eq in Ec. apply LOk_inj in H; subst s'. split.
  - destruct (inv_save f s HI) as [[p [Hp Hf]] Hn Hst Hs Hl].
    rewrite save_cur, save_inp in Hf. rewrite save_stack in Hn, Hst. rewrite Est in Hn, Hst.
    pose proof (Forall_inv Hst) as Ho. pose proof (Forall_inv_tail Hst) as Hst'. subst c.
    constructor; cbn [out stack cur inp rev]; auto.
    + exists (p ++ [if ttype_eqb o TArray then c_rc else c_rp]).
      split; [apply (spells_tok p _ (Tok o SClose [if ttype_eqb o TArray then c_rc else c_rp])); auto|].
      rewrite Hf, Hi, <- app_assoc. reflexivity.
    + rewrite nest_app, Hn. destruct Ho as [-> | [-> | ->]]; reflexivity.
    + constructor; auto. unfold shape. destruct Ho as [->|[-> | ->]]; reflexivity.
    + constructor; auto. destruct Ho as [->|[-> | ->]]; discriminate.
  - unfold shorter. simpl. rewrite Hi. simpl. lia.
Qed.

Lemma lex_sep_inv : forall f s c r s',
  inv f s -> inp s = c :: r -> (c = c_semi \/ c = c_comma) ->
  lex_sep is_num dia s c r = LOk s' -> inv f s' /\ shorter s s'.
Proof.
  intros f s c r s' HI Hi Hc H. unfold lex_sep in H.
  match type of H with (let '(ty, sb) := ?x in _) = _ => set (p := x) in * end.
  assert (Hp : (p = (TSep, SArg)) \/ (p = (TInf, SNone)) \/ (p = (TSep, SRow) /\ c = c_semi)).
  { unfold p. destruct (c =? c_comma) eqn:E.
    - destruct (stack (save s)) as [|[] ?]; auto.
    - assert (c = c_semi) by (destruct Hc as [-> | ->]; [auto|discriminate]).
      destruct (stack (save s)) as [|[] ?]; auto; destruct dia; auto. }
  destruct p as [ty sb]. apply LOk_inj in H; subst s'. split.
  - apply inv_push; auto using inv_save.
    + destruct Hp as [Hp|[Hp|[Hp Hc2]]]; inversion Hp; subst; unfold shape; simpl.
      * destruct Hc; subst; auto.
      * discriminate.
      * reflexivity.
    + destruct Hp as [Hp|[Hp|[Hp Hc2]]]; inversion Hp; subst; reflexivity.
    + destruct Hp as [Hp|[Hp|[Hp Hc2]]]; inversion Hp; subst; reflexivity.
    + destruct Hp as [Hp|[Hp|[Hp Hc2]]]; inversion Hp; subst; discriminate.
  - unfold shorter, push. simpl. rewrite Hi. simpl. lia.
Qed.

Lemma lstep_inv : forall f s s', inv f s -> inp s <> [] ->
  lstep is_num dia s = LOk s' -> inv f s' /\ shorter s s'.
Proof.
  intros f s s' HI Hne H. unfold lstep in H.
  destruct (inp s) as [|c r] eqn:Hi; [congruence|].
  unfold sci in H. rewrite Hi in H.
  destruct (match r with
      | [] => None
      | d :: _ => if ((c =? c_plus) || (c =? c_minus)) && has_token s && sci_base (cur s) && is_digit d
           then Some (LS (out s) (stack s) (cur s ++ [c]) r) else None end) as [s1|] eqn:Es.
  { destruct r as [|d r2]; try discriminate. destruct (_ && _); try discriminate.
    inversion Es; subst s1. inversion H; subst s'. split.
    - apply inv_extend; auto.
    - unfold shorter. simpl. rewrite Hi. simpl. lia. }
  set (s0 := if ender c then save s else s) in *.
  assert (HI0 : inv f s0) by (unfold s0; destruct (ender c); auto using inv_save).
  assert (Hi0 : inp s0 = c :: r) by (unfold s0; destruct (ender c); auto).
  assert (Hsh : forall x, shorter s0 x -> shorter s x).
  { intro x. unfold shorter. rewrite Hi0, Hi. auto. }
  clearbody s0.
  assert (G : inv f s' /\ shorter s0 s').
  2:{ destruct G. split; auto. }
  destruct ((c =? c_dq) || (c =? c_sq)) eqn:E1.
  { eapply lex_string_inv; eauto. apply orb_true_iff in E1.
    destruct E1 as [Q|Q]; apply N.eqb_eq in Q; auto. }
  destruct (c =? c_lb) eqn:E2.
  { apply N.eqb_eq in E2. subst. eapply lex_brackets_inv; eauto. }
  destruct (c =? c_hash) eqn:E3.
  { apply N.eqb_eq in E3. subst c. destruct (hash_postfix is_num s0).
    - apply LOk_inj in H; subst s'. split.
      + apply inv_push; auto using inv_save; try discriminate; unfold shape; simpl; auto.
      + unfold shorter. simpl. rewrite Hi0. simpl. lia.
    - eapply lex_error_inv; eauto. }
  destruct (is_ws c) eqn:E4.
  { eapply lex_ws_inv; eauto. }
  destruct (c =? c_colon) eqn:E5.
  { apply N.eqb_eq in E5. subst c. destruct (colon_infix is_num s0 r).
    - apply LOk_inj in H; subst s'. split.
      + apply inv_push; auto using inv_save; try discriminate.
      + unfold shorter. simpl. rewrite Hi0. simpl. lia.
    - apply LOk_inj in H; subst s'. split.
      + apply inv_extend; auto.
      + unfold shorter. simpl. rewrite Hi0. simpl. lia. }
  destruct (memc c [43; 45; 42; 47; 94; 38; 61; 62; 60; 37; 64]) eqn:E6.
  { eapply lex_operator_inv; eauto. }
  destruct ((c =? c_lc) || (c =? c_lp)) eqn:E7.
  { eapply lex_opener_inv; eauto. apply orb_true_iff in E7.
    destruct E7 as [Q|Q]; apply N.eqb_eq in Q; auto. }
  destruct ((c =? c_rp) || (c =? c_rc)) eqn:E8.
  { eapply lex_closer_inv; eauto. }
  destruct ((c =? c_semi) || (c =? c_comma)) eqn:E9.
  { eapply lex_sep_inv; eauto. apply orb_true_iff in E9.
    destruct E9 as [Q|Q]; apply N.eqb_eq in Q; auto. }
  apply LOk_inj in H; subst s'. split.
  - apply inv_extend; auto.
  - unfold shorter. simpl. rewrite Hi0. simpl. lia.
Qed.

Lemma lloop_inv : forall n f s, inv f s -> (List.length (inp s) <= n)%nat ->
  match lloop is_num dia n s with
  | LOk s' => inv f s' /\ inp s' = []
  | LErr _ => True
  | LFuel => False
  end.
Proof.
  induction n as [|n IH]; intros f s HI Hn; cbn [lloop].
  - destruct (inp s) as [|c r] eqn:Hi; [auto|simpl in Hn; lia].
  - destruct (inp s) as [|c r] eqn:Hi; [auto|].
    destruct (lstep is_num dia s) as [s'|e|] eqn:Es; auto.
    + destruct (lstep_inv f s s') as [HI' Hlt]; auto; [rewrite Hi; discriminate|].
      apply IH; auto. unfold shorter in Hlt. rewrite Hi in Hlt. simpl in Hlt, Hn. lia.
    + unfold lstep in Es. rewrite Hi in Es. clear - Es.
      destruct (sci s); [discriminate|].
      unfold lex_string, lex_brackets, lex_error, lex_ws, lex_operator, lex_opener, lex_closer,
        lex_sep in Es.
      repeat match type of Es with
        | (let '(_, _) := ?x in _) = _ => destruct x
        | context[match ?x with _ => _ end] => destruct x; try discriminate
        end; discriminate.
Qed.

Lemma inv_start : forall r, inv r (LS [] [] [] r).
Proof. intro r. constructor; simpl; auto. exists []. split; [constructor|reflexivity]. Qed.

Lemma tokenize_total : forall f, tokenize is_num dia f <> LFuel.
Proof.
  intros [|c r]; simpl; [discriminate|]. destruct (c =? c_eq); [|discriminate].
  pose proof (lloop_inv (List.length r) r (LS [] [] [] r) (inv_start r) (le_n _)) as H.
  destruct (lloop is_num dia (List.length r) (LS [] [] [] r)) as [s|e|]; try discriminate.
  - destruct (stack s); discriminate.
  - contradiction.
Qed.

Lemma tokenize_sound : forall r ts, tokenize is_num dia (c_eq :: r) = LOk ts ->
  spells r ts /\ nest [] ts = Some [] /\ Forall shape ts /\ Forall (fun t => tt t <> TLiteral) ts.
Proof.
  intros r ts. unfold tokenize. rewrite N.eqb_refl.
  pose proof (lloop_inv (List.length r) r (LS [] [] [] r) (inv_start r) (le_n _)) as H.
  destruct (lloop is_num dia (List.length r) (LS [] [] [] r)) as [s|e|]; try discriminate.
  destruct H as [HI Hi]. destruct (stack s) eqn:Est; try discriminate.
  intro E. inversion E; subst ts; clear E.
  destruct (inv_save _ _ HI) as [[p [Hp Hf]] Hn _ Hs Hl].
  rewrite save_cur, save_inp, Hi in Hf. simpl in Hf. rewrite app_nil_r in Hf.
  rewrite save_stack, Est in Hn.
  split; [rewrite Hf; exact Hp|].
  split; auto. split; apply Forall_rev; auto.
Qed.
End Lex.
