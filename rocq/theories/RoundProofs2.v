(* Tokenizer side of the round trip: a printed tree is read as its tokens. *)
From Coq Require Import List Bool NArith PeanoNat Lia String.
From Verif Require Import LexModel LexSpec LexProofs PrattModel PrattSpec PrattProofs PrattProofs2
  RoundSpec RoundProofs.
Import ListNotations.
Open Scope N_scope.

Section R.
Variables num ref : Type.
Variable pnum : text -> option num.
Variable snum : num -> text.
Variable pref : text -> option ref.
Variable sref : ref -> text.
Variable upper : text -> text.
Variable dia : dialect.
Notation expr := (expr num ref).
Notation is_num := (is_num num pnum).
Notation show := (show num ref snum sref upper).
Notation left_parens := (left_parens num ref).
Notation right_parens := (right_parens num ref).
Notation un_parens := (un_parens num ref).
Notation faithful := (faithful num ref pnum snum pref sref upper dia).
Notation ref_ok := (ref_ok num ref pnum pref sref dia).
Notation num_ok := (num_ok num pnum snum).
Notation reach := (reach num pnum dia).
Notation one_token := (one_token num pnum dia).
Notation tail_ref := (tail_ref num ref pnum sref).
Notation tk := (tk num ref snum sref).
Notation simple_call := (simple_call num ref).
Notation lstep := (lstep is_num dia).
Notation lloop := (lloop is_num dia).
Notation flush := (flush_out is_num).

Lemma reach_trans : forall a b c, reach a b -> reach b c -> reach a c.
Proof. intros a b c H. induction H; intros; auto. eapply reach_step; eauto. Qed.

Lemma reach_one : forall s s1, inp s <> [] -> lstep s = LOk s1 -> reach s s1.
Proof. intros. eapply reach_step; eauto. apply reach_refl. Qed.

Lemma reach_lloop : forall s s1, reach s s1 -> inp s1 = [] ->
  forall n, lloop n s <> LFuel -> lloop n s = LOk s1.
Proof.
  intros s s1 H. induction H as [s|s s1 s2 Hi Hl H IH]; intros He n Hn.
  - destruct n; simpl; rewrite He; reflexivity.
  - destruct n as [|n]; simpl in *; destruct (inp s) as [|c r] eqn:Ei; try congruence.
    rewrite Hl in *. apply IH; auto.
Qed.

Definition pv (o : list tok) : option tok := find (fun t => negb (ttype_eqb (tt t) TWs)) o.

(* The last token before this point does not end an operand. *)
Definition ready (o : list tok) : Prop :=
  match pv o with
  | None => True
  | Some t => tsb t <> SClose /\ tt t <> TPost /\ tt t <> TOperand
  end.

(* Tokens that end an operand. *)
Definition endtok (t : tok) : bool :=
  tsub_eqb (tsb t) SClose || ttype_eqb (tt t) TPost || ttype_eqb (tt t) TOperand.

(* The operand still being collected when the text of a tree has been read. *)
Fixpoint pend (e : expr) : text :=
  match e with
  | ENum _ _ n => snum n
  | EBool _ _ b => if b then tx "true" else tx "false"
  | ERef _ _ r => sref r
  | EUn _ _ op x => if postfix_op op then [] else if un_parens op x then [] else pend x
  | EBin _ _ op _ r => if right_parens op r then [] else pend r
  | _ => []
  end.
Definition pendw (b : bool) (e : expr) : text := if b then [] else pend e.

(* ---- single steps ---- *)
Lemma sci_none : forall o st cu c r, c <> c_plus -> c <> c_minus -> sci (LS o st cu (c :: r)) = None.
Proof.
  intros o st cu c r H1 H2. unfold sci. simpl. destruct r; auto.
  apply N.eqb_neq in H1. apply N.eqb_neq in H2. rewrite H1, H2. reflexivity.
Qed.

Lemma sci_empty : forall o st i, sci (LS o st [] i) = None.
Proof.
  intros o st i. unfold sci. simpl. destruct i as [|c [|d r]]; auto.
  unfold has_token. simpl. rewrite andb_false_r. reflexivity.
Qed.

Lemma plain_step : forall o st cu c r, plainc c = true ->
  lstep (LS o st cu (c :: r)) = LOk (LS o st (cu ++ [c]) r).
Proof.
  intros o st cu c r H. unfold plainc in H. apply negb_true_iff in H.
  apply orb_false_iff in H. destruct H as [H H3]. apply orb_false_iff in H. destruct H as [H1 H2].
  assert (Q : forall x, N.eqb c x = true -> memc x enders = false /\ memc x [34; 39; 91; 35; 58; 123; 40; 125; 41; 59; 44] = false).
  { intros x E. apply N.eqb_eq in E. subst x. split; auto. }
  assert (F : forall x, memc x enders = true \/ memc x [34; 39; 91; 35; 58; 123; 40; 125; 41; 59; 44] = true -> (c =? x) = false).
  { intros x E. destruct (c =? x) eqn:G; auto. destruct (Q x G) as [A B]. rewrite A, B in E. destruct E; discriminate. }
  unfold LexModel.lstep. cbn [inp].
  rewrite sci_none.
  2:{ intro E. subst c. discriminate. }
  2:{ intro E. subst c. discriminate. }
  rewrite H1. cbv zeta. unfold c_dq, c_sq, c_lb, c_hash, c_colon, c_lc, c_lp, c_rp, c_rc, c_semi, c_comma.
  rewrite !F by (vm_compute; auto). rewrite H2. cbn [orb].
  assert (M : memc c [43; 45; 42; 47; 94; 38; 61; 62; 60; 37; 64] = false).
  { unfold memc. cbn [existsb]. rewrite !F by (vm_compute; auto). reflexivity. }
  rewrite M. reflexivity.
Qed.

Lemma word_reach : forall o st rest w cu, forallb plainc w = true ->
  reach (LS o st cu (w ++ rest)) (LS o st (cu ++ w) rest).
Proof.
  intros o st rest. induction w as [|c w IH]; intros cu H.
  - rewrite app_nil_r. apply reach_refl.
  - simpl in H. apply andb_prop in H. destruct H as [H1 H2]. cbn [app].
    eapply reach_step; [discriminate|apply plain_step; auto|].
    replace (cu ++ c :: w) with ((cu ++ [c]) ++ w) by (rewrite <- app_assoc; reflexivity). apply IH; auto.
Qed.

Lemma save_flush : forall o st cu i, save is_num (LS o st cu i) = LS (flush o cu) st [] i.
Proof. reflexivity. Qed.

(* A space, with the token it becomes. *)
Definition nonws (s : text) : Prop := match s with c :: _ => is_ws c = false | [] => True end.
Definition hd_ok (s : text) : Prop := match s with c :: _ => is_ws c = false | [] => False end.

Definition prev_ref_o (o : list tok) : bool :=
  match pv o with
  | Some t => ttype_eqb (tt t) TPost || closer t
      || (ttype_eqb (tt t) TOperand && tsub_eqb (tsb t) SRange && ref_value is_num (tv t))
  | None => false
  end.

Lemma space_step : forall o st cu r, nonws r ->
  lstep (LS o st cu (c_sp :: r))
  = LOk (LS (Tok (if prev_ref_o (flush o cu) && starts_ref r then TInf else TWs) SNone [c_sp]
              :: flush o cu) st [] r).
Proof.
  intros o st cu r H. unfold LexModel.lstep. cbn [inp].
  rewrite sci_none by discriminate.
  change (ender c_sp) with true. cbv zeta. cbn iota. rewrite save_flush.
  change ((c_sp =? c_dq) || (c_sp =? c_sq)) with false. cbn iota.
  change (c_sp =? c_lb) with false. change (c_sp =? c_hash) with false.
  change (is_ws c_sp) with true. cbn iota. unfold lex_ws. cbn [inp].
  assert (Ew : take_while is_ws (c_sp :: r) = [c_sp]).
  { simpl. f_equal. destruct r as [|d r]; auto. simpl in H |- *. rewrite H. reflexivity. }
  assert (Ed : drop_while is_ws (c_sp :: r) = r).
  { simpl. destruct r as [|d r]; auto. simpl in H |- *. rewrite H. reflexivity. }
  rewrite Ew, Ed, save_flush. change (memc c_sp [c_sp]) with true. cbn [andb flush_out].
  reflexivity.
Qed.

Lemma ready_prev_ref : forall o, ready o -> prev_ref_o o = false.
Proof.
  intros o H. unfold ready in H. unfold prev_ref_o. destruct (pv o) as [t|]; auto.
  destruct H as [A [B C]]. destruct t as [ty sb v]. simpl in *. unfold closer. simpl.
  destruct ty, sb; simpl; try congruence; auto.
Qed.

Lemma close_step : forall o st cu r c op,
  (op = TArray /\ c = c_rc) \/ (op <> TArray /\ c = c_rp) ->
  lstep (LS o (op :: st) cu (c :: r)) = LOk (LS (Tok op SClose [c] :: flush o cu) st [] r).
Proof.
  intros o st cu r c op H. unfold LexModel.lstep. cbn [inp].
  rewrite sci_none by (destruct H as [[_ ->]|[_ ->]]; discriminate).
  destruct H as [[-> ->]|[H ->]]; cbv zeta.
  - reflexivity.
  - change (ender c_rp) with true. cbn iota. rewrite save_flush.
    change ((c_rp =? c_dq) || (c_rp =? c_sq)) with false. cbn iota.
    change (c_rp =? c_lb) with false. change (c_rp =? c_hash) with false.
    change (is_ws c_rp) with false. cbn iota. change (c_rp =? c_colon) with false. cbn iota.
    change (memc c_rp [43; 45; 42; 47; 94; 38; 61; 62; 60; 37; 64]) with false. cbn iota.
    change ((c_rp =? c_lc) || (c_rp =? c_lp)) with false. cbn iota.
    change ((c_rp =? c_rp) || (c_rp =? c_rc)) with true. cbn iota.
    unfold lex_closer. rewrite save_flush. cbn [stack flush_out out].
    destruct op; try reflexivity. congruence.
Qed.

Lemma open_step : forall o st r,
  lstep (LS o st [] (c_lp :: r)) = LOk (LS (t_open :: o) (TParen :: st) [] r).
Proof. intros. unfold LexModel.lstep. cbn [inp]. rewrite sci_empty. reflexivity. Qed.

Lemma func_step : forall o st cu r, cu <> [] ->
  lstep (LS o st cu (c_lp :: r)) = LOk (LS (Tok TFunc SOpen (cu ++ [c_lp]) :: o) (TFunc :: st) [] r).
Proof.
  intros o st cu r H. unfold LexModel.lstep. cbn [inp]. rewrite sci_none by discriminate.
  destruct cu; [congruence|]. reflexivity.
Qed.

Lemma brace_step : forall o st r,
  lstep (LS o st [] (c_lc :: r)) = LOk (LS (Tok TArray SOpen [c_lc] :: o) (TArray :: st) [] r).
Proof. intros. unfold LexModel.lstep. cbn [inp]. rewrite sci_empty. reflexivity. Qed.

Definition top_fa (st : list ttype) : bool :=
  match st with TFunc :: _ | TArray :: _ => true | _ => false end.

Lemma comma_step : forall o st cu r,
  lstep (LS o st cu (c_comma :: r))
  = LOk (LS ((if top_fa st then Tok TSep SArg [c_comma] else t_inf [c_comma]) :: flush o cu) st [] r).
Proof.
  intros o st cu r. unfold LexModel.lstep. cbn [inp]. rewrite sci_none by discriminate.
  destruct st as [|[] st]; reflexivity.
Qed.

Lemma semi_step : forall o st cu r,
  lstep (LS o (TArray :: st) cu (c_semi :: r))
  = LOk (LS (Tok TSep SRow [c_semi] :: flush o cu) (TArray :: st) [] r).
Proof.
  intros o st cu r. unfold LexModel.lstep. cbn [inp]. rewrite sci_none by discriminate. reflexivity.
Qed.

Lemma pct_step : forall o st cu r,
  lstep (LS o st cu (c_pct :: r)) = LOk (LS (Tok TPost SNone [c_pct] :: flush o cu) st [] r).
Proof.
  intros o st cu r. unfold LexModel.lstep. cbn [inp]. rewrite sci_none by discriminate.
  cbv zeta. change (ender c_pct) with true. cbn iota. rewrite save_flush.
  destruct r; reflexivity.
Qed.

Definition hash_ok (o : list tok) (cu : text) : Prop :=
  match cu with
  | [] => match pv o with Some t => ttype_eqb (tt t) TPost || closer t = true | None => False end
  | _ => last cu 0 <> c_bang /\ operand_subtype is_num cu = SRange
  end.

Lemma hash_step : forall o st cu r, hash_ok o cu ->
  lstep (LS o st cu (c_hash :: r)) = LOk (LS (Tok TPost SNone [c_hash] :: flush o cu) st [] r).
Proof.
  intros o st cu r H. unfold LexModel.lstep. cbn [inp]. rewrite sci_none by discriminate.
  cbv zeta. change (ender c_hash) with false. cbn iota.
  change ((c_hash =? c_dq) || (c_hash =? c_sq)) with false. cbn iota.
  change (c_hash =? c_lb) with false. change (c_hash =? c_hash) with true. cbn iota.
  assert (E : hash_postfix is_num (LS o st cu (c_hash :: r)) = true).
  { unfold hash_postfix, has_token. cbn [cur]. destruct cu as [|c cu].
    - unfold hash_ok in H. unfold prev. cbn [out]. fold (pv o). destruct (pv o) as [t|]; [|contradiction].
      rewrite H. reflexivity.
    - destruct H as [H1 H2]. apply N.eqb_neq in H1. rewrite H1, H2. reflexivity. }
  rewrite E. reflexivity.
Qed.

Definition colon_ok (o : list tok) (cu : text) : Prop :=
  match cu with
  | [] => match pv o with Some t => ttype_eqb (tt t) TPost || closer t = true | None => False end
  | _ => last cu 0 <> c_bang /\ has_range_colon cu || memc c_lb cu = true
  end.

Lemma colon_step : forall o st cu r, colon_ok o cu ->
  lstep (LS o st cu (c_colon :: r)) = LOk (LS (t_inf [c_colon] :: flush o cu) st [] r).
Proof.
  intros o st cu r H. unfold LexModel.lstep. cbn [inp]. rewrite sci_none by discriminate.
  cbv zeta. change (ender c_colon) with false. cbn iota.
  change ((c_colon =? c_dq) || (c_colon =? c_sq)) with false. cbn iota.
  change (c_colon =? c_lb) with false. change (c_colon =? c_hash) with false.
  change (is_ws c_colon) with false. change (c_colon =? c_colon) with true. cbn iota.
  assert (E : colon_infix is_num (LS o st cu (c_colon :: r)) r = true).
  { unfold colon_infix, has_token. cbn [cur]. destruct cu as [|c cu].
    - unfold colon_ok in H. unfold prev_ref, prev. cbn [out]. fold (pv o).
      destruct (pv o) as [t|]; [|contradiction]. rewrite H. reflexivity.
    - destruct H as [H1 H2]. apply N.eqb_neq in H1. rewrite H1, H2. reflexivity. }
  rewrite E. reflexivity.
Qed.

Lemma prefix_step : forall o st op r, In op prefix_ops -> ready o ->
  lstep (LS o st [] (op ++ r)) = LOk (LS (Tok TPre SNone op :: o) st [] r).
Proof.
  intros o st op r Hop Hr. unfold ready in Hr.
  assert (Hp : match pv o with
    | Some t => tsub_eqb (tsb t) SClose || ttype_eqb (tt t) TPost || ttype_eqb (tt t) TOperand
    | None => false end = false).
  { destruct (pv o) as [t|]; auto. destruct Hr as [A [B C]]. destruct t as [ty sb v]. simpl in *.
    destruct ty, sb; simpl; congruence. }
  assert (Hq : match pv o with
    | Some t => if tsub_eqb (tsb t) SClose || ttype_eqb (tt t) TPost || ttype_eqb (tt t) TOperand
                then TInf else TPre
    | None => TPre end = TPre) by (destruct (pv o); auto; rewrite Hp; auto).
  unfold LexModel.lstep. rewrite sci_empty.
  destruct Hop as [<-|[<-|[<-|[]]]]; destruct r; cbn;
    unfold prev; cbn [out]; fold (pv o); try rewrite Hq; reflexivity.
Qed.

Definition arith_ops : list text :=
  map tx ["^"; "*"; "/"; "+"; "-"; "&"; "="; "<"; ">"; "<="; ">="; "<>"]%string.

Lemma op_step : forall o st op r, In op arith_ops ->
  match pv o with Some t => endtok t = true | None => False end ->
  lstep (LS o st [] (op ++ c_sp :: r)) = LOk (LS (t_inf op :: o) st [] (c_sp :: r)).
Proof.
  intros o st op r Hop H.
  assert (Hq : match pv o with
    | Some t => if tsub_eqb (tsb t) SClose || ttype_eqb (tt t) TPost || ttype_eqb (tt t) TOperand
                then TInf else TPre
    | None => TPre end = TInf).
  { destruct (pv o) as [t|]; [|contradiction]. unfold endtok in H. rewrite H. reflexivity. }
  unfold LexModel.lstep. rewrite sci_empty.
  repeat (destruct Hop as [<-|Hop]; [cbn; unfold prev; cbn [out]; fold (pv o); try rewrite Hq; reflexivity|]).
  contradiction.
Qed.

Lemma scan_double : forall t rest, match rest with c :: _ => c <> c_dq | [] => True end ->
  scan_str c_dq (double_dq t ++ c_dq :: rest) = Some (double_dq t ++ [c_dq], rest).
Proof.
  induction t as [|c t IH]; intros rest H.
  - cbn [double_dq app scan_str]. rewrite N.eqb_refl. destruct rest as [|d rest]; auto.
    apply N.eqb_neq in H. rewrite H. reflexivity.
  - cbn [double_dq]. destruct (c =? c_dq) eqn:E; cbn [app scan_str].
    + rewrite N.eqb_refl. rewrite IH by auto. reflexivity.
    + rewrite E, IH by auto. reflexivity.
Qed.

Lemma text_step : forall o st t rest, match rest with c :: _ => c <> c_dq | [] => True end ->
  lstep (LS o st [] (quote t ++ rest)) = LOk (LS (Tok TOperand SText (quote t) :: o) st [] rest).
Proof.
  intros o st t rest H. unfold quote. cbn [app]. rewrite <- app_assoc. cbn [app].
  unfold LexModel.lstep. cbn [inp]. rewrite sci_empty. cbv zeta.
  change (ender c_dq) with false. cbn iota. change ((c_dq =? c_dq) || (c_dq =? c_sq)) with true. cbn iota.
  unfold lex_string. rewrite scan_double by auto. reflexivity.
Qed.

Lemma find_code_all : forall v rest, In v error_codes -> find_code error_codes (v ++ rest) = Some (v, rest).
Proof.
  intros v rest H.
  repeat (destruct H as [<-|H]; [reflexivity|]). contradiction.
Qed.

Lemma err_step : forall o st v rest, In v error_codes -> ready o ->
  lstep (LS o st [] (v ++ rest)) = LOk (LS (Tok TOperand SError v :: o) st [] rest).
Proof.
  intros o st v rest H Hr.
  assert (Hv : exists w, v = c_hash :: w).
  { repeat (destruct H as [<-|H]; [eexists; reflexivity|]). contradiction. }
  pose proof (find_code_all v rest H) as Hfc. destruct Hv as [w ->]. cbn [app] in *.
  unfold LexModel.lstep. cbn [inp]. rewrite sci_empty.
  cbv zeta. change (ender c_hash) with false. cbn iota.
  change ((c_hash =? c_dq) || (c_hash =? c_sq)) with false. cbn iota.
  change (c_hash =? c_lb) with false. change (c_hash =? c_hash) with true. cbn iota.
  assert (E : hash_postfix is_num (LS o st [] (c_hash :: w ++ rest)) = false).
  { unfold hash_postfix, has_token. cbn [cur]. unfold prev. cbn [out]. fold (pv o).
    unfold ready in Hr. destruct (pv o) as [t|]; auto. destruct Hr as [A [B C]].
    destruct t as [ty sb vv]. unfold closer. simpl in *. destruct ty, sb; simpl; congruence. }
  rewrite E. unfold lex_error. cbn [has_token cur andb inp]. rewrite Hfc. reflexivity.
Qed.

(* ---- shape of the text and of the tokens ---- *)
Lemma hd_ok_app : forall s r, hd_ok s -> hd_ok (s ++ r).
Proof. intros [|c s] r H; [contradiction|exact H]. Qed.

Lemma hd_nonws : forall s, hd_ok s -> nonws s.
Proof. intros [|c s] H; [exact I|exact H]. Qed.

Lemma hd_wrap : forall b s, (b = false -> hd_ok s) -> hd_ok (wrap b s).
Proof. intros [] s H; simpl; auto. Qed.

Lemma hd_infix : forall op ls rs, hd_ok ls -> hd_ok (infix_text op ls rs).
Proof.
  intros op ls rs H. unfold infix_text.
  destruct (text_eqb op (tx ":")); [apply hd_ok_app; auto|].
  destruct (text_eqb op (tx " ")); [apply hd_ok_app; auto|].
  destruct (text_eqb op (tx ",")); apply hd_ok_app; auto.
Qed.

Lemma plain_nonws : forall c, plainc c = true -> is_ws c = false.
Proof.
  intros c H. unfold plainc in H. apply negb_true_iff in H.
  apply orb_false_iff in H. destruct H as [H _]. apply orb_false_iff in H. tauto.
Qed.

Lemma hd_word : forall w r, word w -> hd_ok (w ++ r).
Proof.
  intros w r [H1 H2]. destruct w as [|c w]; [congruence|]. simpl in *.
  apply andb_prop in H2. apply plain_nonws. exact (proj1 H2).
Qed.

Lemma hd_code : forall v, In v error_codes -> hd_ok v.
Proof.
  assert (H : Forall hd_ok error_codes) by (repeat constructor).
  intros v Hv. rewrite Forall_forall in H. auto.
Qed.

Lemma show_head : forall e u g, faithful u g e -> hd_ok (show e).
Proof.
  induction e as [n|t|b|x|r| |op x IH|op l r IHl IHr|name a _|f a IHf _|rows _] using expr_ind2;
    intros u g Hf; simpl; auto.
  - destruct Hf as [_ [Hp Hd]]. destruct (snum n) as [|c w]; [contradiction|]. simpl in *.
    apply andb_prop in Hp. apply plain_nonws. tauto.
  - destruct b; reflexivity.
  - simpl in Hf. destruct x as [v|v]; [|contradiction]. apply hd_code. exact (proj1 Hf).
  - destruct Hf as [_ [_ [_ [_ H]]]]. exact H.
  - simpl in Hf. destruct Hf as [Hop Hx]. destruct (postfix_op op) eqn:P.
    + apply hd_ok_app, hd_wrap. eauto.
    + destruct Hop as [<-|[<-|[<-|[]]]]; reflexivity.
  - simpl in Hf. destruct Hf as [_ [_ [_ [_ [_ [Hl _]]]]]]. apply hd_infix, hd_wrap. eauto.
  - simpl in Hf. destruct Hf as [Hw [Hup _]]. rewrite Hup. apply hd_word. exact Hw.
  - simpl in Hf. destruct Hf as [Hc _]. apply hd_ok_app, hd_wrap. intro B.
    destruct f; try discriminate; eauto.
Qed.

Lemma infix_toks_split : forall op ls rs, exists m, infix_toks op ls rs = m ++ rs.
Proof.
  intros. unfold infix_toks.
  destruct (text_eqb op (tx ":")); [eexists (ls ++ [_]); rewrite <- app_assoc; reflexivity|].
  destruct (text_eqb op (tx " ")); [eexists (ls ++ [_]); rewrite <- app_assoc; reflexivity|].
  destruct (text_eqb op (tx ",")); [eexists (ls ++ [_; _]); rewrite <- app_assoc; reflexivity|].
  eexists (ls ++ [_; _; _]). rewrite <- app_assoc. reflexivity.
Qed.

Lemma pv_cons : forall t o, tt t <> TWs -> pv (t :: o) = Some t.
Proof.
  intros t o H. unfold pv. simpl. destruct (ttype_eqb (tt t) TWs) eqn:E; auto.
  apply ttype_eqb_eq in E. congruence.
Qed.

(* ---- tokens that a ':' or a space after the tree takes as a reference ---- *)
Definition refend (ts : list tok) : Prop :=
  exists l t, ts = l ++ [t] /\ (ttype_eqb (tt t) TPost || closer t = true).

Lemma refend_app : forall a b, refend b -> refend (a ++ b).
Proof. intros a b [l [t [-> H]]]. exists (a ++ l), t. rewrite app_assoc. auto. Qed.
Lemma refend_last : forall a t, ttype_eqb (tt t) TPost || closer t = true -> refend (a ++ [t]).
Proof. intros a t H. exists a, t. auto. Qed.
Lemma refend_wrapt : forall ts, refend (wrapt true ts).
Proof. intro ts. simpl. apply (refend_last (t_open :: ts)). reflexivity. Qed.

Lemma refend_pv : forall ts o, refend ts ->
  match pv (rev ts ++ o) with Some t => ttype_eqb (tt t) TPost || closer t = true | None => False end.
Proof.
  intros ts o [l [t [-> H]]]. rewrite rev_app_distr. cbn [rev app]. rewrite pv_cons; auto.
  intro E. rewrite E in H. unfold closer in H. rewrite E in H. discriminate.
Qed.

Definition tail_good (colon : bool) (e : expr) : Prop :=
  (pend e = [] /\ refend (tk e)) \/
  (pend e <> [] /\ if colon then last (pend e) 0 <> c_bang /\ has_range_colon (pend e) || memc c_lb (pend e) = true
                   else ref_value is_num (pend e) = true).

Lemma tail_ok : forall colon e u g, faithful u g e -> tail_ref colon e = true -> tail_good colon e.
Proof.
  intros colon. induction e as [n|t|b|x|r| |op x IH|op l r IHl IHr|name a _|f a IHf _|rows _] using expr_ind2;
    intros u g Hf Ht; simpl in Ht; try discriminate.
  - right. simpl. destruct Hf as [_ [_ [_ [Hl Hh]]]].
    split; [destruct (sref r); [contradiction|discriminate]|].
    destruct colon; auto.
  - left. simpl. rewrite Ht. split; auto. apply refend_last. reflexivity.
  - simpl in Hf. destruct Hf as [_ [_ [_ [_ [_ [_ Hr]]]]]].
    destruct (infix_toks_split op (wrapt (left_parens op l) (tk l)) (wrapt (right_parens op r) (tk r))) as [m Em].
    unfold tail_good. simpl. rewrite Em. destruct (right_parens op r) eqn:Rp.
    + left. split; auto. apply refend_app, refend_wrapt.
    + simpl in Ht. destruct (IHr _ _ Hr Ht) as [[A B]|A]; [left|right; exact A].
      split; auto. simpl. apply refend_app. exact B.
  - left. split; auto. apply (refend_last (_ :: _)). reflexivity.
  - left. split; auto. simpl. apply refend_app. apply (refend_last (_ :: _)). reflexivity.
  - left. split; auto. apply (refend_last (_ :: _)). reflexivity.
Qed.

(* ---- the main statement ---- *)
Definition LB (e : expr) : Prop := forall u g o st rest,
  faithful u g e -> (u = true -> top_fa st = false) -> ready o ->
  (simple_call e = true \/ follow rest = true) ->
  exists o', reach (LS o st [] (show e ++ rest)) (LS o' st (pend e) rest) /\
             flush o' (pend e) = rev (tk e) ++ o.

Lemma follow_dq : forall rest, follow rest = true -> match rest with c :: _ => c <> c_dq | [] => True end.
Proof.
  intros [|c r] H; auto. intro E. subst c. unfold follow in H. simpl in H. discriminate.
Qed.

Lemma follow_hash : forall r, follow (c_hash :: r) = follow r.
Proof. reflexivity. Qed.

Lemma follow_c : forall c r, In c [32; 44; 41; 125; 59; 37; 58] -> follow (c :: r) = true.
Proof.
  intros c r H. repeat (destruct H as [<-|H]; [reflexivity|]). contradiction.
Qed.

Lemma ready_cons : forall t o, tt t <> TWs -> tsb t <> SClose -> tt t <> TPost -> tt t <> TOperand ->
  ready (t :: o).
Proof. intros t o A B C D. unfold ready. rewrite pv_cons; auto. Qed.

Lemma ready_ws : forall t o, tt t = TWs -> ready o -> ready (t :: o).
Proof. intros t o A B. unfold ready, pv in *. simpl. rewrite A. exact B. Qed.

Lemma wrapped_lb : forall (b : bool) e u g o st rest, LB e ->
  faithful (if b then g else u) g e -> (u = true -> top_fa st = false) -> ready o ->
  (b = true \/ simple_call e = true \/ follow rest = true) ->
  exists o', reach (LS o st [] (wrap b (show e) ++ rest)) (LS o' st (pendw b e) rest) /\
             flush o' (pendw b e) = rev (wrapt b (tk e)) ++ o.
Proof.
  intros b e u g o st rest H Hf Hu Hr Hfo. destruct b; simpl.
  - destruct (H g g (t_open :: o) (TParen :: st) (c_rp :: rest) Hf) as [o1 [R1 E1]].
    + reflexivity.
    + apply ready_cons; discriminate.
    + right. reflexivity.
    + eexists. split.
      * eapply reach_step; [discriminate|apply open_step|].
        rewrite <- app_assoc. cbn [app]. eapply reach_trans; [exact R1|].
        apply reach_one; [discriminate|]. apply close_step. right. split; [discriminate|reflexivity].
      * simpl. rewrite E1. rewrite rev_app_distr. simpl. rewrite <- app_assoc. reflexivity.
  - destruct Hfo as [Q|Hfo]; [discriminate|]. apply (H u g); auto.
Qed.

(* Argument lists. *)
Definition arg_lb (call : bool) (x : expr) : Prop :=
  x = EOmit _ _ \/
  (is_omit _ _ x = false /\ hd_ok (show x) /\
   forall o st rest, top_fa st = negb call -> ready o -> follow rest = true ->
     exists o', reach (LS o st [] (show x ++ rest)) (LS o' st (pend x) rest) /\
                flush o' (pend x) = rev (tk x) ++ o).

Notation atext := (fun x => (is_omit num ref x, show x)).
Notation atoks := (fun x => (is_omit num ref x, tk x)).

Lemma follow_args : forall l rest, follow (rest_args (map atext l) ++ c_rp :: rest) = true.
Proof. intros [|x l] rest; reflexivity. Qed.

Lemma nonws_rest : forall l rest, nonws (rest_args (map atext l) ++ c_rp :: rest).
Proof. intros [|x l] rest; reflexivity. Qed.

Lemma rest_lb : forall call l, Forall (arg_lb call) l -> forall o st cu rest, top_fa st = negb call ->
  exists o' cu', reach (LS o st cu (rest_args (map atext l) ++ c_rp :: rest)) (LS o' st cu' (c_rp :: rest))
    /\ flush o' cu' = rev (rest_toks call (map atoks l)) ++ flush o cu.
Proof.
  intros call l Hl. induction Hl as [|x l Hx Hl IH]; intros o st cu rest Hst.
  - exists o, cu. split; [apply reach_refl|reflexivity].
  - unfold rest_args, rest_toks. cbn [map List.concat]. fold (rest_args (map atext l)).
    fold (rest_toks call (map atoks l)).
    assert (Es : (if top_fa st then Tok TSep SArg [c_comma] else t_inf [c_comma]) = t_sep call)
      by (rewrite Hst; destruct call; reflexivity).
    assert (Rs : forall o, ready (t_sep call :: o)) by (intro; apply ready_cons; destruct call; discriminate).
    destruct Hx as [->|[Ho [Hh Hx]]].
    + cbn [is_omit show tk app].
      destruct (IH (t_sep call :: flush o cu) st [] rest Hst) as [o1 [cu1 [R1 E1]]].
      exists o1, cu1. split.
      * eapply reach_step; [discriminate|rewrite comma_step, Es; reflexivity|]. exact R1.
      * rewrite E1. simpl. rewrite <- app_assoc. reflexivity.
    + rewrite Ho. cbn [app].
      destruct (Hx (t_ws :: t_sep call :: flush o cu) st (rest_args (map atext l) ++ c_rp :: rest))
        as [o1 [R1 E1]]; auto.
      { apply ready_ws; [reflexivity|apply Rs]. }
      { apply follow_args. }
      destruct (IH o1 st (pend x) rest Hst) as [o2 [cu2 [R2 E2]]].
      exists o2, cu2. split.
      * eapply reach_step; [discriminate|rewrite comma_step, Es; reflexivity|].
        rewrite <- app_assoc.
        eapply reach_step; [discriminate|rewrite space_step; [cbn [flush_out]; rewrite ready_prev_ref by apply Rs; reflexivity|]|].
        { apply hd_nonws, hd_ok_app, Hh. }
        eapply reach_trans; [exact R1|exact R2].
      * rewrite E2, E1. simpl. rewrite rev_app_distr, <- !app_assoc. reflexivity.
Qed.

Lemma join_lb : forall call l, Forall (arg_lb call) l -> forall o st rest, top_fa st = negb call -> ready o ->
  exists o' cu', reach (LS o st [] (join_args (map atext l) ++ c_rp :: rest)) (LS o' st cu' (c_rp :: rest))
    /\ flush o' cu' = rev (join_toks call (map atoks l)) ++ o.
Proof.
  intros call l Hl o st rest Hst Hr. destruct Hl as [|x l Hx Hl].
  - exists o, []. split; [apply reach_refl|reflexivity].
  - cbn [map join_args join_toks]. destruct Hx as [->|[Ho [Hh Hx]]].
    + cbn [show tk app]. apply (rest_lb call l Hl o st [] rest Hst).
    + destruct (Hx o st (rest_args (map atext l) ++ c_rp :: rest)) as [o1 [R1 E1]]; auto.
      { apply follow_args. }
      destruct (rest_lb call l Hl o1 st (pend x) rest Hst) as [o2 [cu2 [R2 E2]]].
      exists o2, cu2. split.
      * rewrite <- app_assoc. eapply reach_trans; [exact R1|exact R2].
      * rewrite E2, E1. rewrite rev_app_distr, <- !app_assoc. reflexivity.
Qed.

(* Arrays. *)
Definition cell_lb (x : expr) : Prop :=
  hd_ok (show x) /\
  forall o st rest, ready o -> follow rest = true ->
     exists o', reach (LS o st [] (show x ++ rest)) (LS o' st (pend x) rest) /\
                flush o' (pend x) = rev (tk x) ++ o.

Definition more_text (sep : N) (l : list text) : text :=
  List.concat (map (fun s => sep :: c_sp :: s) l).
Definition more_toks (sep : tok) (l : list (list tok)) : list tok :=
  List.concat (map (fun s => sep :: t_ws :: s) l).

Lemma join_more : forall sep l x, join [sep; c_sp] (x :: l) = x ++ more_text sep l.
Proof.
  intros sep l. induction l as [|y l IH]; intro x; [simpl; rewrite app_nil_r; reflexivity|].
  change (join [sep; c_sp] (x :: y :: l)) with (x ++ [sep; c_sp] ++ join [sep; c_sp] (y :: l)).
  rewrite IH. reflexivity.
Qed.
Lemma joint_more : forall sep l x, joint [sep; t_ws] (x :: l) = x ++ more_toks sep l.
Proof.
  intros sep l. induction l as [|y l IH]; intro x; [simpl; rewrite app_nil_r; reflexivity|].
  change (joint [sep; t_ws] (x :: y :: l)) with (x ++ [sep; t_ws] ++ joint [sep; t_ws] (y :: l)).
  rewrite IH. reflexivity.
Qed.

Lemma cells_lb : forall l, Forall cell_lb l -> forall o st cu rest, follow rest = true ->
  exists o' cu', reach (LS o (TArray :: st) cu (more_text c_comma (map show l) ++ rest))
                       (LS o' (TArray :: st) cu' rest)
    /\ flush o' cu' = rev (more_toks (Tok TSep SArg [c_comma]) (map tk l)) ++ flush o cu.
Proof.
  intros l Hl. induction Hl as [|x l [Hh Hx] Hl IH]; intros o st cu rest Hfo.
  - exists o, cu. split; [apply reach_refl|reflexivity].
  - unfold more_text, more_toks. cbn [map List.concat]. fold (more_text c_comma (map show l)).
    fold (more_toks (Tok TSep SArg [c_comma]) (map tk l)). cbn [app].
    assert (Rs : forall o, ready (Tok TSep SArg [c_comma] :: o)) by (intro; apply ready_cons; discriminate).
    destruct (Hx (t_ws :: Tok TSep SArg [c_comma] :: flush o cu) (TArray :: st)
                (more_text c_comma (map show l) ++ rest)) as [o1 [R1 E1]].
    { apply ready_ws; [reflexivity|apply Rs]. }
    { destruct l; [exact Hfo|reflexivity]. }
    destruct (IH o1 st (pend x) rest Hfo) as [o2 [cu2 [R2 E2]]].
    exists o2, cu2. split.
    + eapply reach_step; [discriminate|rewrite comma_step; cbn [top_fa]; reflexivity|].
      rewrite <- app_assoc.
      eapply reach_step; [discriminate|rewrite space_step; [cbn [flush_out]; rewrite ready_prev_ref by apply Rs; reflexivity|]|].
      { apply hd_nonws, hd_ok_app, Hh. }
      eapply reach_trans; [exact R1|exact R2].
    + rewrite E2, E1. simpl. rewrite rev_app_distr, <- !app_assoc. reflexivity.
Qed.

Definition row_text (row : list expr) : text := join [c_comma; c_sp] (map show row).
Definition row_tk (row : list expr) : list tok := joint [Tok TSep SArg [c_comma]; t_ws] (map tk row).

Lemma row_lb : forall row, row <> [] -> Forall cell_lb row -> forall o st rest, ready o -> follow rest = true ->
  exists o' cu', reach (LS o (TArray :: st) [] (row_text row ++ rest)) (LS o' (TArray :: st) cu' rest)
    /\ flush o' cu' = rev (row_tk row) ++ o.
Proof.
  intros row Hne Hrow o st rest Hr Hfo. destruct Hrow as [|x l [Hh Hx] Hl]; [congruence|].
  unfold row_text, row_tk. cbn [map]. rewrite join_more, joint_more.
  destruct (Hx o (TArray :: st) (more_text c_comma (map show l) ++ rest)) as [o1 [R1 E1]]; auto.
  { destruct l; [exact Hfo|reflexivity]. }
  destruct (cells_lb l Hl o1 st (pend x) rest Hfo) as [o2 [cu2 [R2 E2]]].
  exists o2, cu2. split.
  - rewrite <- app_assoc. eapply reach_trans; [exact R1|exact R2].
  - rewrite E2, E1, rev_app_distr, <- app_assoc. reflexivity.
Qed.

Lemma rows_lb : forall rows, Forall (fun r => r <> [] /\ Forall cell_lb r) rows ->
  forall o st cu rest, follow rest = true ->
  exists o' cu', reach (LS o (TArray :: st) cu (more_text c_semi (map row_text rows) ++ rest))
                       (LS o' (TArray :: st) cu' rest)
    /\ flush o' cu' = rev (more_toks (Tok TSep SRow [c_semi]) (map row_tk rows)) ++ flush o cu.
Proof.
  intros rows Hrows. induction Hrows as [|row rows [Hne Hrow] Hrows IH]; intros o st cu rest Hfo.
  - exists o, cu. split; [apply reach_refl|reflexivity].
  - unfold more_text, more_toks. cbn [map List.concat]. fold (more_text c_semi (map row_text rows)).
    fold (more_toks (Tok TSep SRow [c_semi]) (map row_tk rows)). cbn [app].
    assert (Rs : forall o, ready (Tok TSep SRow [c_semi] :: o)) by (intro; apply ready_cons; discriminate).
    destruct (row_lb row Hne Hrow (t_ws :: Tok TSep SRow [c_semi] :: flush o cu) st
                (more_text c_semi (map row_text rows) ++ rest)) as [o1 [cu1 [R1 E1]]].
    { apply ready_ws; [reflexivity|apply Rs]. }
    { destruct rows; [exact Hfo|reflexivity]. }
    destruct (IH o1 st cu1 rest Hfo) as [o2 [cu2 [R2 E2]]].
    exists o2, cu2. split.
    + eapply reach_step; [discriminate|rewrite semi_step; reflexivity|].
      rewrite <- app_assoc.
      eapply reach_step; [discriminate|rewrite space_step; [cbn [flush_out]; rewrite ready_prev_ref by apply Rs; reflexivity|]|].
      { inversion Hrow as [|x l [Hh _] _]; subst; [congruence|]. apply hd_nonws, hd_ok_app.
        unfold row_text. cbn [map]. rewrite join_more. apply hd_ok_app, Hh. }
      eapply reach_trans; [exact R1|exact R2].
    + rewrite E2, E1. simpl. rewrite rev_app_distr, <- !app_assoc. reflexivity.
Qed.

Lemma num_subtype : forall n, num_ok n -> operand_subtype is_num (snum n) = SNumber.
Proof.
  intros n [Hp [Hq Hd]]. destruct (snum n) as [|c w] eqn:E; [contradiction|].
  assert (Hn : is_num (c :: w) = true) by (unfold PrattModel.is_num; rewrite Hp; reflexivity).
  unfold is_digit in Hd. apply andb_prop in Hd. destruct Hd as [H1 H2].
  apply N.leb_le in H1. apply N.leb_le in H2.
  assert (Hc : c <> 34 /\ c <> 35) by lia.
  assert (Hu : upc c = c).
  { unfold upc. destruct (97 <=? c) eqn:G; auto. apply N.leb_le in G. lia. }
  assert (Ht : forall a s, a <> c -> upc a = a -> eq_ic (c :: w) (a :: s) = false).
  { intros a s Ha Hua. unfold eq_ic. cbn [map text_eqb]. rewrite Hu, Hua.
    assert (Q : (c =? a) = false) by (apply N.eqb_neq; congruence). rewrite Q. reflexivity. }
  assert (E1 : eq_ic (c :: w) (tx "TRUE") = false) by (apply Ht; [cbn; lia|reflexivity]).
  assert (E2 : eq_ic (c :: w) (tx "FALSE") = false) by (apply Ht; [cbn; lia|reflexivity]).
  unfold operand_subtype.
  assert (G : (if eq_ic (c :: w) (tx "TRUE") || eq_ic (c :: w) (tx "FALSE") then SLogical
         else if is_num (c :: w) then SNumber else SRange) = SNumber) by (rewrite E1, E2, Hn; reflexivity).
  destruct c as [|p]; [exact G|].
  destruct Hc as [Hc1 Hc2].
  repeat (match goal with |- context [match ?p with xI _ => _ | xO _ => _ | xH => _ end] => destruct p end;
          try exact G; try congruence).
Qed.

Lemma last_app1 : forall (a : tok) l o, rev (l ++ [a]) ++ o = a :: rev l ++ o.
Proof. intros. rewrite rev_app_distr. reflexivity. Qed.

Lemma flush_nil : forall o, flush o [] = o.
Proof. reflexivity. Qed.

(* The last token is never a space. *)
Lemma tk_last : forall e u g, faithful u g e ->
  exists l t, tk e = l ++ [t] /\ endtok t = true /\ tt t <> TWs.
Proof.
  induction e as [n|t|b|x|r| |op x IH|op l r IHl IHr|name a _|f a IHf _|rows _] using expr_ind2;
    intros u g Hf;
    try (eexists []; eexists; split; [reflexivity|split; [reflexivity|discriminate]]).
  - contradiction.
  - simpl in Hf |- *. destruct Hf as [_ Hx]. destruct (postfix_op op).
    + eexists; eexists; split; [reflexivity|split; [reflexivity|discriminate]].
    + destruct (un_parens op x); simpl.
      * eexists (Tok TPre SNone op :: t_open :: tk x); eexists; split; [reflexivity|split; [reflexivity|discriminate]].
      * destruct (IH _ _ Hx) as [l [t [-> H]]]. exists (Tok TPre SNone op :: l), t. auto.
  - simpl in Hf |- *. destruct Hf as [_ [_ [_ [_ [_ [_ Hr]]]]]].
    destruct (infix_toks_split op (wrapt (left_parens op l) (tk l)) (wrapt (right_parens op r) (tk r))) as [m ->].
    destruct (right_parens op r); simpl.
    + exists (m ++ t_open :: tk r), t_close. rewrite <- app_assoc. split; [reflexivity|split; [reflexivity|discriminate]].
    + destruct (IHr _ _ Hr) as [l2 [t [-> H]]]. exists (m ++ l2), t. rewrite <- app_assoc. auto.
  - simpl. eexists (_ :: _); eexists; split; [reflexivity|split; [reflexivity|discriminate]].
  - simpl. eexists (_ ++ _ :: _); eexists; split; [rewrite <- app_assoc; reflexivity|split; [reflexivity|discriminate]].
  - simpl. eexists (_ :: _); eexists; split; [reflexivity|split; [reflexivity|discriminate]].
Qed.

Lemma wrapt_pv : forall b e u g o, faithful u g e ->
  match pv (rev (wrapt b (tk e)) ++ o) with Some t => endtok t = true | None => False end.
Proof.
  intros b e u g o Hf. destruct b; cbn [wrapt].
  - change (t_open :: tk e ++ [t_close]) with ((t_open :: tk e) ++ [t_close]).
    rewrite last_app1. rewrite pv_cons by discriminate. reflexivity.
  - destruct (tk_last e u g Hf) as [l [t [-> [H1 H2]]]]. rewrite last_app1, pv_cons by auto. exact H1.
Qed.

Lemma starts_app : forall s r, starts_ref s = true -> starts_ref (s ++ r) = true.
Proof.
  intros s r H. unfold starts_ref in *.
  assert (Q : forall s, drop_while is_ws s <> [] -> drop_while is_ws (s ++ r) = drop_while is_ws s ++ r).
  { clear. induction s as [|c s IH]; simpl; intro H; [congruence|]. destruct (is_ws c); auto. }
  destruct (drop_while is_ws s) as [|c t] eqn:E; [discriminate|].
  rewrite Q by (rewrite E; discriminate). rewrite E. exact H.
Qed.

Lemma infix_split : forall op, In op infix_ops ->
  op = tx ":" \/ op = tx " " \/ op = tx "," \/ In op arith_ops.
Proof.
  intros op H. destruct H as [<-|[<-|[<-|H]]]; auto.
Qed.

Lemma arith_facts : forall op, In op arith_ops ->
  text_eqb op (tx ":") = false /\ text_eqb op (tx " ") = false /\ text_eqb op (tx ",") = false /\
  match op with c :: _ => is_ws c = false /\ starts_ref [c] = false | [] => False end.
Proof.
  assert (H : Forall (fun op => text_eqb op (tx ":") = false /\ text_eqb op (tx " ") = false /\
    text_eqb op (tx ",") = false /\
    match op with c :: _ => is_ws c = false /\ starts_ref [c] = false | [] => False end) arith_ops).
  { unfold arith_ops. cbn [map]. repeat apply Forall_cons; try apply Forall_nil; vm_compute; auto. }
  intros op Hin. rewrite Forall_forall in H. auto.
Qed.

Lemma starts_first : forall c r, is_ws c = false -> starts_ref (c :: r) = starts_ref [c].
Proof. intros c r H. unfold starts_ref. simpl. rewrite H. reflexivity. Qed.

Lemma faithful_omit : forall x u g, faithful u g x -> is_omit num ref x = false.
Proof. intros [] u g H; auto. contradiction. Qed.

Lemma LB_all : forall e, LB e.
Proof.
  induction e as [n|t|b|x|r| |op x IH|op l r IHl IHr|name a IHa|f a IHf IHa|rows IHrows] using expr_ind2;
    intros u g o st rest Hf Hu Hr Hfo.
  - (* number *)
    exists o. split.
    + simpl. apply (word_reach o st rest (snum n) []). destruct Hf as [_ [H _]]. exact H.
    + simpl. pose proof (num_subtype n Hf) as Hs. destruct Hf as [_ [_ H]].
      destruct (snum n) as [|c w]; [contradiction|]. unfold flush_out. rewrite Hs. reflexivity.
  - (* text *)
    destruct Hfo as [Q|Hfo]; [discriminate|].
    eexists. split; [|reflexivity]. simpl. apply reach_one; [discriminate|].
    apply text_step. apply follow_dq. exact Hfo.
  - (* logical *)
    exists o. split.
    + simpl. apply (word_reach o st rest (if b then tx "true" else tx "false") []). destruct b; reflexivity.
    + simpl. destruct b; reflexivity.
  - (* error *)
    simpl in Hf. destruct x as [v|v]; [|contradiction]. destruct Hf as [Hv _].
    eexists. split; [|reflexivity]. simpl. apply reach_one; [|apply err_step; auto].
    pose proof (hd_code v Hv) as Hh. destruct v; [contradiction|discriminate].
  - (* reference *)
    destruct Hfo as [Q|Hfo]; [discriminate|]. destruct Hf as [_ [Hs [Ho [_ Hh]]]].
    exists o. split; [simpl; apply Ho; exact Hfo|].
    simpl. destruct (sref r) as [|c w] eqn:E; [contradiction|]. unfold flush_out. rewrite Hs. reflexivity.
  - contradiction.
  - (* unary *)
    destruct Hfo as [Q|Hfo]; [discriminate|].
    simpl in Hf. destruct Hf as [Hop Hx].
    cbn [PrattModel.show RoundProofs.tk pend]. destruct (postfix_op op) eqn:P.
    + assert (Ho : op = tx "#" \/ op = tx "%").
      { destruct (un_prec_cases op) as [[-> _]|[[-> _]|[Q _]]]; auto. congruence. }
      rewrite <- app_assoc.
      destruct (wrapped_lb (un_parens op x) x u g o st (op ++ rest) IH Hx Hu Hr) as [o1 [R1 E1]].
      { right. right. destruct Ho as [-> | ->]; [exact Hfo|reflexivity]. }
      destruct Ho as [-> | ->].
      * eexists. split.
        -- eapply reach_trans; [exact R1|]. apply reach_one; [discriminate|].
           change (tx "#" ++ rest) with (c_hash :: rest). apply hash_step.
           unfold hash_ok. destruct (pendw (un_parens (tx "#") x) x) as [|c w] eqn:Ep.
           ++ rewrite flush_nil in E1. rewrite E1. apply refend_pv.
              destruct (un_parens (tx "#") x) eqn:U; [apply refend_wrapt|]. simpl.
              simpl in Ep.
              destruct x; simpl in Hx; try (exfalso; apply Hop; reflexivity); try contradiction.
              ** destruct Hx as [_ [_ [_ [_ Hh]]]]. simpl in Ep. rewrite Ep in Hh. contradiction.
              ** destruct Hop as [Hop _]. simpl. rewrite Hop. apply refend_last. reflexivity.
              ** discriminate.
              ** simpl. apply (refend_last (_ :: _)). reflexivity.
              ** simpl. apply refend_app. apply (refend_last (_ :: _)). reflexivity.
              ** simpl. apply (refend_last (_ :: _)). reflexivity.
           ++ destruct (un_parens (tx "#") x) eqn:U; [discriminate|]. simpl in Ep.
              destruct x; simpl in Ep, Hx; try (exfalso; apply Hop; reflexivity); try discriminate.
              ** rewrite <- Ep. destruct Hx as [_ [Hs [_ [Hl _]]]]. auto.
              ** destruct Hop as [Hop _]. rewrite Hop in Ep. discriminate.
        -- cbn [flush_out]. rewrite E1, last_app1. reflexivity.
      * eexists. split.
        -- eapply reach_trans; [exact R1|]. apply reach_one; [discriminate|]. apply pct_step.
        -- cbn [flush_out]. rewrite E1, last_app1. reflexivity.
    + rewrite <- app_assoc.
      destruct (wrapped_lb (un_parens op x) x u g (Tok TPre SNone op :: o) st rest IH Hx Hu) as [o1 [R1 E1]].
      { apply ready_cons; discriminate. }
      { auto. }
      exists o1. split.
      * eapply reach_step; [|apply prefix_step; auto|exact R1].
        destruct Hop as [<-|[<-|[<-|[]]]]; discriminate.
      * unfold pendw in E1. rewrite E1. simpl. rewrite <- app_assoc. reflexivity.
  - (* binary *)
    destruct Hfo as [Q|Hfo]; [discriminate|].
    simpl in Hf. destruct Hf as [Hin [_ [Hcomma [Hcolon [Hsp [Hl Hrr]]]]]].
    set (lp := left_parens op l) in *. set (rp := right_parens op r) in *.
    assert (Hhl : hd_ok (wrap lp (show l))) by (apply hd_wrap; intros _; eapply show_head; eauto).
    assert (Hhr : hd_ok (wrap rp (show r))) by (apply hd_wrap; intros _; eapply show_head; eauto).
    pose proof (wrapt_pv lp l _ _ o Hl) as Hpv.
    cbn [PrattModel.show RoundProofs.tk pend]. fold lp rp.
    change (if rp then [] else pend r) with (pendw rp r).
    assert (GO : forall mid toks o0,
      (forall o1, flush o1 (pendw lp l) = rev (wrapt lp (tk l)) ++ o ->
         reach (LS o1 st (pendw lp l) (mid ++ wrap rp (show r) ++ rest))
               (LS (rev toks ++ o0) st [] (wrap rp (show r) ++ rest))) ->
      o0 = rev (wrapt lp (tk l)) ++ o ->
      ready (rev toks ++ o0) -> follow (mid ++ wrap rp (show r) ++ rest) = true ->
      exists o', reach (LS o st [] ((wrap lp (show l) ++ mid ++ wrap rp (show r)) ++ rest)) (LS o' st (pendw rp r) rest)
        /\ flush o' (pendw rp r) = rev (wrapt lp (tk l) ++ toks ++ wrapt rp (tk r)) ++ o).
    { intros mid toks o0 Hmid Ho0 Hrd Hfm. rewrite <- !app_assoc.
      destruct (wrapped_lb lp l u g o st (mid ++ wrap rp (show r) ++ rest) IHl Hl Hu Hr) as [o1 [R1 E1]]; auto.
      destruct (wrapped_lb rp r u g (rev toks ++ o0) st rest IHr Hrr Hu Hrd) as [o2 [R2 E2]]; auto.
      exists o2. split.
      - eapply reach_trans; [exact R1|]. eapply reach_trans; [apply Hmid; exact E1|exact R2].
      - rewrite E2, Ho0. rewrite !rev_app_distr, <- !app_assoc. reflexivity. }
    destruct (infix_split op Hin) as [E|[E|[E|E]]].
    + (* range *)
      unfold infix_text, infix_toks. rewrite E. cbn iota.
      change (text_eqb (tx ":") (tx ":")) with true. cbn iota.
      eapply (GO [c_colon] [t_inf (tx ":")]); [|reflexivity| |reflexivity].
      * intros o1 E1. apply reach_one; [discriminate|]. cbn [app rev].
        rewrite <- E1. apply colon_step.
        unfold colon_ok. destruct (pendw lp l) as [|c w] eqn:Ep.
        -- rewrite flush_nil in E1. rewrite E1. apply refend_pv.
           destruct lp eqn:Lp; [apply refend_wrapt|]. simpl in Ep |- *.
           destruct (Hcolon E) as [Q|Q]; [discriminate|].
           destruct (tail_ok true l _ _ Hl Q) as [[_ A]|[A _]]; [exact A|congruence].
        -- destruct lp eqn:Lp; [discriminate|]. simpl in Ep.
           destruct (Hcolon E) as [Q|Q]; [discriminate|].
           destruct (tail_ok true l _ _ Hl Q) as [[A _]|[_ A]]; [congruence|]. rewrite Ep in A. exact A.
      * apply ready_cons; discriminate.
    + (* intersection *)
      unfold infix_text, infix_toks. rewrite E. cbn iota.
      change (text_eqb (tx " ") (tx ":")) with false. change (text_eqb (tx " ") (tx " ")) with true. cbn iota.
      destruct (Hsp E) as [Hlr Hst].
      eapply (GO [c_sp] [t_inf (tx " ")]); [|reflexivity| |reflexivity].
      * intros o1 E1. apply reach_one; [discriminate|]. cbn [app rev].
        rewrite space_step by (apply hd_nonws, hd_ok_app, Hhr).
        rewrite (starts_app _ rest Hst), andb_true_r.
        assert (Hpr : prev_ref_o (flush o1 (pendw lp l)) = true).
        { destruct (pendw lp l) as [|c w] eqn:Ep.
          - rewrite E1. unfold prev_ref_o.
            assert (Hre : refend (wrapt lp (tk l))).
            { destruct lp eqn:Lp; [apply refend_wrapt|]. simpl in Ep |- *.
              destruct Hlr as [Q|Q]; [discriminate|].
              destruct (tail_ok false l _ _ Hl Q) as [[_ A]|[A _]]; [exact A|congruence]. }
            apply (refend_pv _ o) in Hre. destruct (pv (rev (wrapt lp (tk l)) ++ o)) as [t|]; [|contradiction].
            rewrite Hre. reflexivity.
          - destruct lp eqn:Lp; [discriminate|]. simpl in Ep.
            destruct Hlr as [Q|Q]; [discriminate|].
            destruct (tail_ok false l _ _ Hl Q) as [[A _]|[_ A]]; [congruence|]. rewrite Ep in A.
            unfold flush_out, prev_ref_o. rewrite pv_cons by discriminate. cbn [tt tsb tv].
            assert (A2 := A). unfold ref_value in A2. apply andb_prop in A2. destruct A2 as [A2 _].
            rewrite A2, A. reflexivity. }
        rewrite Hpr, E1. reflexivity.
      * apply ready_cons; discriminate.
    + (* union *)
      unfold infix_text, infix_toks. rewrite E. cbn iota.
      change (text_eqb (tx ",") (tx ":")) with false. change (text_eqb (tx ",") (tx " ")) with false.
      change (text_eqb (tx ",") (tx ",")) with true. cbn iota.
      assert (Rd : forall o, ready (t_inf (tx ",") :: o)) by (intro; apply ready_cons; discriminate).
      eapply (GO [c_comma; c_sp] [t_inf (tx ","); t_ws]); [|reflexivity| |reflexivity].
      * intros o1 E1. cbn [app rev].
        eapply reach_step; [discriminate|rewrite comma_step, (Hu (Hcomma E)), E1; reflexivity|].
        apply reach_one; [discriminate|].
        rewrite space_step by (apply hd_nonws, hd_ok_app, Hhr). cbn [flush_out].
        rewrite ready_prev_ref by apply Rd. reflexivity.
      * cbn [app rev]. apply ready_ws; [reflexivity|apply Rd].
    + (* arithmetic and comparison *)
      destruct (arith_facts op E) as [F1 [F2 [F3 F4]]].
      unfold infix_text, infix_toks. rewrite F1, F2, F3.
      assert (Rd : forall o, ready (t_inf op :: o)) by (intro; apply ready_cons; discriminate).
      replace (wrap lp (show l) ++ [c_sp] ++ op ++ [c_sp] ++ wrap rp (show r))
        with (wrap lp (show l) ++ (c_sp :: op ++ [c_sp]) ++ wrap rp (show r))
        by (cbn [app]; rewrite <- app_assoc; reflexivity).
      eapply (GO (c_sp :: op ++ [c_sp]) [t_ws; t_inf op; t_ws]); [|reflexivity| |reflexivity].
      * intros o1 E1. cbn [app rev]. rewrite <- app_assoc. cbn [app].
        eapply reach_step; [discriminate|rewrite space_step, E1; [reflexivity|]|].
        { destruct op as [|c op']; [contradiction|]. simpl. tauto. }
        assert (Hns : starts_ref (op ++ c_sp :: wrap rp (show r) ++ rest) = false).
        { destruct op as [|c op']; [contradiction|]. cbn [app].
          rewrite starts_first by tauto. tauto. }
        rewrite Hns, andb_false_r.
        eapply reach_step; [destruct op; discriminate|apply op_step; auto|].
        apply reach_one; [discriminate|].
        rewrite space_step by (apply hd_nonws, hd_ok_app, Hhr). cbn [flush_out].
        rewrite ready_prev_ref by apply Rd. reflexivity.
      * cbn [app rev]. apply ready_ws; [reflexivity|apply Rd].
  - (* function *)
    simpl in Hf. destruct Hf as [Hw [Hup [_ Ha]]].
    cbn [PrattModel.show RoundProofs.tk pend]. rewrite Hup.
    assert (Hargs : Forall (arg_lb false) a).
    { apply Forall_forall. intros y Hy. pose proof (all_p_In _ _ _ Ha y Hy) as Hy2. simpl in Hy2.
      rewrite Forall_forall in IHa. destruct (is_omit num ref y) eqn:O.
      - left. destruct y; try discriminate. reflexivity.
      - destruct Hy2 as [Q|Q]; [congruence|]. right. split; auto. split; [eapply show_head; eauto|].
        intros o1 st1 rest1 _ Hr1 Hf1. apply (IHa y Hy false g); auto. discriminate. }
    destruct (join_lb false a Hargs (Tok TFunc SOpen (name ++ [c_lp]) :: o) (TFunc :: st) rest) as [o1 [cu1 [R1 E1]]].
    { reflexivity. }
    { apply ready_cons; discriminate. }
    eexists. split.
    + rewrite <- !app_assoc. cbn [app]. destruct Hw as [Hw1 Hw2].
      eapply reach_trans; [apply word_reach; exact Hw2|]. cbn [app].
      eapply reach_step; [discriminate|apply func_step; exact Hw1|].
      eapply reach_trans; [exact R1|].
      apply reach_one; [discriminate|]. apply close_step. right. split; [discriminate|reflexivity].
    + cbn [flush_out]. rewrite E1. simpl. rewrite rev_app_distr. simpl. rewrite <- app_assoc. reflexivity.
  - (* call *)
    simpl in Hf. destruct Hf as [Hc [_ Ha]].
    cbn [PrattModel.show RoundProofs.tk pend].
    assert (Hargs : Forall (arg_lb true) a).
    { apply Forall_forall. intros y Hy. pose proof (all_p_In _ _ _ Ha y Hy) as Hy2. simpl in Hy2.
      rewrite Forall_forall in IHa. destruct (is_omit num ref y) eqn:O.
      - left. destruct y; try discriminate. reflexivity.
      - destruct Hy2 as [Q|Q]; [congruence|]. right. split; auto. split; [eapply show_head; eauto|].
        intros o1 st1 rest1 _ Hr1 Hf1. apply (IHa y Hy false false); auto. discriminate. }
    assert (Eb : match f with EFn _ _ _ _ | ECall _ _ _ _ => false | _ => true end = negb (simple_call f))
      by (destruct f; reflexivity).
    rewrite Eb.
    destruct (wrapped_lb (negb (simple_call f)) f u g o st
      ([c_lp] ++ (join_args (map atext a) ++ [c_rp]) ++ rest) IHf) as [o1 [R1 E1]]; auto.
    { destruct f; exact Hc. }
    { destruct (simple_call f); auto. }
    assert (Ep : pendw (negb (simple_call f)) f = []) by (destruct f; reflexivity).
    rewrite Ep in *. rewrite flush_nil in E1.
    destruct (join_lb true a Hargs (t_open :: o1) (TParen :: st) rest) as [o2 [cu2 [R2 E2]]].
    { reflexivity. }
    { apply ready_cons; discriminate. }
    eexists. split.
    + rewrite <- !app_assoc in R1. rewrite <- !app_assoc. eapply reach_trans; [exact R1|]. cbn [app].
      eapply reach_step; [discriminate|apply open_step|].
      eapply reach_trans; [exact R2|].
      apply reach_one; [discriminate|]. apply close_step. right. split; [discriminate|reflexivity].
    + cbn [flush_out]. rewrite E2, E1. rewrite rev_app_distr. simpl. rewrite rev_app_distr. simpl.
      rewrite <- !app_assoc. reflexivity.
  - (* array *)
    simpl in Hf. cbn [PrattModel.show RoundProofs.tk pend].
    assert (Hrows : Forall (fun r => r <> [] /\ Forall cell_lb r) rows).
    { apply Forall_forall. intros row Hrow. pose proof (all_p_In _ _ _ Hf row Hrow) as Q. simpl in Q.
      destruct Q as [Q1 Q2]. split; auto. apply Forall_forall. intros y Hy.
      pose proof (all_p_In _ _ _ Q2 y Hy) as Q3.
      rewrite Forall_forall in IHrows. specialize (IHrows row Hrow). rewrite Forall_forall in IHrows.
      split; [eapply show_head; eauto|].
      intros o1 st1 rest1 Hr1 Hf1. apply (IHrows y Hy false g); auto. discriminate. }
    assert (Hall : exists o1 cu1,
      reach (LS (Tok TArray SOpen [c_lc] :: o) (TArray :: st) []
               (join [c_semi; c_sp] (map row_text rows) ++ c_rc :: rest))
            (LS o1 (TArray :: st) cu1 (c_rc :: rest)) /\
      flush o1 cu1 = rev (joint [Tok TSep SRow [c_semi]; t_ws] (map row_tk rows)) ++ Tok TArray SOpen [c_lc] :: o).
    { destruct Hrows as [|row rows' [Hne Hrow] Hrows].
      - eexists; exists []; split; [apply reach_refl|reflexivity].
      - cbn [map]. rewrite join_more, joint_more.
        destruct (row_lb row Hne Hrow (Tok TArray SOpen [c_lc] :: o) st
          (more_text c_semi (map row_text rows') ++ c_rc :: rest)) as [o1 [cu1 [R1 E1]]].
        { apply ready_cons; discriminate. }
        { destruct rows'; reflexivity. }
        destruct (rows_lb rows' Hrows o1 st cu1 (c_rc :: rest)) as [o2 [cu2 [R2 E2]]]; [reflexivity|].
        exists o2, cu2. split.
        + rewrite <- app_assoc. eapply reach_trans; [exact R1|exact R2].
        + rewrite E2, E1, rev_app_distr, <- app_assoc. reflexivity. }
    destruct Hall as [o1 [cu1 [R1 E1]]].
    eexists. split.
    + cbn [app]. eapply reach_step; [discriminate|apply brace_step|].
      rewrite <- app_assoc. eapply reach_trans; [exact R1|].
      apply reach_one; [discriminate|]. apply close_step. left. auto.
    + cbn [flush_out]. rewrite E1. simpl. rewrite rev_app_distr. simpl. rewrite <- app_assoc. reflexivity.
Qed.

Theorem text_tokens : forall e, faithful true true e ->
  tokenize is_num dia (canonical num ref snum sref upper e) = LOk (tk e).
Proof.
  intros e Hf. unfold canonical, tokenize. rewrite N.eqb_refl.
  destruct (LB_all e true true [] [] [] Hf) as [o [R E]]; auto.
  { exact I. }
  rewrite app_nil_r in R.
  pose proof (tokenize_total is_num dia (c_eq :: show e)) as Ht. unfold tokenize in Ht.
  rewrite N.eqb_refl in Ht.
  assert (Hn : lloop (List.length (show e)) (LS [] [] [] (show e)) <> LFuel).
  { intro Q. rewrite Q in Ht. apply Ht. reflexivity. }
  rewrite (reach_lloop _ _ R eq_refl _ Hn). cbn [stack]. rewrite save_flush. cbn [out].
  rewrite E, app_nil_r, rev_involutive. reflexivity.
Qed.

(* The printed text of a faithful tree is parsed as that tree. *)
Theorem round_trip : forall e, faithful true true e ->
  parse_formula num ref pnum pref dia (canonical num ref snum sref upper e) = POk e.
Proof.
  intros e Hf. unfold parse_formula. rewrite text_tokens by auto.
  apply (tokens_parse num ref pnum snum pref sref upper dia). exact Hf.
Qed.
End R.
