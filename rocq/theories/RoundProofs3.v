(* References that are read as one operand; parts kept in order. *)
From Coq Require Import List Bool NArith PeanoNat Lia String.
From Verif Require Import LexModel LexSpec LexProofs PrattModel PrattSpec PrattProofs PrattProofs2
  RoundSpec RoundProofs RoundProofs2.
Import ListNotations.
Open Scope N_scope.

Section R.
Variables num ref : Type.
Variable pnum : text -> option num.
Variable pref : text -> option ref.
Variable dia : dialect.
Notation is_num := (is_num num pnum).
Notation one_token := (one_token num pnum dia).
Notation reach := (reach num pnum dia).

Lemma word_one_token : forall w, word w -> one_token w.
Proof. intros w [_ H] o st rest _. apply (word_reach num pnum dia o st rest w []). exact H. Qed.

Lemma memc_app : forall c a b, memc c (a ++ b) = memc c a || memc c b.
Proof. intros. unfold memc. apply existsb_app. Qed.

Lemma memc_plain : forall c w, plainc c = false -> forallb plainc w = true -> memc c w = false.
Proof.
  intros c w Hc. induction w as [|d w IH]; simpl; intro H; auto.
  apply andb_prop in H. destruct H as [H1 H2]. rewrite IH by auto.
  destruct (c =? d) eqn:E; auto. apply N.eqb_eq in E. congruence.
Qed.

Lemma after_bang_last : forall p a, memc c_bang a = false -> after_bang (p ++ c_bang :: a) = a.
Proof.
  induction p as [|c p IH]; intros a H; cbn [app after_bang].
  - rewrite H, N.eqb_refl. reflexivity.
  - assert (E : memc c_bang (p ++ c_bang :: a) = true).
    { rewrite memc_app. cbn [memc existsb]. rewrite N.eqb_refl. apply orb_true_r. }
    rewrite E. apply IH; auto.
Qed.

Lemma after_bang_none : forall a, memc c_bang a = false -> after_bang a = a.
Proof.
  intros [|c a] H; auto. cbn [after_bang]. unfold memc in *. cbn [existsb] in H. apply orb_false_iff in H.
  destruct H as [H1 H2]. rewrite H2. rewrite N.eqb_sym, H1. reflexivity.
Qed.

Lemma last_plain : forall p a, a <> [] -> memc c_bang a = false -> last (p ++ a) 0 <> c_bang.
Proof.
  intros p a Hne H E. destruct (exists_last Hne) as [l [x ->]]. rewrite app_assoc, last_last in E.
  subst x. rewrite memc_app in H. cbn [memc existsb] in H. rewrite N.eqb_refl, orb_true_r in H. discriminate.
Qed.

Lemma qual_word : forall b rest, forallb plainc b = true -> memc c_bang b = false ->
  qual_scan false (b ++ rest) = qual_scan false rest.
Proof.
  induction b as [|c b IH]; intros rest H1 H2; auto. simpl in H1. apply andb_prop in H1. destruct H1 as [Hc H1].
  unfold memc in H2. cbn [existsb] in H2. apply orb_false_iff in H2. destruct H2 as [Hb H2].
  cbn [app qual_scan]. rewrite IH by auto.
  assert (Q : forall x, plainc x = false -> (c =? x) = false).
  { intros x Hx. destruct (c =? x) eqn:E; auto. apply N.eqb_eq in E. congruence. }
  rewrite (Q c_sq) by reflexivity. rewrite (Q c_colon) by reflexivity.
  rewrite N.eqb_sym in Hb. rewrite Hb. cbn [andb].
  unfold plainc in Hc. apply negb_true_iff in Hc. apply orb_false_iff in Hc. destruct Hc as [Hc _].
  rewrite Hc. reflexivity.
Qed.

Lemma qual_follow : forall rest, follow rest = true -> qual_scan false rest = false.
Proof.
  induction rest as [|c r IH]; intro H; auto. destruct (c =? c_hash) eqn:E.
  - apply N.eqb_eq in E. subst c. cbn [qual_scan]. apply IH. exact H.
  - assert (Hm : memc c [32; 44; 41; 125; 59; 37; 58] = true).
    { unfold follow in H. cbn [drop_while] in H. rewrite N.eqb_sym in H. rewrite E in H. exact H. }
    unfold memc in Hm. apply existsb_exists in Hm. destruct Hm as [x [Hin Hx]].
    apply N.eqb_eq in Hx. subst x. cbn [qual_scan].
    repeat (destruct Hin as [<-|Hin]; [reflexivity|]). contradiction.
Qed.

(* A cell or range after [p], the sheet name with its '!' or nothing. *)
Lemma range_tail : forall p a b o st rest,
  word a -> memc c_bang a = false -> word b -> memc c_bang b = false ->
  (p = [] \/ exists q, p = q ++ [c_bang]) -> memc c_lb p = false ->
  follow rest = true ->
  reach (LS o st p (a ++ c_colon :: b ++ rest)) (LS o st (p ++ a ++ c_colon :: b) rest).
Proof.
  intros p a b o st rest [Ha1 Ha2] Ha3 [Hb1 Hb2] Hb3 Hp Hlb Hfo.
  eapply reach_trans; [apply word_reach; exact Ha2|].
  eapply reach_step; [discriminate| |].
  - unfold lstep. cbn [inp]. rewrite sci_none by discriminate. cbv zeta.
    change (ender c_colon) with false. cbn iota.
    change ((c_colon =? c_dq) || (c_colon =? c_sq)) with false. cbn iota.
    change (c_colon =? c_lb) with false. change (c_colon =? c_hash) with false.
    change (is_ws c_colon) with false. change (c_colon =? c_colon) with true. cbn iota.
    assert (E : colon_infix is_num (LS o st (p ++ a) (c_colon :: b ++ rest)) (b ++ rest) = false).
    { unfold colon_infix, has_token. cbn [cur].
      destruct (p ++ a) as [|z zs] eqn:Epa; [destruct p, a; try discriminate; congruence|]. rewrite <- Epa.
      assert (Hl : last (p ++ a) 0 =? c_bang = false) by (apply N.eqb_neq, last_plain; auto).
      rewrite Hl.
      assert (Hc : has_range_colon (p ++ a) = false).
      { unfold has_range_colon. destruct Hp as [->|[q ->]].
        - cbn [app]. rewrite after_bang_none by auto. apply memc_plain; auto.
        - rewrite <- app_assoc. cbn [app]. rewrite after_bang_last by auto. apply memc_plain; auto. }
      rewrite Hc, memc_app, Hlb, (memc_plain c_lb a) by auto. cbn [orb].
      assert (Hq : next_qualified (b ++ rest) = false).
      { unfold next_qualified. destruct b as [|c b]; [congruence|].
        assert (Ew : drop_while is_ws ((c :: b) ++ rest) = (c :: b) ++ rest).
        { cbn [app drop_while]. simpl in Hb2. apply andb_prop in Hb2. destruct Hb2 as [Hc2 _].
          rewrite plain_nonws by auto. reflexivity. }
        rewrite Ew, qual_word by auto. apply qual_follow; auto. }
      rewrite Hq. apply andb_false_r. }
    rewrite E. reflexivity.
  - cbn [out stack cur].
    replace (p ++ a ++ c_colon :: b) with (((p ++ a) ++ [c_colon]) ++ b) by (rewrite <- !app_assoc; reflexivity).
    apply word_reach. exact Hb2.
Qed.

(* Without a sheet the text after the range does not matter. *)
Lemma range_tail0 : forall a b o st rest,
  word a -> memc c_bang a = false -> word b ->
  reach (LS o st [] (a ++ c_colon :: b ++ rest)) (LS o st (a ++ c_colon :: b) rest).
Proof.
  intros a b o st rest [Ha1 Ha2] Ha3 [Hb1 Hb2].
  eapply reach_trans; [apply word_reach; exact Ha2|]. cbn [app].
  eapply reach_step; [discriminate| |].
  - unfold lstep. cbn [inp]. rewrite sci_none by discriminate. cbv zeta.
    change (ender c_colon) with false. cbn iota.
    change ((c_colon =? c_dq) || (c_colon =? c_sq)) with false. cbn iota.
    change (c_colon =? c_lb) with false. change (c_colon =? c_hash) with false.
    change (is_ws c_colon) with false. change (c_colon =? c_colon) with true. cbn iota.
    assert (E : colon_infix is_num (LS o st a (c_colon :: b ++ rest)) (b ++ rest) = false).
    { unfold colon_infix, has_token. cbn [cur].
      destruct a as [|z zs] eqn:Epa; [congruence|]. rewrite <- Epa in *.
      assert (Hl : last a 0 =? c_bang = false)
        by (apply N.eqb_neq, (last_plain [] a); subst a; auto; discriminate).
      rewrite Hl.
      assert (Hc : has_range_colon a = false).
      { unfold has_range_colon. rewrite after_bang_none by auto. apply memc_plain; auto. }
      rewrite Hc, (memc_plain c_lb a), Ha3 by auto. reflexivity. }
    rewrite E. reflexivity.
  - cbn [out stack cur].
    replace (a ++ c_colon :: b) with ((a ++ [c_colon]) ++ b) by (rewrite <- !app_assoc; reflexivity).
    apply word_reach. exact Hb2.
Qed.

(* 'name' with the quotes in it doubled. *)
Fixpoint double_sq (s : text) : text :=
  match s with
  | [] => []
  | c :: r => if c =? c_sq then c_sq :: c_sq :: double_sq r else c :: double_sq r
  end.
Definition squote (s : text) : text := c_sq :: double_sq s ++ [c_sq].

Lemma scan_sq : forall t rest, match rest with c :: _ => c <> c_sq | [] => True end ->
  scan_str c_sq (double_sq t ++ c_sq :: rest) = Some (double_sq t ++ [c_sq], rest).
Proof.
  induction t as [|c t IH]; intros rest H.
  - cbn [double_sq app scan_str]. rewrite N.eqb_refl. destruct rest as [|d rest]; auto.
    apply N.eqb_neq in H. rewrite H. reflexivity.
  - cbn [double_sq]. destruct (c =? c_sq) eqn:E; cbn [app scan_str].
    + rewrite N.eqb_refl. rewrite IH by auto. reflexivity.
    + rewrite E, IH by auto. reflexivity.
Qed.

Lemma squote_reach : forall o st n rest,
  reach (LS o st [] (squote n ++ c_bang :: rest)) (LS o st (squote n ++ [c_bang]) rest).
Proof.
  intros o st n rest. unfold squote. cbn [app]. rewrite <- !app_assoc. cbn [app].
  eapply reach_step; [discriminate| |].
  - unfold lstep. cbn [inp]. rewrite sci_empty. cbv zeta.
    change (ender c_sq) with false. cbn iota. change ((c_sq =? c_dq) || (c_sq =? c_sq)) with true. cbn iota.
    unfold lex_string. rewrite scan_sq by discriminate. reflexivity.
  - cbn [out stack cur save flush_out].
    eapply reach_step; [discriminate|apply plain_step; reflexivity|].
    apply eq_ind with (P := fun s => reach s _) (x := LS o st (c_sq :: double_sq n ++ [c_sq; c_bang]) rest);
      [apply reach_refl|].
    f_equal. cbn [app has_token cur andb orb text_eqb]. simpl. rewrite <- app_assoc. reflexivity.
Qed.

(* The texts that a reference to a cell or to a range is printed as. *)
Inductive ref_text : text -> Prop :=
| rt_plain p a : word a -> memc c_bang a = false -> sheet p -> ref_text (p ++ a)
| rt_range p a b : word a -> memc c_bang a = false -> word b -> memc c_bang b = false ->
    sheet p -> ref_text (p ++ a ++ c_colon :: b)
with sheet : text -> Prop :=
| sh_none : sheet []
| sh_word n : word n -> sheet (n ++ [c_bang])
| sh_quoted n : memc c_lb n = false -> sheet (squote n ++ [c_bang]).

Lemma sheet_reach : forall p, sheet p -> forall o st rest,
  reach (LS o st [] (p ++ rest)) (LS o st p rest).
Proof.
  intros p [|n [H1 H2]|n _] o st rest.
  - apply reach_refl.
  - rewrite <- app_assoc. cbn [app]. eapply reach_trans; [apply word_reach; exact H2|]. cbn [app].
    apply reach_one; [discriminate|]. apply plain_step. reflexivity.
  - rewrite <- app_assoc. cbn [app]. apply squote_reach.
Qed.

Lemma sheet_form : forall p, sheet p -> p = [] \/ exists q, p = q ++ [c_bang].
Proof. intros p [|n _|n _]; eauto. Qed.

Lemma double_sq_lb : forall n, memc c_lb (double_sq n) = memc c_lb n.
Proof.
  induction n as [|c n IH]; auto. cbn [double_sq]. destruct (c =? c_sq) eqn:E.
  - apply N.eqb_eq in E. subst c. unfold memc in *. cbn [existsb]. rewrite IH. reflexivity.
  - unfold memc in *. cbn [existsb]. rewrite IH. reflexivity.
Qed.

Lemma sheet_lb : forall p, sheet p -> memc c_lb p = false.
Proof.
  intros p [|n [_ H]|n H]; auto.
  - rewrite memc_app, (memc_plain c_lb n) by auto. reflexivity.
  - unfold squote. cbn [app]. change (c_sq :: (double_sq n ++ [c_sq]) ++ [c_bang])
      with ([c_sq] ++ (double_sq n ++ [c_sq]) ++ [c_bang]).
    rewrite !memc_app, double_sq_lb, H. reflexivity.
Qed.

Lemma ref_text_one : forall t, ref_text t -> one_token t.
Proof.
  intros t [p a [_ Ha] _ Hp|p a b Ha Ha2 Hb Hb2 Hp] o st rest Hfo; rewrite <- !app_assoc.
  - eapply reach_trans; [apply sheet_reach; auto|]. apply word_reach; auto.
  - eapply reach_trans; [apply sheet_reach; auto|]. cbn [app].
    apply range_tail; auto; [apply sheet_form|apply sheet_lb]; auto.
Qed.

Lemma ref_text_last : forall t, ref_text t -> last t 0 <> c_bang.
Proof.
  intros t [p a [Ha _] Ha2 Hp|p a b _ _ [Hb _] Hb2 Hp].
  - apply last_plain; auto.
  - replace (p ++ a ++ c_colon :: b) with ((p ++ a ++ [c_colon]) ++ b) by (rewrite <- !app_assoc; reflexivity).
    apply last_plain; auto.
Qed.

Lemma ref_text_head : forall t, ref_text t -> match t with c :: _ => is_ws c = false | [] => False end.
Proof.
  assert (W : forall w r, word w -> match w ++ r with c :: _ => is_ws c = false | [] => False end).
  { intros w r H. pose proof (hd_word w r H) as Q. destruct (w ++ r); auto. }
  intros t [p a Ha _ Hp|p a b Ha _ _ _ Hp]; destruct Hp as [|n Hn|n _]; cbn [app squote]; try reflexivity.
  - specialize (W a [] Ha). rewrite app_nil_r in W. exact W.
  - rewrite <- app_assoc. apply W. exact Hn.
  - apply (W a (c_colon :: b)). exact Ha.
  - rewrite <- app_assoc. apply W. exact Hn.
Qed.

(* The parser keeps the parts of a formula, in order. *)
Notation items := (items num ref pnum pref).
Notation reading := (reading num ref).

Lemma parse_reading : forall r ts e,
  tokenize is_num dia (c_eq :: r) = LOk ts -> parse_tokens num ref pnum pref ts = POk e ->
  items ts = reading e.
Proof.
  intros r ts e Ht Hp. destruct (tokenize_sound _ _ _ _ Ht) as [_ [Hn [Hs Hl]]].
  unfold parse_tokens in Hp. destruct (skip_ws ts) as [|t r0] eqn:E; [discriminate|].
  destruct (ttype_eqb (tt t) TLiteral) eqn:El.
  { exfalso. apply ttype_eqb_eq in El.
    destruct (skip_split num ref pnum pref ts) as [w [Ew _]]. rewrite E in Ew. rewrite Ew in Hl.
    apply Forall_app in Hl. destruct Hl as [_ Hl]. inversion Hl; subst. congruence. }
  destruct (bp num ref pnum pref (4 * List.length ts + 4) false 0 ts) as [[x r1]| |] eqn:B; try discriminate.
  destruct (skip_ws r1) eqn:E1; [|discriminate]. injection Hp as <-.
  destruct (proj1 (soundness num ref pnum pref _) _ _ _ _ _ B Hs) as [seg [Eseg G]].
  destruct (skip_split num ref pnum pref r1) as [w [Ew [Iw Nw]]]. rewrite E1, app_nil_r in Ew.
  rewrite Eseg, nest_app in Hn. destruct (nest [] seg) as [sx|] eqn:Es; [|discriminate].
  rewrite Ew in Hn. rewrite <- (app_nil_r w), Nw in Hn. simpl in Hn. injection Hn as ->.
  destruct (G _ _ Es) as [[fs [Efs [_ Hw]]]|[_ Q]]; [|congruence].
  assert (fs = []) by (destruct fs; [auto|discriminate]). subst fs.
  rewrite Eseg, items_app, Ew, Iw, app_nil_r. apply Hw. reflexivity.
Qed.
End R.

(* A range whose second end is a call becomes a call of a strange name. *)
Lemma call_range : forall num ref pnum pref dia a f,
  word a -> memc c_bang a = false -> word f -> memc c_bang f = false ->
  parse_formula num ref pnum pref dia (c_eq :: a ++ c_colon :: f ++ [c_lp; c_rp])
  = POk (EFn _ _ (a ++ c_colon :: f) []).
Proof.
  intros num ref pnum pref dia a f Ha Ha2 Hf Hf2.
  set (r := a ++ c_colon :: f ++ [c_lp; c_rp]).
  assert (R : reach num pnum dia (LS [] [] [] r)
     (LS [Tok TFunc SClose [c_rp]; Tok TFunc SOpen ((a ++ c_colon :: f) ++ [c_lp])] [] [] [])).
  { eapply reach_trans; [apply (range_tail0 num pnum dia a f [] [] [c_lp; c_rp]); auto|].
    eapply reach_step; [discriminate|apply func_step; destruct a; discriminate|].
    apply reach_one; [discriminate|]. apply close_step. right. split; [discriminate|reflexivity]. }
  assert (T : tokenize (is_num num pnum) dia (c_eq :: r)
    = LOk [Tok TFunc SOpen ((a ++ c_colon :: f) ++ [c_lp]); Tok TFunc SClose [c_rp]]).
  { unfold tokenize. rewrite N.eqb_refl.
    pose proof (tokenize_total (is_num num pnum) dia (c_eq :: r)) as Ht. unfold tokenize in Ht.
    rewrite N.eqb_refl in Ht.
    assert (Hn : lloop (is_num num pnum) dia (List.length r) (LS [] [] [] r) <> LFuel).
    { intro Q. rewrite Q in Ht. apply Ht. reflexivity. }
    rewrite (reach_lloop _ _ _ _ _ R eq_refl _ Hn). reflexivity. }
  unfold parse_formula. fold r. rewrite T. unfold parse_tokens.
  cbn [skip_ws tt ttype_eqb List.length Nat.mul Nat.add].
  cbn. rewrite removelast_last. reflexivity.
Qed.

(* ---- nesting ---- *)
Section Deep.
Variables num ref : Type.
Variable pnum : text -> option num.
Variable pref : text -> option ref.

(* A number in [n] pairs of parentheses. *)
Fixpoint deep (n : nat) (v : text) : list tok :=
  match n with
  | O => [Tok TOperand SNumber v]
  | S n' => t_open :: deep n' v ++ [t_close]
  end.

Lemma deep_stack : forall n v k m rest d, Nat.le d (2 * n) ->
  bp num ref pnum pref d k m (deep n v ++ rest) = PFuel.
Proof.
  induction n as [|n IH]; intros v k m rest d Hd.
  - destruct d; [reflexivity|lia].
  - destruct d as [|[|d]]; [reflexivity|reflexivity|].
    rewrite bp_S, prefix_S. cbn [deep app].
    change (skip_ws (t_open :: (deep n v ++ [t_close]) ++ rest)) with (t_open :: (deep n v ++ [t_close]) ++ rest).
    cbn iota. change (tt t_open) with TParen. cbn iota. change (tsub_eqb (tsb t_open) SOpen) with true.
    cbn iota. rewrite <- app_assoc. rewrite IH by lia. reflexivity.
Qed.

Lemma deep_ok : forall v x, pnum v = Some x -> forall n k rest,
  Rpre num ref pnum pref k (deep n v ++ rest) (ENum _ _ x, rest).
Proof.
  intros v x Hv. induction n as [|n IH]; intros k rest.
  - apply R_pre_operand. unfold operand. rewrite Hv. reflexivity.
  - cbn [deep app]. rewrite <- app_assoc. cbn [app].
    apply (R_pre_paren num ref pnum pref k _ (ENum _ _ x) (t_close :: rest) rest); [|reflexivity].
    eapply R_bp; [apply IH|].
    apply (R_loop_stop num ref pnum pref k 0 (ENum _ _ x) (t_close :: rest)).
    unfold nomore. simpl. repeat split; discriminate.
Qed.

Lemma deep_parses : forall v x, pnum v = Some x -> forall n,
  parse_tokens num ref pnum pref (deep n v) = POk (ENum _ _ x).
Proof.
  intros v x Hv n. 
  assert (R : Rbp num ref pnum pref false 0 (deep n v ++ []) (ENum _ _ x, [])).
  { eapply R_bp; [apply (deep_ok v x Hv)|]. apply (R_loop_stop num ref pnum pref false 0 (ENum _ _ x) []). exact I. }
  destruct R as [d H]. rewrite app_nil_r in H. unfold parse_tokens.
  assert (E : exists t r, skip_ws (deep n v) = t :: r /\ ttype_eqb (tt t) TLiteral = false)
    by (destruct n; eexists; eexists; split; reflexivity).
  destruct E as [t [r [E El]]]. rewrite E, El.
  destruct (fuel_enough num ref pnum pref (4 * List.length (deep n v) + 4)) as [Hfe _].
  destruct (Hfe false 0 (deep n v) ltac:(lia)) as [E0 _].
  assert (Hb : bp num ref pnum pref (4 * List.length (deep n v) + 4) false 0 (deep n v) = POk (ENum _ _ x, [])).
  { destruct (Nat.le_ge_cases d (4 * List.length (deep n v) + 4)) as [Hle|Hge].
    - eapply bp_more; [exact Hle|exact H|discriminate].
    - destruct (bp num ref pnum pref (4 * List.length (deep n v) + 4) false 0 (deep n v)) as [z| |] eqn:B; try contradiction.
      + apply (bp_more _ _ _ _ _ d) in B; [|exact Hge|discriminate]. congruence.
      + apply (bp_more _ _ _ _ _ d) in B; [|exact Hge|discriminate]. congruence. }
  rewrite Hb. reflexivity.
Qed.
End Deep.
