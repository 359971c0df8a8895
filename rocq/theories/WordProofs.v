From Coq Require Import List Bool NArith PeanoNat Lia Ascii String.
From Verif Require Import LexModel LexSpec LexProofs PrattModel PrattProofs RoundSpec RoundProofs RoundProofs2 RoundProofs3 WordSpec.
Import ListNotations.
Open Scope N_scope.

(* ---- the test for an exponent ---- *)
Lemma sci_body_true : forall v, sci_body true v = true <-> digits v.
Proof.
  unfold digits. induction v as [|c v IH]; cbn; [tauto|]. destruct (is_digit c); cbn; [exact IH|].
  rewrite andb_false_r. split; discriminate.
Qed.
Lemma sci_body_false : forall v, sci_body false v = true <->
  exists a b, digits a /\ (b = [] \/ exists f, b = c_dot :: f /\ digits f) /\ v = a ++ b.
Proof.
  induction v as [|c v IH]; cbn [sci_body].
  - split; auto. intros _. exists [], []. repeat split; auto.
  - destruct (is_digit c) eqn:D.
    + rewrite IH. split; intros (a & b & A & B & E).
      * exists (c :: a), b. subst v. split; [|auto]. unfold digits in *. cbn. now rewrite D.
      * destruct a as [|x a]; cbn in E.
        -- destruct B as [-> | (f & -> & F)]; [discriminate|]. injection E as -> _. discriminate.
        -- injection E as -> ->. exists a, b. split; auto. unfold digits in *. cbn in A. now rewrite D in A.
    + destruct (c =? c_dot) eqn:P; cbn [andb negb].
      * rewrite sci_body_true. apply N.eqb_eq in P. subst c. split.
        -- intros H. exists [], (c_dot :: v). split; [reflexivity|]. split; auto. right. eauto.
        -- intros (a & b & A & B & E). destruct a as [|x a]; cbn in E.
           ++ destruct B as [-> | (f & -> & F)]; [discriminate|]. injection E as ->. exact F.
           ++ injection E as <- E. unfold digits in A. cbn in A. discriminate.
      * split; [discriminate|]. intros (a & b & A & B & E). destruct a as [|x a]; cbn in E.
        -- destruct B as [-> | (f & -> & F)]; [discriminate|]. injection E as -> _. discriminate.
        -- injection E as <- E. unfold digits in A. cbn in A. rewrite D in A. discriminate.
Qed.

Lemma sci_base_spec : forall w, sci_base w = true <-> mantissa w.
Proof.
  intros w. unfold sci_base, mantissa. destruct w as [|f [|g r]].
  - split; [discriminate|]. intros (a & b & e & _ & _ & _ & _ & E). destruct a, b; discriminate.
  - split; [discriminate|]. intros (a & b & e & Na & _ & _ & _ & E).
    destruct a as [|x [|y a]]; [congruence| |destruct b; discriminate]. destruct b; discriminate.
  - set (t := g :: r). assert (Nt : t <> []) by discriminate.
    rewrite !andb_true_iff, orb_true_iff, !N.eqb_eq, sci_body_false. split.
    + intros ((L & D) & a & b & A & B & E). exists (f :: a), b, (last t 0).
      split; [discriminate|]. split; [unfold digits in *; cbn; now rewrite D|]. split; auto. split; auto.
      cbn [app]. f_equal. rewrite app_assoc, <- E. now apply app_removelast_last.
    + intros (a & b & e & Na & A & B & He & E). destruct a as [|x a]; [congruence|].
      cbn [app] in E. injection E as -> E. fold t in E. rewrite app_assoc in E.
      rewrite E, last_last, removelast_last. unfold digits in A. cbn in A. apply andb_prop in A.
      destruct A as [Dx A]. repeat split; auto. exists a, b. auto.
Qed.

Section R.
Variable num : Type.
Variable pnum : text -> option num.
Variable dia : dialect.
Notation is_num := (is_num num pnum).
Notation reach := (reach num pnum dia).
Notation lstep := (lstep is_num dia).
Notation lloop := (lloop is_num dia).
Notation flush := (flush_out is_num).

Lemma word_head : forall w r, word w -> exists c s, w ++ r = c :: s /\ plainc c = true.
Proof.
  intros w r [H1 H2]. destruct w as [|c w]; [congruence|]. cbn in H2. apply andb_prop in H2.
  exists c, (w ++ r). tauto.
Qed.

Lemma exponent_sci : forall o st cu p v r, word v -> In p ops ->
  (exponent cu p v /\ exists x, p = [x] /\ lstep (LS o st cu (p ++ v ++ r)) = LOk (LS o st (cu ++ p) (v ++ r)))
  \/ (~ exponent cu p v /\ sci (LS o st cu (p ++ v ++ r)) = None).
Proof.
  intros o st cu p v r Hv Hp. unfold ops in Hp. cbn [map In] in Hp.
  destruct (word_head v r Hv) as (c & s & Es & _).
  destruct v as [|d v]; [destruct Hv; congruence|]. cbn [app] in *.
  assert (Hpm : (p = tx "+" \/ p = tx "-") \/ (p <> tx "+" /\ p <> tx "-" /\ exists x q, p = x :: q /\ x <> c_plus /\ x <> c_minus)).
  { repeat (destruct Hp as [<- | Hp]; [first [left; now left|left; now right|
      right; split; [discriminate|]; split; [discriminate|]; eexists; eexists; repeat split; discriminate]|]). contradiction. }
  destruct Hpm as [Hpm | (N1 & N2 & x & q & -> & X1 & X2)].
  - destruct (sci_base cu && is_digit d) eqn:B.
    + left. apply andb_prop in B. destruct B as [B D].
      assert (M : mantissa cu) by now apply sci_base_spec.
      split; [repeat split; auto; eauto|].
      assert (HT : has_token (LS o st cu (p ++ d :: v ++ r)) = true) by (unfold has_token; cbn [cur]; destruct cu; [discriminate|reflexivity]).
      destruct Hpm as [-> | ->]; eexists; split; try reflexivity;
        unfold LexModel.lstep, sci; cbn [inp tx app map N_of_ascii list_ascii_of_string]; 
        unfold has_token in *; cbn [cur] in *; rewrite HT, B, D; reflexivity.
    + right. split.
      * intros (M & _ & d' & r' & E & D). injection E as <- <-. apply sci_base_spec in M. rewrite M, D in B. discriminate.
      * destruct Hpm as [-> | ->]; unfold sci; cbn [inp tx app map N_of_ascii list_ascii_of_string];
          rewrite <- andb_assoc; cbn [cur]; rewrite B, andb_false_r; reflexivity.
  - right. split; [intros (_ & [E | E] & _); congruence|]. apply sci_none; auto.
Qed.

Lemma op_step_bare : forall o st p c s, In p ops -> (c =? 61) = false -> (c =? 62) = false ->
  match pv o with Some t => endtok t = true | None => False end ->
  lstep (LS o st [] (p ++ c :: s)) = LOk (LS (Tok TInf SNone p :: o) st [] (c :: s)).
Proof.
  intros o st p c s Hp E1 E2 H.
  assert (Hq : match pv o with
    | Some t => if tsub_eqb (tsb t) SClose || ttype_eqb (tt t) TPost || ttype_eqb (tt t) TOperand
                then TInf else TPre
    | None => TPre end = TInf).
  { destruct (pv o) as [t|]; [|contradiction]. unfold endtok in H. rewrite H. reflexivity. }
  unfold LexModel.lstep. rewrite sci_empty. unfold ops in Hp. cbn [map In] in Hp.
  repeat (destruct Hp as [<-|Hp]; [cbn; unfold c_eq, c_gt, prev; cbn [out]; fold (pv o); rewrite ?E1, ?E2, ?Hq; reflexivity|]).
  contradiction.
Qed.

Lemma bare_op_step : forall o st cu p v r, cu <> [] -> word v -> In p ops ->
  sci (LS o st cu (p ++ v ++ r)) = None ->
  lstep (LS o st cu (p ++ v ++ r)) = LOk (LS (Tok TInf SNone p :: operand_tok is_num cu :: o) st [] (v ++ r)).
Proof.
  intros o st cu p v r Hc Hv Hp S0.
  destruct (word_head v r Hv) as (c & s & Es & P). rewrite Es in *.
  assert (E1 : (c =? 61) = false) by (destruct (c =? 61) eqn:G; auto; apply N.eqb_eq in G; subst; discriminate).
  assert (E2 : (c =? 62) = false) by (destruct (c =? 62) eqn:G; auto; apply N.eqb_eq in G; subst; discriminate).
  rewrite <- (op_step_bare (operand_tok is_num cu :: o) st p c s Hp E1 E2).
  2:{ cbn. unfold endtok. cbn. now rewrite orb_true_r. }
  unfold LexModel.lstep. rewrite S0, sci_empty. cbn [inp].
  assert (F : flush o cu = operand_tok is_num cu :: o) by (destruct cu; [congruence|reflexivity]).
  assert (A : exists x q, p = x :: q /\ ender x = true /\ ((x =? c_dq) || (x =? c_sq)) = false /\ (x =? c_lb) = false
     /\ (x =? c_hash) = false /\ is_ws x = false /\ (x =? c_colon) = false
     /\ memc x [43; 45; 42; 47; 94; 38; 61; 62; 60; 37; 64] = true).
  { clear -Hp. unfold ops in Hp. cbn [map In] in Hp.
    repeat (destruct Hp as [<-|Hp]; [eexists; eexists; repeat split; reflexivity|]). contradiction. }
  destruct A as (x & q & -> & A1 & A2 & A3 & A4 & A5 & A6 & A7). cbn [app]. rewrite A1. cbv zeta.
  rewrite A2, A3, A4, A5, A6, A7. rewrite !save_flush, F. reflexivity.
Qed.

Lemma chain_reach : forall l cu o, cu <> [] -> Forall (fun p => In (fst p) ops /\ word (snd p)) l ->
  exists ts s1, reads is_num cu l ts /\ reach (LS o [] cu (spell l)) s1 /\ inp s1 = [] /\ stack s1 = [] /\
    rev (out (save is_num s1)) = rev o ++ ts.
Proof.
  induction l as [|[p v] l IH]; intros cu o Hc F.
  - exists [operand_tok is_num cu], (LS o [] cu []). split; [constructor|]. split; [apply reach_refl|].
    repeat split; auto. cbn. destruct cu; [congruence|]. reflexivity.
  - apply Forall_cons_iff in F. destruct F as [[Hp Hv] F]. cbn [fst snd] in *.
    cbn [spell flat_map fst snd]. fold (spell l). rewrite <- app_assoc.
    destruct (exponent_sci o [] cu p v (spell l) Hv Hp) as [(X & x & -> & St) | (X & Sc)].
    + destruct (IH ((cu ++ [x]) ++ v) o) as (ts & s1 & R & Q & I1 & I2 & I3); auto.
      { destruct cu; discriminate. }
      exists ts, s1. split; [apply r_exp; auto; now rewrite app_assoc|]. split; auto.
      eapply reach_step; [discriminate|exact St|]. eapply reach_trans; [|exact Q].
      apply word_reach. apply Hv.
    + destruct (IH v (Tok TInf SNone p :: operand_tok is_num cu :: o)) as (ts & s1 & R & Q & I1 & I2 & I3); auto.
      { apply Hv. }
      exists (operand_tok is_num cu :: Tok TInf SNone p :: ts), s1. split; [now apply r_op|]. split; [|split; [auto|split; [auto|]]].
      * eapply reach_step; [|apply bare_op_step; auto|].
        { cbn [inp]. destruct p; [|discriminate]. cbn in Hp. intuition discriminate. }
        eapply reach_trans; [|exact Q]. apply (word_reach num pnum dia) with (cu := []). apply Hv.
      * rewrite I3. cbn [rev]. rewrite <- !app_assoc. reflexivity.
Qed.

Lemma tokenize_reach : forall i s1, reach (LS [] [] [] i) s1 -> inp s1 = [] -> stack s1 = [] ->
  tokenize is_num dia (c_eq :: i) = LOk (rev (out (save is_num s1))).
Proof.
  intros i s1 Q I1 I2.
  assert (L : lloop (List.length i) (LS [] [] [] i) <> LFuel).
  { pose proof (tokenize_total is_num dia (c_eq :: i)) as T. unfold tokenize in T. rewrite N.eqb_refl in T.
    intro E. rewrite E in T. congruence. }
  unfold tokenize. rewrite N.eqb_refl, (reach_lloop num pnum dia _ _ Q I1 _ L), I2. reflexivity.
Qed.

Theorem words_and_operators : forall w l, word w -> Forall (fun p => In (fst p) ops /\ word (snd p)) l ->
  exists ts, reads is_num w l ts /\ tokenize is_num dia (c_eq :: w ++ spell l) = LOk ts.
Proof.
  intros w l Hw F. destruct (chain_reach l w [] (proj1 Hw) F) as (ts & s1 & R & Q & I1 & I2 & I3).
  exists ts. split; auto.
  assert (Q' : reach (LS [] [] [] (w ++ spell l)) s1).
  { eapply reach_trans; [|exact Q]. apply (word_reach num pnum dia) with (cu := []). apply Hw. }
  rewrite (tokenize_reach (w ++ spell l) s1 Q' I1 I2). now rewrite I3.
Qed.

(* ---- blanks ---- *)
Lemma blank_step : forall o st cu w r, w <> [] -> forallb is_ws w = true -> memc c_sp w = true -> hd_ok r ->
  prev_ref_o num pnum (flush o cu) = true -> starts_ref r = true ->
  lstep (LS o st cu (w ++ r)) = LOk (LS (Tok TInf SNone w :: flush o cu) st [] r).
Proof.
  intros o st cu w r Hw Fw Sp Hr P Sr.
  assert (T : take_while is_ws (w ++ r) = w /\ drop_while is_ws (w ++ r) = r).
  { clear -Fw Hr. induction w as [|x w IH]; cbn.
    - destruct r as [|d r]; [now split|]. cbn in *. now rewrite Hr.
    - cbn in Fw. apply andb_prop in Fw. destruct Fw as [A B]. rewrite A. destruct (IH B) as [-> ->]. now split. }
  destruct T as [T1 T2]. destruct w as [|x w]; [congruence|].
  assert (X : is_ws x = true) by (cbn in Fw; apply andb_prop in Fw; tauto).
  unfold LexModel.lstep. cbn [inp app].
  assert (Q : In x [32; 9; 13; 10]).
  { unfold is_ws, memc in X. apply existsb_exists in X. destruct X as (y & I & E). apply N.eqb_eq in E. now subst. }
  assert (K : forall c, memc c [32; 9; 13; 10] = false -> (x =? c) = false).
  { intros c Hc. destruct (x =? c) eqn:E; auto. apply N.eqb_eq in E. subst c.
    unfold is_ws in X. congruence. }
  rewrite sci_none.
  2,3: intro E; subst x; discriminate.
  cbv zeta. unfold c_dq, c_sq, c_lb, c_hash.
  rewrite !K by reflexivity. rewrite X. cbn [orb].
  assert (G : lex_ws is_num (LS o st cu (x :: w ++ r)) = LOk (LS (Tok TInf SNone (x :: w) :: flush o cu) st [] r)).
  { unfold lex_ws. rewrite save_flush. cbn [inp]. cbn [app] in T1, T2. rewrite T1, T2, Sp, Sr.
    unfold prev_ref, prev. cbn [out]. unfold prev_ref_o, pv in P. rewrite P. reflexivity. }
  destruct (ender x); [|exact G].
  unfold lex_ws in *. rewrite !save_flush in *. exact G.
Qed.

Lemma alpha_plain : forall l, forallb is_alpha l = true -> forallb plainc l = true.
Proof.
  induction l as [|c l IH]; cbn; auto. intros H. apply andb_prop in H. destruct H as [A B]. rewrite IH by auto.
  rewrite andb_true_r. unfold is_alpha in A. unfold plainc, ender, is_ws, memc, enders. cbn [existsb].
  apply orb_prop in A. rewrite !andb_true_iff, !N.leb_le in A.
  repeat match goal with |- context [c =? ?k] => let E := fresh in assert (E : (c =? k) = false) by (apply N.eqb_neq; lia); rewrite E; clear E end.
  reflexivity.
Qed.
Lemma digit_plain : forall l, forallb is_digit l = true -> forallb plainc l = true.
Proof.
  induction l as [|c l IH]; cbn; auto. intros H. apply andb_prop in H. destruct H as [A B]. rewrite IH by auto.
  rewrite andb_true_r. unfold is_digit in A. unfold plainc, ender, is_ws, memc, enders. cbn [existsb].
  rewrite !andb_true_iff, !N.leb_le in A.
  repeat match goal with |- context [c =? ?k] => let E := fresh in assert (E : (c =? k) = false) by (apply N.eqb_neq; lia); rewrite E; clear E end.
  reflexivity.
Qed.
Lemma cell_word : forall v, cell v -> word v.
Proof.
  intros v (d & l & e & n & D & E & Nl & L & Nn & Dn & ->). split; [destruct D as [-> | ->]; destruct l; try discriminate; congruence|].
  rewrite !forallb_app, (alpha_plain l L), (digit_plain n Dn).
  destruct D as [-> | ->]; destruct E as [-> | ->]; reflexivity.
Qed.

Lemma digit_not_alpha : forall c, is_digit c = true -> is_alpha c = false.
Proof. intros c. unfold is_digit, is_alpha. rewrite andb_true_iff, !N.leb_le. intros [A B].
  apply orb_false_iff. split; apply andb_false_iff; rewrite !N.leb_gt; lia. Qed.

Lemma drop_app : forall p a b, forallb p a = true -> match b with c :: _ => p c = false | [] => True end -> drop_while p (a ++ b) = b.
Proof.
  intros p. induction a as [|x a IH]; intros b Ha Hb; cbn.
  - destruct b as [|c b]; auto. cbn. now rewrite Hb.
  - cbn in Ha. apply andb_prop in Ha. destruct Ha as [-> Ha]. auto.
Qed.

Lemma drop_dollar_no : forall c r, c <> 36 -> drop_dollar (c :: r) = c :: r.
Proof.
  intros c r H. unfold drop_dollar. destruct c as [|p]; [reflexivity|].
  do 6 (destruct p as [p|p|]; try reflexivity). congruence.
Qed.
Lemma subtype_other : forall c r, c <> 34 -> c <> 35 ->
  operand_subtype is_num (c :: r) =
  if eq_ic (c :: r) (tx "TRUE") || eq_ic (c :: r) (tx "FALSE") then SLogical
  else if is_num (c :: r) then SNumber else SRange.
Proof.
  intros c r H H'. unfold operand_subtype. destruct c as [|p]; [reflexivity|].
  do 6 (destruct p as [p|p|]; try reflexivity); congruence.
Qed.

Lemma cell_is_cell_like : forall v, cell v -> cell_like v = true.
Proof.
  intros v (d & l & e & n & D & E & Nl & L & Nn & Dn & ->). unfold cell_like.
  assert (E1 : drop_dollar (d ++ l ++ e ++ n) = l ++ e ++ n).
  { destruct D as [-> | ->]; [|reflexivity]. destruct l as [|c l]; [congruence|]. cbn [app].
    cbn in L. apply andb_prop in L. destruct L as [L _].
    apply drop_dollar_no. intros ->. discriminate. }
  rewrite E1.
  assert (E2 : drop_while is_alpha (l ++ e ++ n) = e ++ n).
  { apply drop_app; auto. destruct E as [-> | ->]; [|reflexivity]. destruct n as [|c n]; [congruence|]. cbn in *.
    unfold digits in Dn. cbn in Dn. apply andb_prop in Dn. apply digit_not_alpha. tauto. }
  rewrite E2.
  assert (NE : Nat.eqb (List.length (e ++ n)) (List.length (l ++ e ++ n)) = false)
    by (apply Nat.eqb_neq; rewrite (app_length l); destruct l; [congruence|cbn [List.length]; lia]).
  rewrite NE.
  assert (E3 : drop_dollar (e ++ n) = n).
  { destruct E as [-> | ->]; [|reflexivity]. destruct n as [|c n]; [congruence|]. cbn [app].
    unfold digits in Dn. cbn in Dn. apply andb_prop in Dn. destruct Dn as [Dn _]. unfold is_digit in Dn.
    rewrite andb_true_iff, !N.leb_le in Dn.
    apply drop_dollar_no. lia. }
  rewrite E3. rewrite <- (app_nil_r n) at 1. rewrite drop_app by auto.
  destruct n; [congruence|reflexivity].
Qed.

Lemma cell_ends_in_digit : forall v, cell v -> is_digit (last v 0) = true.
Proof.
  intros v (d & l & e & n & D & E & Nl & L & Nn & Dn & ->).
  destruct (exists_last Nn) as (m & x & ->). rewrite !app_assoc, last_last.
  unfold digits in Dn. rewrite forallb_app in Dn. cbn in Dn. rewrite andb_true_r in Dn. apply andb_prop in Dn. tauto.
Qed.

Lemma cell_starts : forall v, cell v -> exists c r, v = c :: r /\ (c = c_dollar \/ is_alpha c = true).
Proof.
  intros v (d & l & e & n & D & E & Nl & L & Nn & Dn & ->). destruct D as [-> | ->]; [|cbn; eauto].
  destruct l as [|c l]; [congruence|]. cbn in L. apply andb_prop in L. cbn. exists c. eexists. split; [reflexivity|tauto].
Qed.

Lemma head_nonws : forall c, c = c_dollar \/ is_alpha c = true -> is_ws c = false.
Proof.
  intros c [-> | H]; [reflexivity|]. unfold is_alpha in H. unfold is_ws, memc. cbn [existsb].
  apply orb_prop in H. rewrite !andb_true_iff, !N.leb_le in H.
  repeat match goal with |- context [c =? ?k] => let E := fresh in assert (E : (c =? k) = false) by (apply N.eqb_neq; lia); rewrite E; clear E end.
  reflexivity.
Qed.

(* A cell is neither a logical value nor, unless it parses as one, a number. *)
Lemma cell_subtype : forall v, cell v -> pnum v = None -> operand_subtype is_num v = SRange.
Proof.
  intros v C P. pose proof (cell_ends_in_digit v C) as D. destruct (cell_starts v C) as (c & r & E & H).
  assert (L : forall t, is_digit (last (map upc t) 0) = false -> t <> [] -> eq_ic v t = false).
  { intros t F Nt. unfold eq_ic. destruct (text_eqb (map upc v) (map upc t)) eqn:Q; auto.
    apply text_eqb_spec in Q. rewrite <- Q in F.
    assert (M : last (map upc v) 0 = upc (last v 0)).
    { clear. induction v as [|x v IH]; [reflexivity|]. destruct v; [reflexivity|]. exact IH. }
    rewrite M in F. unfold upc in F. unfold is_digit in D. rewrite andb_true_iff, !N.leb_le in D.
    replace ((97 <=? last v 0) && (last v 0 <=? 122)) with false in F by (symmetry; apply andb_false_iff; rewrite N.leb_gt; lia).
    unfold is_digit in F. rewrite andb_false_iff, !N.leb_gt in F. lia. }
  assert (c <> 34 /\ c <> 35) as [N1 N2].
  { destruct H as [-> | H]; [split; discriminate|]. split; intros ->; discriminate. }
  rewrite E in *. rewrite subtype_other by auto. rewrite !L by (try reflexivity; discriminate). cbn [orb].
  unfold PrattModel.is_num. rewrite P. reflexivity.
Qed.

Theorem blank_is_intersection : forall a b w, cell a -> cell b -> pnum a = None ->
  forallb is_ws w = true -> memc c_sp w = true ->
  tokenize is_num dia (c_eq :: a ++ w ++ b) =
  LOk [operand_tok is_num a; Tok TInf SNone w; operand_tok is_num b].
Proof.
  intros a b w Ca Cb P Fw Sp. pose proof (cell_word a Ca) as [Na Wa]. pose proof (cell_word b Cb) as [Nb Wb].
  assert (Fa : flush [] a = [operand_tok is_num a]) by (destruct a; [congruence|reflexivity]).
  assert (Fb : forall o, flush o b = operand_tok is_num b :: o) by (destruct b; [congruence|reflexivity]).
  rewrite (tokenize_reach (a ++ w ++ b) (LS [Tok TInf SNone w; operand_tok is_num a] [] b [])); auto.
  - cbn [save out cur]. rewrite Fb. reflexivity.
  - eapply reach_trans; [apply (word_reach num pnum dia) with (cu := []); exact Wa|]. cbn [app].
    destruct (cell_starts b Cb) as (c & r & E & H).
    eapply reach_step; [destruct w; discriminate|apply blank_step; auto|].
    + destruct w; discriminate.
    + rewrite E. cbn. now apply head_nonws.
    + rewrite Fa. unfold prev_ref_o. cbn. rewrite (cell_subtype a Ca P). cbn.
      unfold ref_value. rewrite (cell_subtype a Ca P). rewrite (cell_is_cell_like a Ca), !orb_true_r. reflexivity.
    + rewrite E. unfold starts_ref. cbn [drop_while]. rewrite (head_nonws c H).
      destruct H as [-> | ->]; [reflexivity|]. now rewrite orb_true_r.
    + rewrite Fa. assert (R := word_reach num pnum dia [Tok TInf SNone w; operand_tok is_num a] [] [] b [] Wb).
      rewrite app_nil_r in R. exact R.
Qed.

(* ---- colons ---- *)
Lemma apos_double : forall q, apos q = double_sq q.
Proof. induction q as [|c q IH]; cbn; auto. rewrite IH. destruct (c =? c_sq) eqn:E; auto. apply N.eqb_eq in E. now subst. Qed.

Lemma qual_in : forall q r, qual_scan true (apos q ++ c_sq :: c_bang :: r) = true.
Proof.
  induction q as [|c q IH]; intros r; [reflexivity|]. cbn [apos]. destruct (c =? c_sq) eqn:E; cbn [app qual_scan].
  - rewrite E. cbn [andb]. apply IH.
  - rewrite E. destruct (c =? c_bang); auto. rewrite !andb_false_r. apply IH.
Qed.

Lemma plain_no : forall x w, forallb plainc w = true -> plainc x = false -> memc x w = false.
Proof.
  intros x. unfold memc. induction w as [|c w IH]; intros F P; [reflexivity|]. cbn [existsb forallb] in *. apply andb_prop in F. destruct F as [A B].
  rewrite IH by auto. rewrite orb_false_r. apply N.eqb_neq. intros ->. congruence.
Qed.

Lemma cell_no_bang : forall v, cell v -> memc c_bang v = false.
Proof.
  intros v (d & l & e & n & D & E & Nl & L & Nn & Dn & ->). rewrite !memc_app.
  assert (A : memc c_bang l = false).
  { clear -L. unfold memc. induction l as [|c l IH]; auto. cbn [existsb forallb] in *. apply andb_prop in L. destruct L as [A B]. rewrite IH by auto.
    rewrite orb_false_r. apply N.eqb_neq. intros <-. discriminate. }
  assert (B : memc c_bang n = false).
  { clear -Dn. unfold digits in Dn. unfold memc. induction n as [|c n IH]; auto. cbn [existsb forallb] in *. apply andb_prop in Dn. destruct Dn as [A B]. rewrite IH by auto.
    rewrite orb_false_r. apply N.eqb_neq. intros <-. discriminate. }
  rewrite A, B. destruct D as [-> | ->], E as [-> | ->]; reflexivity.
Qed.

Lemma after_bang_last : forall s a, memc c_bang a = false -> after_bang (s ++ c_bang :: a) = a.
Proof.
  induction s as [|c s IH]; intros a H; cbn [app after_bang].
  - now rewrite H.
  - rewrite memc_app. cbn [memc existsb]. rewrite N.eqb_refl, orb_true_r. auto.
Qed.

Theorem colon_between_sheets : forall s a q b, word s -> cell a -> cell b ->
  tokenize is_num dia (c_eq :: (s ++ c_bang :: a) ++ c_colon :: (quoted q ++ c_bang :: b)) =
  LOk [operand_tok is_num (s ++ c_bang :: a); Tok TInf SNone [c_colon];
       operand_tok is_num (quoted q ++ c_bang :: b)].
Proof.
  intros s a q b Ws Ca Cb. pose proof (cell_word a Ca) as [Na Wa]. pose proof (cell_word b Cb) as [Nb Wb].
  set (x := s ++ c_bang :: a). set (y := quoted q ++ c_bang :: b).
  assert (Wx : forallb plainc x = true).
  { unfold x. rewrite forallb_app. cbn [forallb]. rewrite (proj2 Ws), Wa. reflexivity. }
  assert (Nx : x <> []) by (unfold x; destruct s; discriminate).
  assert (Fx : flush [] x = [operand_tok is_num x]) by (destruct x; [congruence|reflexivity]).
  rewrite (tokenize_reach (x ++ c_colon :: y) (LS [Tok TInf SNone [c_colon]; operand_tok is_num x] [] y [])); auto.
  eapply reach_trans; [apply (word_reach num pnum dia) with (cu := []); exact Wx|]. cbn [app].
  eapply reach_step; [discriminate| |].
  - unfold LexModel.lstep. cbn [inp]. rewrite sci_none by discriminate.
    cbv zeta. change (ender c_colon) with false. cbn iota.
    change ((c_colon =? c_dq) || (c_colon =? c_sq)) with false. cbn iota.
    change (c_colon =? c_lb) with false. change (c_colon =? c_hash) with false.
    change (is_ws c_colon) with false. change (c_colon =? c_colon) with true. cbn iota.
    assert (E : colon_infix is_num (LS [] [] x (c_colon :: y)) y = true).
    { unfold colon_infix. 
      assert (HT : has_token (LS [] [] x (c_colon :: y)) = true) by (unfold has_token; cbn [cur]; destruct x; [congruence|reflexivity]).
      rewrite HT. cbn [cur].
      assert (L : (last x 0 =? c_bang) = false).
      { apply N.eqb_neq. intro Q. pose proof (cell_ends_in_digit a Ca) as D.
        destruct (exists_last Na) as (m & z & ->). unfold x in Q.
        rewrite last_last in D. change (s ++ c_bang :: m ++ [z]) with (s ++ (c_bang :: m) ++ [z]) in Q.
        rewrite app_assoc, last_last in Q. subst z. discriminate. }
      rewrite L. assert (B : memc c_bang x = true).
      { unfold x. rewrite memc_app. cbn [memc existsb]. rewrite N.eqb_refl. now rewrite orb_true_r. }
      rewrite B. assert (Q : next_qualified y = true).
      { unfold next_qualified, y, quoted. cbn [app drop_while]. change (is_ws c_sq) with false. cbn [qual_scan].
        change (c_sq =? c_sq) with true. cbn iota. rewrite <- app_assoc. cbn [app].
        destruct (apos q ++ c_sq :: c_bang :: b) as [|z t] eqn:G; [destruct q; [|cbn in G; destruct (n =? c_sq)]; discriminate|].
        cbn [andb negb]. rewrite <- G. apply qual_in. }
      rewrite Q. now rewrite !orb_true_r. }
    rewrite E. reflexivity.
  - rewrite save_flush, Fx. unfold push. cbn [out stack].
    unfold y, quoted. rewrite apos_double. fold (squote q).
    eapply reach_trans; [apply squote_reach|].
    assert (R := word_reach num pnum dia [Tok TInf SNone [c_colon]; operand_tok is_num x] [] [] b (squote q ++ [c_bang]) Wb).
    rewrite app_nil_r, <- app_assoc in R. exact R.
Qed.
End R.
