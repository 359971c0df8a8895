(* Theorems about how formulas fall into operands, operators and subformulas. *)
From Coq Require Import List Bool NArith Lia String.
From Verif Require Import LexModel PrattModel RoundSpec GramSpec GramProofs WordSpec WordProofs.
Import ListNotations.
Open Scope N_scope.

(* ---- C104: operators group by precedence ---- *)

(* Whatever the grammar derives is parsed, into the tree of the derivation,
   with any blanks between the tokens. *)
Theorem C104_grammar_is_parsed : forall num ref pnum pref ts w e,
  gram num ref pnum pref 1 ts e -> Forall (fun b => tt b = TWs) w ->
  parse_tokens num ref pnum pref (ts ++ w) = POk e.
Proof. exact grammar_parsed. Qed.
Print Assumptions C104_grammar_is_parsed.

(* So no token list has two derivations with different trees. *)
Theorem C104_one_reading : forall num ref pnum pref ts e1 e2,
  gram num ref pnum pref 1 ts e1 -> gram num ref pnum pref 1 ts e2 -> e1 = e2.
Proof.
  intros num ref pnum pref ts e1 e2 G1 G2.
  pose proof (grammar_parsed num ref pnum pref ts [] e1 G1 (Forall_nil _)) as A.
  pose proof (grammar_parsed num ref pnum pref ts [] e2 G2 (Forall_nil _)) as B. congruence.
Qed.
Print Assumptions C104_one_reading.

(* -1^2^A & SUM(A, A%) = 1 - 1 - A *)
Definition g_t (v : text) : option text := if forallb is_digit v then Some v else None.
Definition t1 := Tok TOperand SNumber (tx "1").
Definition tA := Tok TOperand SRange (tx "A").
Definition t_in (s : string) := Tok TInf SNone (tx s).
Definition c104_toks : list tok :=
  [Tok TPre SNone (tx "-"); t1; t_in "^"; Tok TWs SNone (tx " "); t1; t_in "^"; tA; t_in "&"; Tok TFunc SOpen (tx "SUM("); tA;
   Tok TSep SArg (tx ","); Tok TWs SNone (tx " "); tA; Tok TPost SNone (tx "%"); Tok TFunc SClose (tx ")");
   t_in "="; t1; t_in "-"; t1; t_in "-"; tA].
Definition c104_tree : expr text text :=
  let n := ENum text text (tx "1") in let r := ERef text text (tx "A") in
  let b := EBin text text in let u := EUn text text in
  b (tx "=") (b (tx "&") (b (tx "^") (u (tx "-") n) (b (tx "^") n r)) (EFn text text (tx "SUM") [r; u (tx "%") r]))
             (b (tx "-") (b (tx "-") n n) r).
Lemma sp0 : forall t, spaced t [t].
Proof. intros t. exists []. split; auto. Qed.
Lemma sp1 : forall t, spaced t [Tok TWs SNone (tx " "); t].
Proof. intros t. exists [Tok TWs SNone (tx " ")]. split; auto. Qed.
Example C104_ex : gram text text g_t (@Some text) 1 c104_toks c104_tree.
Proof.
  assert (N1 : forall p, p < 13 -> gram text text g_t (@Some text) p [t1] (ENum text text (tx "1"))).
  { assert (G : gram text text g_t (@Some text) 12 [t1] (ENum text text (tx "1"))) by (eapply g_operand; [| |apply sp0]; reflexivity).
    intros p H. destruct (N.eq_dec p 12) as [->|]; [exact G|]. eapply g_up; [|exact G]. lia. }
  assert (NA : forall p, p < 13 -> gram text text g_t (@Some text) p [tA] (ERef text text (tx "A"))).
  { assert (G : gram text text g_t (@Some text) 12 [tA] (ERef text text (tx "A"))) by (eapply g_operand; [| |apply sp0]; reflexivity).
    intros p H. destruct (N.eq_dec p 12) as [->|]; [exact G|]. eapply g_up; [|exact G]. lia. }
  unfold c104_toks, c104_tree.
  apply (g_binary _ _ _ _ 1 (tx "=") (t_in "=") [t_in "="]
    [Tok TPre SNone (tx "-"); t1; t_in "^"; Tok TWs SNone (tx " "); t1; t_in "^"; tA; t_in "&"; Tok TFunc SOpen (tx "SUM("); tA;
     Tok TSep SArg (tx ","); Tok TWs SNone (tx " "); tA; Tok TPost SNone (tx "%"); Tok TFunc SClose (tx ")")]
    [t1; t_in "-"; t1; t_in "-"; tA]); try reflexivity; [constructor|apply sp0| |].
  - apply (g_up _ _ _ _ 1 2); [reflexivity|].
    apply (g_binary _ _ _ _ 2 (tx "&") (t_in "&") [t_in "&"]
      [Tok TPre SNone (tx "-"); t1; t_in "^"; Tok TWs SNone (tx " "); t1; t_in "^"; tA]
      [Tok TFunc SOpen (tx "SUM("); tA; Tok TSep SArg (tx ","); Tok TWs SNone (tx " "); tA; Tok TPost SNone (tx "%"); Tok TFunc SClose (tx ")")]);
      try reflexivity; [constructor|apply sp0| |].
    + apply (g_up _ _ _ _ 2 5); [reflexivity|].
      apply (g_power _ _ _ _ (t_in "^") [t_in "^"] [Tok TPre SNone (tx "-"); t1] [Tok TWs SNone (tx " "); t1; t_in "^"; tA]);
        try reflexivity; [apply sp0| |].
      * apply (g_sign _ _ _ _ (Tok TPre SNone (tx "-")) [Tok TPre SNone (tx "-")] [t1]); [reflexivity|apply sp0|apply N1; reflexivity].
      * apply (g_power _ _ _ _ (t_in "^") [t_in "^"] [Tok TWs SNone (tx " "); t1] [tA]); try reflexivity; [apply sp0| |apply NA; reflexivity].
        apply (g_up _ _ _ _ 6 12); [reflexivity|]. eapply g_operand; [| |apply sp1]; reflexivity.
    + apply (g_up _ _ _ _ (2 + 1) 12); [reflexivity|].
      apply (g_call _ _ _ _ (Tok TFunc SOpen (tx "SUM(")) (Tok TFunc SClose (tx ")")) [Tok TFunc SOpen (tx "SUM(")]
        [Tok TFunc SClose (tx ")")] [tA; Tok TSep SArg (tx ","); Tok TWs SNone (tx " "); tA; Tok TPost SNone (tx "%")]);
        try reflexivity; [apply sp0|apply sp0|].
      apply (gl_more _ _ _ _ [tA] _ (Tok TSep SArg (tx ",")) [Tok TSep SArg (tx ",")] [Tok TWs SNone (tx " "); tA; Tok TPost SNone (tx "%")]);
        try reflexivity; [apply NA; reflexivity|apply sp0|].
      apply gl_one. apply (g_up _ _ _ _ 1 7); [reflexivity|].
      apply (g_postfix _ _ _ _ 7 (tx "%") (Tok TPost SNone (tx "%")) [Tok TPost SNone (tx "%")] [Tok TWs SNone (tx " "); tA]);
        try reflexivity; [constructor|apply sp0|].
      apply (g_up _ _ _ _ 7 12); [reflexivity|]. eapply g_operand; [| |apply sp1]; reflexivity.
  - apply (g_up _ _ _ _ (1 + 1) 3); [reflexivity|].
    apply (g_binary _ _ _ _ 3 (tx "-") (t_in "-") [t_in "-"] [t1; t_in "-"; t1] [tA]); try reflexivity;
      [constructor|apply sp0| |apply NA; reflexivity].
    apply (g_binary _ _ _ _ 3 (tx "-") (t_in "-") [t_in "-"] [t1] [t1]); try reflexivity;
      [constructor|apply sp0|apply N1; reflexivity|apply N1; reflexivity].
Qed.

(* ---- C105: signs of exponents ---- *)

(* A formula of words and operators is cut at its operators; a sign is part
   of a number exactly if it follows a mantissa with E and precedes a digit. *)
Theorem C105_words_and_operators : forall num pnum dia w l,
  word w -> Forall (fun p => In (fst p) ops /\ word (snd p)) l ->
  exists ts, reads (is_num num pnum) w l ts /\
    tokenize (is_num num pnum) dia (c_eq :: w ++ spell l) = LOk ts.
Proof. exact words_and_operators. Qed.
Print Assumptions C105_words_and_operators.

(* =1.5E-3+AE+2<=7 *)
Definition c105_l : list (text * text) :=
  [(tx "-", tx "3"); (tx "+", tx "AE"); (tx "+", tx "2"); (tx "<=", tx "7")].
Example C105_ex : word (tx "1.5E") /\ Forall (fun p => In (fst p) ops /\ word (snd p)) c105_l
  /\ c_eq :: tx "1.5E" ++ spell c105_l = tx "=1.5E-3+AE+2<=7"
  /\ exponent (tx "1.5E") (tx "-") (tx "3") /\ ~ exponent (tx "AE") (tx "+") (tx "2").
Proof.
  split; [split; [discriminate|reflexivity]|]. split.
  { unfold c105_l. repeat constructor; cbn; auto 20; try discriminate; reflexivity. }
  split; [reflexivity|]. split.
  - split; [|split; [auto|exists 51, []; auto]].
    exists (tx "1"), (tx ".5"), 69. split; [discriminate|]. split; [reflexivity|].
    split; [right; exists (tx "5"); split; reflexivity|]. split; [now left|reflexivity].
  - intros (M & _). apply sci_base_spec in M. discriminate.
Qed.

(* ---- C106: reference operators ---- *)

Theorem C106_blank_is_intersection : forall num pnum dia a b w,
  cell a -> cell b -> pnum a = None -> forallb is_ws w = true -> memc c_sp w = true ->
  tokenize (is_num num pnum) dia (c_eq :: a ++ w ++ b) =
  LOk [operand_tok (is_num num pnum) a; Tok TInf SNone w; operand_tok (is_num num pnum) b].
Proof. exact blank_is_intersection. Qed.
Print Assumptions C106_blank_is_intersection.

Theorem C106_colon_between_sheets : forall num pnum dia s a q b,
  word s -> cell a -> cell b ->
  tokenize (is_num num pnum) dia (c_eq :: (s ++ c_bang :: a) ++ c_colon :: (quoted q ++ c_bang :: b)) =
  LOk [operand_tok (is_num num pnum) (s ++ c_bang :: a); Tok TInf SNone [c_colon];
       operand_tok (is_num num pnum) (quoted q ++ c_bang :: b)].
Proof. exact colon_between_sheets. Qed.
Print Assumptions C106_colon_between_sheets.

Example C106_ex : cell (tx "$B$7") /\ cell (tx "c12") /\ word (tx "Sheet1")
  /\ quoted (tx "it's") = tx "'it''s'" /\ g_t (tx "$B$7") = None.
Proof.
  split; [exists [c_dollar], (tx "B"), [c_dollar], (tx "7"); unfold dollar; repeat split; auto; discriminate|].
  split; [exists [], (tx "c"), [], (tx "12"); unfold dollar; repeat split; auto; discriminate|].
  split; [split; [discriminate|reflexivity]|]. split; reflexivity.
Qed.
