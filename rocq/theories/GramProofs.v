(* The parser accepts what the grammar derives, with the same tree. *)
From Coq Require Import List Bool NArith Lia String.
From Coq Require Import ZifyN ZifyNat ZifyBool.
From Verif Require Import LexModel PrattModel LexProofs PrattProofs GramSpec.
Import ListNotations.
Open Scope N_scope.

Scheme gram_mut := Induction for gram Sort Prop
  with glist_mut := Induction for glist Sort Prop.

Section G.
Variables num ref : Type.
Variable pnum : text -> option num.
Variable pref : text -> option ref.
Notation expr := (expr num ref).
Notation bp := (bp num ref pnum pref).
Notation loop := (loop num ref pnum pref).
Notation prefix := (prefix num ref pnum pref).
Notation enter := (enter num ref pnum pref).
Notation args := (args num ref pnum pref).
Notation gram := (gram num ref pnum pref).
Notation glist := (glist num ref pnum pref).

Lemma skip_spaced : forall t seg rest, spaced t seg -> tt t <> TWs -> skip_ws (seg ++ rest) = t :: rest.
Proof.
  intros t seg rest (w & -> & F) Ht. rewrite <- app_assoc. induction F as [|b w Hb F IH]; cbn.
  - destruct (tt t); try reflexivity. congruence.
  - rewrite Hb. exact IH.
Qed.

Lemma skip_skip : forall ts, skip_ws (skip_ws ts) = skip_ws ts.
Proof.
  induction ts as [|t ts IH]; cbn; auto. destruct (ttype_eqb (tt t) TWs) eqn:E; auto. cbn. now rewrite E.
Qed.

Lemma loop_skip : forall n k m l ts, loop n k m l (skip_ws ts) = loop n k m l ts.
Proof. destruct n; [reflexivity|]. intros. rewrite !loop_S, skip_skip. reflexivity. Qed.

(* What may follow an operand of the level below [q]: nothing, a closing
   bracket, a separator, or an operator weaker than [q]. *)
Definition weak (q : N) (t : tok) : Prop :=
  match tt t with
  | TInf | TPost => fst (op_prec (sem_value t)) < q
  | TParen | TFunc | TArray => tsb t = SClose
  | TSep => True
  | _ => False
  end.
Definition stops (q : N) (ts : list tok) : Prop :=
  match skip_ws ts with [] => True | t :: _ => weak q t end.

Lemma stops_le : forall q q' ts, q <= q' -> stops q ts -> stops q' ts.
Proof.
  unfold stops, weak. intros q q' ts L. destruct (skip_ws ts) as [|t r]; auto. destruct (tt t); auto; lia.
Qed.

Lemma stops_loop : forall m l ts, stops m ts -> exists n, forall n', (n <= n')%nat -> loop n' false m l ts = POk (l, skip_ws ts).
Proof.
  intros m l ts H. exists 1%nat. intros n' L. destruct n' as [|n]; [lia|]. rewrite loop_S.
  unfold stops, weak in H. destruct (skip_ws ts) as [|t r]; [reflexivity|]. unfold is_tok.
  destruct (tt t) eqn:T; try contradiction; cbn [ttype_eqb andb negb]; try reflexivity.
  - rewrite H. reflexivity.
  - destruct (op_prec (sem_value t)) as [p la]. cbn [fst] in H. destruct (p <? m) eqn:E; [reflexivity|]. lia.
  - destruct (fst (op_prec (sem_value t)) <? m) eqn:E; [reflexivity|]. lia.
Qed.

(* The parser gives [x] from some amount of fuel on. *)
Definition ev {A : Type} (f : nat -> pres A) (x : pres A) : Prop :=
  exists n, forall n', (n <= n')%nat -> f n' = x.

Lemma ev_loop_skip : forall k m l ts x, ev (fun n => loop n k m l ts) x <-> ev (fun n => loop n k m l (skip_ws ts)) x.
Proof.
  unfold ev. intros. split; intros (n & H); exists n; intros n' L; specialize (H n' L);
    rewrite loop_skip in *; exact H.
Qed.

Lemma ev_bp : forall k m ts l ts1 x, ev (fun n => prefix n k ts) (POk (l, ts1)) ->
  ev (fun n => loop n k m l ts1) x -> ev (fun n => bp n k m ts) x.
Proof.
  intros k m ts l ts1 x (a & A) (b & B). exists (S (Nat.max a b)). intros n' L.
  destruct n' as [|n]; [lia|]. rewrite bp_S, A by lia. apply B. lia.
Qed.

Lemma stops_loop_ev : forall m l ts, stops m ts -> ev (fun n => loop n false m l ts) (POk (l, skip_ws ts)).
Proof. intros. now apply stops_loop. Qed.

(* The level from which operators may not follow. *)
Definition follow (p : N) : N := if (p =? 5) || (p =? 6) then p else p + 1.

Lemma binary_prec : forall p op, binary p op -> op_prec op = (p, true) /\ follow p = p + 1 /\ follow (p + 1) <= p + 2 /\ 1 <= p.
Proof. intros p op H. destruct H; repeat split; reflexivity || (cbv; congruence). Qed.
Lemma postfix_prec : forall p op, postfix p op -> op_prec op = (p, true) /\ follow p = p + 1.
Proof. intros p op H. destruct H; split; reflexivity. Qed.
Lemma follow_mono : forall p q, p < q -> follow p <= follow q.
Proof. intros p q L. unfold follow. destruct (p =? 5) eqn:A, (p =? 6) eqn:B, (q =? 5) eqn:C, (q =? 6) eqn:D; cbn; lia. Qed.

Lemma stops_start : forall q t st rest, spaced t st -> tt t <> TWs -> weak q t -> stops q (st ++ rest).
Proof. intros q t st rest S0 T W. unfold stops. now rewrite (skip_spaced t st rest S0 T). Qed.

Lemma bp_skip : forall n k m ts, bp n k m (skip_ws ts) = bp n k m ts.
Proof.
  destruct n as [|[|n]]; try reflexivity. intros. rewrite !bp_S, !prefix_S, skip_skip. reflexivity.
Qed.

(* An expression starts with none of the tokens that end one. *)
Definition opens (t : tok) : Prop :=
  match tt t with TOperand | TPre => True | TParen | TFunc => tsb t = SOpen | _ => False end.
Lemma gram_opens : forall p seg e, gram p seg e ->
  forall rest, exists t r, skip_ws (seg ++ rest) = t :: r /\ opens t.
Proof.
  apply (gram_mut num ref pnum pref
    (fun p seg e _ => forall rest, exists t r, skip_ws (seg ++ rest) = t :: r /\ opens t)
    (fun seg l _ => True)); intros; auto.
  1: exists t; eexists; split; [apply skip_spaced; auto; congruence|unfold opens; now rewrite e0].
  1,2,3: exists o; eexists; split; [rewrite <- ?app_assoc; apply skip_spaced; auto; congruence|
    unfold opens; match goal with |- context [tt ?a] => match goal with H : tt a = _ |- _ => rewrite H end end; auto].
  - rewrite <- app_assoc. apply H.
  - exists t; eexists; split; [rewrite <- ?app_assoc; apply skip_spaced; auto; congruence|
    unfold opens; match goal with |- context [tt ?a] => match goal with H : tt a = _ |- _ => rewrite H end end; auto].
  - rewrite <- app_assoc. apply H.
  - rewrite <- app_assoc. apply H.
Qed.

(* One argument of a call. *)
Lemma arg_one : forall seg e acc sw ts x, gram 1 seg e ->
  ev (fun n => bp n false 0 (seg ++ ts)) (POk (e, skip_ws ts)) ->
  ev (fun n => args n false false false true (acc ++ [e]) ts) x ->
  ev (fun n => args n false false true sw acc (seg ++ ts)) x.
Proof.
  intros seg e acc sw ts x G (a & A) (b & B). exists (S (Nat.max a b)). intros [|n] L; [lia|].
  rewrite args_S. destruct (gram_opens _ _ _ G ts) as (t & r & E & O). rewrite E.
  assert (C : is_close false t = false /\ is_sep false t = false).
  { unfold opens in O. unfold is_close, is_sep, is_tok. destruct (tt t); try contradiction; cbn; auto.
    rewrite O. auto. }
  destruct C as [-> ->]. rewrite <- E, bp_skip, A by lia.
  specialize (B n ltac:(lia)). destruct n as [|n]; [rewrite <- B; reflexivity|].
  rewrite args_S in *. rewrite skip_skip. exact B.
Qed.

Lemma glist_opens : forall seg l, glist seg l -> forall rest, exists t r, skip_ws (seg ++ rest) = t :: r /\ opens t.
Proof.
  intros seg l G rest. destruct G.
  - now apply gram_opens with (p := 1) (e := e).
  - rewrite <- app_assoc. now apply gram_opens with (p := 1) (e := e).
Qed.
Lemma args_skip : forall n c k ex sw acc ts, args n c k ex sw acc (skip_ws ts) = args n c k ex sw acc ts.
Proof. destruct n; [reflexivity|]. intros. rewrite !args_S, skip_skip. reflexivity. Qed.

Lemma gram_parse : forall p seg e, gram p seg e ->
  forall m rest x, m <= p -> stops (follow p) rest ->
    ev (fun n => loop n false m e rest) x -> ev (fun n => bp n false m (seg ++ rest)) x.
Proof.
  apply (gram_mut num ref pnum pref
    (fun p seg e _ => forall m rest x, m <= p -> stops (follow p) rest ->
       ev (fun n => loop n false m e rest) x -> ev (fun n => bp n false m (seg ++ rest)) x)
    (fun seg l _ => forall acc sw c sc rest, tt c = TFunc -> tsb c = SClose -> spaced c sc ->
       ev (fun n => args n false false true sw acc (seg ++ sc ++ rest)) (POk (acc ++ l, rest)))).
  - (* operand *)
    intros t seg e T O Sp m rest x _ _ H. apply ev_bp with (l := e) (ts1 := rest); auto.
    exists 1%nat. intros [|n] L; [lia|]. rewrite prefix_S, (skip_spaced t seg rest Sp) by congruence.
    rewrite T, O. reflexivity.
  - (* parentheses *)
    intros o c so sc seg e To So Tc Sc SPo SPc _ IH m rest x _ _ H.
    apply ev_bp with (l := e) (ts1 := rest); auto.
    assert (W : stops (follow 1) (sc ++ rest)).
    { apply (stops_start _ c); auto; try congruence. unfold weak. now rewrite Tc. }
    destruct (IH 0 (sc ++ rest) (POk (e, c :: rest))) as (n & E); [lia|exact W| |].
    { destruct (stops_loop 0 e (sc ++ rest)) as (n & E).
      - apply (stops_start _ c); auto; try congruence. unfold weak. now rewrite Tc.
      - exists n. intros n' L. rewrite E by lia. now rewrite (skip_spaced c sc rest SPc) by congruence. }
    exists (S n). intros [|n'] L; [lia|]. rewrite prefix_S. rewrite <- !app_assoc.
    rewrite (skip_spaced o so _ SPo) by congruence. rewrite To, So. cbn [tsub_eqb].
    rewrite E by lia. cbn [skip_ws]. rewrite Tc. cbn [ttype_eqb]. unfold is_tok. rewrite Tc, Sc. reflexivity.
  - (* call without arguments *)
    intros o c so sc To So Tc Sc SPo SPc m rest x _ _ H.
    apply ev_bp with (l := EFn num ref (removelast (tv o)) []) (ts1 := rest); auto.
    exists 2%nat. intros [|[|n']] L; [lia|lia|]. rewrite prefix_S. rewrite <- !app_assoc.
    rewrite (skip_spaced o so _ SPo) by congruence. rewrite To, enter_S.
    rewrite (skip_spaced c sc _ SPc) by congruence. unfold is_close, is_tok. rewrite Tc, Sc. reflexivity.
  - (* call *)
    intros o c so sc seg l To So Tc Sc SPo SPc G IH m rest x _ _ H.
    apply ev_bp with (l := EFn num ref (removelast (tv o)) l) (ts1 := rest); auto.
    destruct (IH [] false c sc rest Tc Sc SPc) as (n & E). rewrite app_nil_l in E.
    exists (S (S n)). intros [|[|n']] L; [lia|lia|]. rewrite prefix_S. rewrite <- !app_assoc.
    rewrite (skip_spaced o so _ SPo) by congruence. rewrite To, enter_S.
    destruct (glist_opens _ _ G (sc ++ rest)) as (t & r & Et & O). rewrite Et.
    assert (C : is_close false t = false).
    { unfold opens in O. unfold is_close, is_tok. destruct (tt t); try contradiction; cbn; auto. rewrite O. auto. }
    rewrite C. cbn [orb]. rewrite <- Et. rewrite args_skip, E by lia. reflexivity.
  - (* postfix *)
    intros p op t st seg e P T V Sp G IH m rest x Hm F H. rewrite <- app_assoc.
    destruct (postfix_prec p op P) as [Q Fo]. apply IH; auto.
    { apply (stops_start _ t); auto; try congruence. unfold weak. rewrite T, V, Q. cbn [fst]. lia. }
    destruct H as (n & H). exists (S n). intros [|n'] L; [lia|]. rewrite loop_S.
    rewrite (skip_spaced t st rest Sp) by congruence. unfold is_tok. rewrite T, V, Q. cbn [ttype_eqb andb fst].
    destruct (p <? m) eqn:E; [lia|]. apply H. lia.
  - (* sign *)
    intros t st seg e T Sp G IH m rest x Hm F H. rewrite <- app_assoc.
    apply ev_bp with (l := EUn num ref (sem_value t) e) (ts1 := skip_ws rest).
    2: now apply ev_loop_skip in H.
    destruct (IH 6 rest (POk (e, skip_ws rest))) as (n & E); [lia|exact F|now apply stops_loop_ev|].
    exists (S n). intros [|n'] L; [lia|]. rewrite prefix_S, (skip_spaced t st _ Sp) by congruence.
    rewrite T. unfold pre_prec. rewrite E by lia. reflexivity.
  - (* power *)
    intros t st s1 s2 l r T V Sp G1 IH1 G2 IH2 m rest x Hm F H. rewrite <- !app_assoc.
    apply IH1; [lia| |].
    { apply (stops_start _ t); auto; try congruence. unfold weak. rewrite T, V. reflexivity. }
    destruct (IH2 5 rest (POk (r, skip_ws rest))) as (a & A); [lia|exact F|now apply stops_loop_ev|].
    apply ev_loop_skip in H. destruct H as (b & B). exists (S (Nat.max a b)). intros [|n] L; [lia|].
    rewrite loop_S, (skip_spaced t st _ Sp) by congruence. unfold is_tok. rewrite T, V.
    cbn [ttype_eqb andb negb]. change (op_prec (tx "^")) with (5, false). cbv iota beta.
    destruct (5 <? m) eqn:E; [lia|]. rewrite A by lia. apply B. lia.
  - (* binary *)
    intros p op t st s1 s2 l r Bi T V Sp G1 IH1 G2 IH2 m rest x Hm F H. rewrite <- !app_assoc.
    destruct (binary_prec p op Bi) as (Q & Fo & Fo2 & P1). apply IH1; [lia| |].
    { apply (stops_start _ t); auto; try congruence. unfold weak. rewrite T, V, Q. cbn [fst]. lia. }
    destruct (IH2 (p + 1) rest (POk (r, skip_ws rest))) as (a & A); [lia| | |].
    { eapply stops_le; [|exact F]. apply follow_mono. lia. }
    { apply stops_loop_ev. now rewrite Fo in F. }
    apply ev_loop_skip in H. destruct H as (b & B). exists (S (Nat.max a b)). intros [|n] L; [lia|].
    rewrite loop_S, (skip_spaced t st _ Sp) by congruence. unfold is_tok. rewrite T, V, Q.
    cbn [ttype_eqb andb negb]. destruct (p <? m) eqn:E; [lia|]. rewrite A by lia. apply B. lia.
  - (* a tighter expression *)
    intros p q ts e L G IH m rest x Hm F H. apply IH; auto; [lia|].
    eapply stops_le; [|exact F]. now apply follow_mono.
  - (* the last argument *)
    intros ts e G IH acc sw c sc rest Tc Sc SPc.
    assert (W : forall q, stops q (sc ++ rest)).
    { intros q. apply (stops_start _ c); auto; try congruence. unfold weak. now rewrite Tc. }
    apply arg_one with (e := e); auto.
    { apply IH; auto; [lia|]. now apply stops_loop_ev. }
    exists 1%nat. intros [|n] L; [lia|]. rewrite args_S, (skip_spaced c sc rest SPc) by congruence.
    unfold is_sep, is_close, is_tok. rewrite Tc, Sc. reflexivity.
  - (* a further argument *)
    intros ts e t st rest l G IH T Sb Sp GL IHL acc sw c sc rest0 Tc Sc SPc. rewrite <- !app_assoc.
    assert (W : forall q, stops q (st ++ rest ++ sc ++ rest0)).
    { intros q. apply (stops_start _ t); auto; try congruence. unfold weak. now rewrite T. }
    apply arg_one with (e := e); auto.
    { apply IH; auto; [lia|]. now apply stops_loop_ev. }
    destruct (IHL (acc ++ [e]) true c sc rest0 Tc Sc SPc) as (n & E). exists (S n). intros [|n'] L; [lia|].
    rewrite args_S, (skip_spaced t st _ Sp) by congruence. unfold is_sep, is_tok. rewrite T, Sb.
    cbn [ttype_eqb tsub_eqb andb orb]. rewrite E by lia. now rewrite <- app_assoc.
Qed.

Theorem grammar_parsed : forall ts w e, gram 1 ts e -> Forall (fun b => tt b = TWs) w ->
  parse_tokens num ref pnum pref (ts ++ w) = POk e.
Proof.
  intros ts w e G Fw.
  assert (Sk : skip_ws w = []).
  { induction Fw as [|b w Hb Fw IH]; cbn; auto. now rewrite Hb. }
  destruct (gram_opens _ _ _ G w) as (t & r & E & O).
  destruct (gram_parse 1 ts e G 0 w (POk (e, []))) as (n & H); [lia| | |].
  { unfold stops. now rewrite Sk. }
  { rewrite <- Sk. apply stops_loop_ev. unfold stops. now rewrite Sk. }
  pose proof (parse_tokens_total num ref pnum pref (ts ++ w)) as T.
  unfold parse_tokens in *. rewrite E in *.
  assert (NL : ttype_eqb (tt t) TLiteral = false) by (unfold opens in O; destruct (tt t); auto; contradiction).
  rewrite NL in *. set (f := (4 * List.length (ts ++ w) + 4)%nat) in *.
  destruct (bp f false 0 (ts ++ w)) as [[e' r1]| |] eqn:B; [| |congruence].
  - pose proof (bp_more num ref pnum pref f (Nat.max f n) false 0 (ts ++ w) _ (PeanoNat.Nat.le_max_l _ _) B ltac:(discriminate)) as B2.
    rewrite H in B2 by lia. injection B2 as <- <-. reflexivity.
  - pose proof (bp_more num ref pnum pref f (Nat.max f n) false 0 (ts ++ w) _ (PeanoNat.Nat.le_max_l _ _) B ltac:(discriminate)) as B2.
    rewrite H in B2 by lia. discriminate.
Qed.
End G.
