(** The pieces of template keys can be told apart: decimal and hexadecimal numbers,
    strings, counted lists. *)
From Coq Require Import List Bool NArith ZArith String Lia ZifyN ZifyNat ZifyBool DecimalN HexadecimalN.
From Verif Require Import Base LexModel RtModel TkModel.
Import ListNotations.
Open Scope N_scope.

(** What may follow a piece: one of [; : , ) | ]]. *)
Definition stops : list N := [59; 58; 44; 41; 124; 93].
Definition stop (r : text) : Prop := exists c t, r = c :: t /\ In c stops.
(** [w a] can be told from [w b], whatever follows. *)
Definition tells {A} (w : A -> text) (a : A) : Prop :=
  forall b r s, stop r -> stop s -> w a ++ r = w b ++ s -> a = b /\ r = s.

Lemma stop_semi t : stop (semi ++ t). Proof. exists 59, t. split; [reflexivity | cbn; tauto]. Qed.
Lemma stop_colon t : stop (colon ++ t). Proof. exists 58, t. split; [reflexivity | cbn; tauto]. Qed.
Lemma stop_comma t : stop (comma ++ t). Proof. exists 44, t. split; [reflexivity | cbn; tauto]. Qed.
Lemma stop_close t : stop (close ++ t). Proof. exists 41, t. split; [reflexivity | cbn; tauto]. Qed.
Lemma stop_bar t : stop (124 :: t). Proof. exists 124, t. split; [reflexivity | cbn; tauto]. Qed.
Lemma stop_rb t : stop (93 :: t). Proof. exists 93, t. split; [reflexivity | cbn; tauto]. Qed.

(** * Numbers *)
Lemma stop_not r c t (P : N -> Prop) : stop r -> r = c :: t -> P c -> (forall x, In x stops -> ~ P x) -> False.
Proof. intros (x & u & -> & Hx) E Hc HP. injection E as -> ->. exact (HP c Hx Hc). Qed.

Lemma stop_digit x : In x stops -> ~ (48 <= x <= 57).
Proof. cbn. intros [<- | [<- | [<- | [<- | [<- | [<- | []]]]]]]; lia. Qed.
Lemma stop_hex x : In x stops -> ~ (48 <= x <= 57 \/ 97 <= x <= 102).
Proof. cbn. intros [<- | [<- | [<- | [<- | [<- | [<- | []]]]]]]; lia. Qed.
Lemma stop_minus x : In x stops -> ~ (x = 45).
Proof. cbn. intros [<- | [<- | [<- | [<- | [<- | [<- | []]]]]]]; lia. Qed.

Lemma no_digit r c t : stop r -> r = c :: t -> 48 <= c <= 57 -> False.
Proof. intros H E Hc. exact (stop_not r c t _ H E Hc stop_digit). Qed.
Lemma no_hex r c t : stop r -> r = c :: t -> 48 <= c <= 57 \/ 97 <= c <= 102 -> False.
Proof. intros H E Hc. exact (stop_not r c t _ H E Hc stop_hex). Qed.

Lemma uint_tells : forall u v r s, stop r -> stop s -> uint_text u ++ r = uint_text v ++ s -> u = v /\ r = s.
Proof.
  induction u; intros v r s Hr Hs E; destruct v; cbn [uint_text app] in E;
    try (split; [reflexivity | exact E]);
    try discriminate E;
    try (exfalso; apply (no_digit _ _ _ Hr E); lia);
    try (exfalso; apply (no_digit _ _ _ Hs (eq_sym E)); lia);
    injection E as E; destruct (IHu _ _ _ Hr Hs E) as [-> ->]; split; reflexivity.
Qed.

Lemma dec_tells n : tells dec n.
Proof.
  intros m r s Hr Hs E. unfold dec in E.
  destruct (uint_tells _ _ _ _ Hr Hs E) as [H ->]. split; [| reflexivity].
  rewrite <- (DecimalN.Unsigned.of_to n), <- (DecimalN.Unsigned.of_to m). congruence.
Qed.

Lemma to_uint_nonnil n : N.to_uint n <> Decimal.Nil.
Proof. destruct n as [|p]; [discriminate | apply DecimalPos.Unsigned.to_uint_nonnil]. Qed.

Lemma dec_head n : exists c t, dec n = c :: t /\ 48 <= c <= 57.
Proof.
  unfold dec. pose proof (to_uint_nonnil n) as H.
  destruct (N.to_uint n); cbn [uint_text]; [congruence | ..]; eexists _, _; (split; [reflexivity | lia]).
Qed.

Lemma zdec_tells z : tells zdec z.
Proof.
  intros y r s Hr Hs E. unfold zdec in E.
  destruct (dec_head (Z.abs_N z)) as (c & t & Hz & Hc), (dec_head (Z.abs_N y)) as (d & u & Hy & Hd).
  destruct (Z.ltb_spec z 0), (Z.ltb_spec y 0).
  - injection E as E. destruct (dec_tells _ _ _ _ Hr Hs E) as [H1 ->]. split; [lia | reflexivity].
  - rewrite Hy in E. injection E as E1 E2. lia.
  - rewrite Hz in E. injection E as E1 E2. lia.
  - destruct (dec_tells _ _ _ _ Hr Hs E) as [H1 ->]. split; [lia | reflexivity].
Qed.

Lemma hex_text_tells : forall u v r s, stop r -> stop s -> hex_text u ++ r = hex_text v ++ s -> u = v /\ r = s.
Proof.
  induction u; intros v r s Hr Hs E; destruct v; cbn in E;
    try (split; [reflexivity | exact E]);
    try discriminate E;
    try (exfalso; apply (no_hex _ _ _ Hr E); lia);
    try (exfalso; apply (no_hex _ _ _ Hs (eq_sym E)); lia);
    injection E as E; destruct (IHu _ _ _ Hr Hs E) as [-> ->]; split; reflexivity.
Qed.

Lemma pad_value k u : N.of_hex_uint (Nat.iter k Hexadecimal.D0 u) = N.of_hex_uint u.
Proof. induction k as [|k IH]; [reflexivity |]. cbn. exact IH. Qed.

Lemma hex16_tells n : tells hex16 n.
Proof.
  intros m r s Hr Hs E. unfold hex16 in E. cbv zeta in E.
  destruct (hex_text_tells _ _ _ _ Hr Hs E) as [H ->]. split; [| reflexivity].
  apply (f_equal N.of_hex_uint) in H. rewrite !pad_value, !HexadecimalN.Unsigned.of_to in H. exact H.
Qed.

(** * Strings and lists *)
Lemma len_inj {A} (l m : list A) : len l = len m -> List.length l = List.length m.
Proof. unfold len. lia. Qed.

Lemma app_len {A} (a b r s : list A) : List.length a = List.length b -> a ++ r = b ++ s -> a = b /\ r = s.
Proof.
  revert b; induction a as [|x a IH]; intros [|y b] L E; try discriminate L.
  - split; [reflexivity | exact E].
  - cbn in E. injection E as -> E. injection L as L. destruct (IH _ L E) as [-> ->]. split; reflexivity.
Qed.

(** A string needs nothing after it. *)
Lemma w_string_code a b r s : w_string a ++ r = w_string b ++ s -> a = b /\ r = s.
Proof.
  unfold w_string. rewrite <- !app_assoc. intros E.
  destruct (dec_tells _ _ _ _ (stop_colon _) (stop_colon _) E) as [L E2].
  unfold colon in E2. cbn [app] in E2. injection E2 as E2.
  exact (app_len _ _ _ _ (len_inj _ _ L) E2).
Qed.

(** Items that are each followed by one separator. *)
Lemma items_tell {A} (w : A -> text) (sep : N) : In sep stops ->
  forall l, Forall (tells w) l -> forall m r s, List.length l = List.length m ->
    flat_map (fun x => w x ++ [sep]) l ++ r = flat_map (fun x => w x ++ [sep]) m ++ s -> l = m /\ r = s.
Proof.
  intros Hsep l Hl. induction Hl as [|x l Hx Hl IH]; intros [|y m] r s L E; try discriminate L.
  - split; [reflexivity | exact E].
  - cbn [flat_map] in E. rewrite <- !app_assoc in E. cbn [app] in E.
    assert (S1 : forall t, stop (sep :: t)) by (intros t; exists sep, t; split; [reflexivity | exact Hsep]).
    destruct (Hx _ _ _ (S1 _) (S1 _) E) as [-> E2]. injection E2 as E2. injection L as L.
    destruct (IH _ _ _ L E2) as [-> ->]. split; reflexivity.
Qed.

(** A counted list of such items. *)
Lemma counted_tell {A} (w : A -> text) (sep : N) l m r s : In sep stops -> Forall (tells w) l ->
  dec (len l) ++ colon ++ flat_map (fun x => w x ++ [sep]) l ++ r =
  dec (len m) ++ colon ++ flat_map (fun x => w x ++ [sep]) m ++ s -> l = m /\ r = s.
Proof.
  intros Hsep Hl E.
  destruct (dec_tells _ _ _ _ (stop_colon _) (stop_colon _) E) as [L E2].
  unfold colon in E2. cbn [app] in E2. injection E2 as E2.
  exact (items_tell w sep Hsep l Hl m r s (len_inj _ _ L) E2).
Qed.

(** * Induction over nested lists *)
Section LitInd.
Variable P : lit -> Prop.
Hypothesis HA : forall rows, Forall (Forall P) rows -> P (LArr rows).
Hypothesis HL : forall v, is_array v = false -> P v.
Fixpoint lit_ind' (v : lit) : P v :=
  match v with
  | LArr rows =>
      HA rows ((fix rw (l : list (list lit)) : Forall (Forall P) l :=
                  match l with
                  | [] => Forall_nil _
                  | x :: r => Forall_cons x ((fix go (l : list lit) : Forall P l :=
                                                match l with [] => Forall_nil _ | y :: q => Forall_cons y (lit_ind' y) (go q) end) x) (rw r)
                  end) rows)
  | v => HL v eq_refl
  end.
End LitInd.

Section ExprInd.
Variable P : cexpr -> Prop.
Hypothesis H1 : forall v, P (ELit v).
Hypothesis H2 : P EOmit.
Hypothesis H3 : forall c r, P (ERef c r).
Hypothesis H4 : forall op e, P e -> P (EUn op e).
Hypothesis H5 : forall op l r, P l -> P r -> P (EBin op l r).
Hypothesis H6 : forall f args, Forall P args -> P (EFn f args).
Hypothesis H7 : forall x args, P x -> Forall P args -> P (ECall x args).
Hypothesis H8 : forall rows, Forall (Forall P) rows -> P (EArr rows).
Fixpoint cexpr_ind' (e : cexpr) : P e :=
  let go := fix go (l : list cexpr) : Forall P l :=
              match l with [] => Forall_nil _ | y :: q => Forall_cons y (cexpr_ind' y) (go q) end in
  match e with
  | ELit v => H1 v
  | EOmit => H2
  | ERef c r => H3 c r
  | EUn op e => H4 op e (cexpr_ind' e)
  | EBin op l r => H5 op l r (cexpr_ind' l) (cexpr_ind' r)
  | EFn f args => H6 f args (go args)
  | ECall x args => H7 x args (cexpr_ind' x) (go args)
  | EArr rows => H8 rows ((fix rw (l : list (list cexpr)) : Forall (Forall P) l :=
                             match l with [] => Forall_nil _ | x :: r => Forall_cons x (go x) (rw r) end) rows)
  end.
End ExprInd.

Section AstInd.
Variable P : ast -> Prop.
Hypothesis H1 : forall v, P (ALit v).
Hypothesis H2 : P AOmit.
Hypothesis H3 : forall c r, P (ARef c r).
Hypothesis H4 : forall op e, P e -> P (AUn op e).
Hypothesis H5 : forall op l r, P l -> P r -> P (ABin op l r).
Hypothesis H6 : forall f args, Forall P args -> P (AFn f args).
Hypothesis H7 : forall x args, P x -> Forall P args -> P (ACall x args).
Hypothesis H8 : forall rows, Forall (Forall P) rows -> P (AArr rows).
Fixpoint ast_ind' (e : ast) : P e :=
  let go := fix go (l : list ast) : Forall P l :=
              match l with [] => Forall_nil _ | y :: q => Forall_cons y (ast_ind' y) (go q) end in
  match e with
  | ALit v => H1 v
  | AOmit => H2
  | ARef c r => H3 c r
  | AUn op e => H4 op e (ast_ind' e)
  | ABin op l r => H5 op l r (ast_ind' l) (ast_ind' r)
  | AFn f args => H6 f args (go args)
  | ACall x args => H7 x args (ast_ind' x) (go args)
  | AArr rows => H8 rows ((fix rw (l : list (list ast)) : Forall (Forall P) l :=
                             match l with [] => Forall_nil _ | x :: r => Forall_cons x (go x) (rw r) end) rows)
  end.
End AstInd.

(** * Literals *)
Ltac untag H :=
  repeat match type of H with
         | context[tx ?s] => let v := eval vm_compute in (tx s) in change (tx s) with v in H
         end;
  rewrite <- ?app_assoc in H; cbn [app] in H.

Lemma string_end a b r s : w_string a ++ r = w_string b ++ s -> a = b /\ r = s.
Proof. exact (w_string_code a b r s). Qed.

Lemma w_lit_tells : forall v, tells w_lit v.
Proof.
  apply lit_ind'.
  - intros rows IH b r s Hr Hs E. destruct b; cbn [w_lit] in E; try (destruct b); untag E; try discriminate E.
    injection E as E.
    assert (E' : dec (len rows) ++ colon ++ flat_map (fun x => (dec (len x) ++ colon ++ flat_map (fun x => w_lit x ++ [44]) x) ++ [59]) rows ++ 41 :: r
               = dec (len rows0) ++ colon ++ flat_map (fun x => (dec (len x) ++ colon ++ flat_map (fun x => w_lit x ++ [44]) x) ++ [59]) rows0 ++ 41 :: s).
    { rewrite !(flat_map_ext (fun x => (dec (len x) ++ colon ++ flat_map (fun x => w_lit x ++ [44]) x) ++ [59])
                 (fun row => dec (len row) ++ colon ++ flat_map (fun x => w_lit x ++ comma) row ++ semi)); [exact E | ..];
      intros x; rewrite <- !app_assoc; reflexivity. }
    apply counted_tell in E'; [| cbn; tauto |].
    + destruct E' as [-> E']. injection E' as ->. split; reflexivity.
    + apply Forall_forall. intros row Hrow m r' s' Hr' Hs' E2. rewrite <- !app_assoc in E2.
      apply counted_tell in E2; [exact E2 | cbn; tauto |].
      rewrite Forall_forall in IH. exact (IH row Hrow).
  - intros v Hv b r s Hr Hs E.
    destruct v; try discriminate Hv; destruct b; cbn [w_lit] in E;
      repeat match type of E with context[if ?x then _ else _] => destruct x end;
      untag E; try discriminate E; try (injection E as E);
      try (split; [reflexivity | exact E]);
      try (apply string_end in E; destruct E as [-> ->]; split; reflexivity).
    + destruct (zdec_tells _ _ _ _ Hr Hs E) as [-> ->]. split; reflexivity.
    + destruct (hex16_tells _ _ _ _ Hr Hs E) as [-> ->]. split; reflexivity.
Qed.
