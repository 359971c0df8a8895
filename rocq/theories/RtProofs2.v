(* Structured references, and every displayable reference. *)
From Coq Require Import List Bool NArith ZArith Lia String.
From Verif Require Import Base CoordModel LexModel RtModel RtSpec RtProofs.
Import ListNotations.
Open Scope N_scope.

(* ---- trim ---- *)
Lemma drop_idem : forall p s, drop_while p (drop_while p s) = drop_while p s.
Proof.
  intros p s. induction s as [|c s IH]; [reflexivity|]. cbn [drop_while]. destruct (p c) eqn:E; auto.
  cbn [drop_while]. rewrite E. reflexivity.
Qed.
Lemma drop_head : forall p s, match drop_while p s with [] => True | c :: _ => p c = false end.
Proof. intros p s. induction s as [|c s IH]; [exact I|]. cbn [drop_while]. destruct (p c) eqn:E; auto. Qed.
Lemma drop_none : forall p s, match s with [] => True | c :: _ => p c = false end -> drop_while p s = s.
Proof. intros p [|c s] H; [reflexivity|]. cbn [drop_while]. rewrite H. reflexivity. Qed.

Definition trimmed (s : text) : Prop :=
  match s with [] => True | c :: _ => is_space c = false end /\
  match rev s with [] => True | c :: _ => is_space c = false end.
Lemma trim_id : forall s, trimmed s -> trim s = s.
Proof.
  intros s [H1 H2]. unfold trim, trim_start. rewrite (drop_none is_space s H1).
  rewrite (drop_none is_space (rev s) H2). apply rev_involutive.
Qed.
Lemma drop_suffix : forall p s, exists a, s = a ++ drop_while p s.
Proof.
  intros p s. induction s as [|c s [a IH]]; [exists []; reflexivity|]. cbn [drop_while].
  destruct (p c); [exists (c :: a); cbn; congruence|exists []; reflexivity].
Qed.
Lemma trim_trimmed : forall s, trimmed (trim s).
Proof.
  intro s. unfold trim, trim_start. set (u := drop_while is_space s).
  assert (Hu : match u with [] => True | c :: _ => is_space c = false end) by apply drop_head.
  set (v := drop_while is_space (rev u)).
  assert (Hv : match v with [] => True | c :: _ => is_space c = false end) by apply drop_head.
  split; [|rewrite rev_involutive; exact Hv].
  destruct (drop_suffix is_space (rev u)) as [a Ha]. fold v in Ha.
  assert (Eu : u = rev v ++ rev a) by (rewrite <- rev_app_distr, <- Ha, rev_involutive; reflexivity).
  destruct (rev v) as [|c w]; [exact I|]. rewrite Eu in Hu. exact Hu.
Qed.
Lemma trim_trim : forall s, trim (trim s) = trim s.
Proof. intro s. apply trim_id, trim_trimmed. Qed.
Lemma trim_trimmed' : forall s, trim s = s -> trimmed s.
Proof. intros s H. rewrite <- H. apply trim_trimmed. Qed.
Lemma trimmed_ends : forall a m z, is_space a = false -> is_space z = false -> trimmed (a :: m ++ [z]).
Proof.
  intros a m z Ha Hz. split; [exact Ha|].
  change (a :: m ++ [z]) with ((a :: m) ++ [z]). rewrite rev_unit. exact Hz.
Qed.

(* ---- names without special bytes ---- *)
Definition inert (s : text) : Prop := memc c_sq s = false /\ memc c_lb s = false /\ memc c_rb s = false.
Lemma inert_cons : forall c s, inert (c :: s) ->
  c =? c_sq = false /\ c =? c_lb = false /\ c =? c_rb = false /\ inert s.
Proof.
  intros c s (H1 & H2 & H3). rewrite memc_cons in H1, H2, H3.
  apply orb_false_iff in H1, H2, H3. destruct H1, H2, H3.
  rewrite (N.eqb_sym c c_sq), (N.eqb_sym c c_lb), (N.eqb_sym c c_rb). unfold inert. auto 8.
Qed.
Lemma plain_inert : forall c, plain_in_brackets c -> inert c.
Proof. intros c (_ & H1 & H2 & H3 & _). unfold inert. auto. Qed.
Lemma close_inert : forall s n rest, inert s -> close_at n (s ++ c_rb :: rest) =
  match n with O => Some (s, rest)
  | S n' => match close_at n' rest with Some (a, b) => Some (s ++ c_rb :: a, b) | None => None end end.
Proof.
  induction s as [|c s IH]; intros n rest H.
  - cbn [app close_at]. change (c_rb =? c_sq) with false. change (c_rb =? c_lb) with false.
    rewrite N.eqb_refl. destruct n; reflexivity.
  - apply inert_cons in H. destruct H as (H1 & H2 & H3 & H). cbn [app close_at]. rewrite H1, H2, H3, IH by auto.
    destruct n; [reflexivity|]. destruct (close_at n rest) as [[a b]|]; reflexivity.
Qed.
Lemma unescape_inert : forall s, memc c_sq s = false -> unescape s = s.
Proof.
  induction s as [|c s IH]; intro H; [reflexivity|]. rewrite memc_cons in H. apply orb_false_iff in H.
  destruct H as [H1 H2]. cbn [unescape]. rewrite N.eqb_sym, H1, IH by auto. reflexivity.
Qed.
Lemma scan_inert : forall s d pre rest, inert s ->
  scan_top (S d) pre (s ++ c_rb :: rest) = scan_top d (c_rb :: rev s ++ pre) rest.
Proof.
  induction s as [|c s IH]; intros d pre rest H.
  - reflexivity.
  - apply inert_cons in H. destruct H as (H1 & H2 & H3 & H). cbn [app scan_top]. rewrite H1, H2, H3, IH by auto.
    cbn [rev]. rewrite <- app_assoc. cbn [app].
    destruct (scan_top d (c_rb :: rev s ++ c :: pre) rest); reflexivity.
Qed.
Lemma scan_plain : forall s pre, inert s -> memc c_comma s = false -> memc c_colon s = false ->
  scan_top 0 pre s = Some (Scan false false None).
Proof.
  induction s as [|c s IH]; intros pre H Hc Hk; [reflexivity|].
  apply inert_cons in H. destruct H as (H1 & H2 & H3 & H).
  rewrite memc_cons in Hc, Hk. apply orb_false_iff in Hc, Hk. destruct Hc as [Hc1 Hc2]. destruct Hk as [Hk1 Hk2].
  cbn [scan_top]. rewrite H1, H2, H3, IH by auto. rewrite (N.eqb_sym c c_comma), Hc1, (N.eqb_sym c c_colon), Hk1.
  reflexivity.
Qed.
Lemma scan_range : forall a b pre, inert a -> memc c_comma a = false -> memc c_colon a = false ->
  inert b -> memc c_comma b = false -> memc c_colon b = false ->
  scan_top 0 pre (a ++ c_colon :: b) = Some (Scan false false (Some (rev pre ++ a, b))).
Proof.
  induction a as [|c a IH]; intros b pre H Hc Hk Hb Hbc Hbk.
  - cbn [app scan_top]. change (c_colon =? c_sq) with false. change (c_colon =? c_lb) with false.
    change (c_colon =? c_rb) with false. rewrite scan_plain by auto. cbn [s_bracket s_comma s_colon].
    change (c_colon =? c_comma) with false. rewrite N.eqb_refl, app_nil_r. reflexivity.
  - apply inert_cons in H. destruct H as (H1 & H2 & H3 & H).
    rewrite memc_cons in Hc, Hk. apply orb_false_iff in Hc, Hk. destruct Hc as [Hc1 Hc2]. destruct Hk as [Hk1 Hk2].
    cbn [app scan_top]. rewrite H1, H2, H3, IH by auto. cbn [s_bracket s_comma s_colon].
    rewrite (N.eqb_sym c c_comma), Hc1, (N.eqb_sym c c_colon), Hk1.
    cbn [rev]. rewrite <- app_assoc. reflexivity.
Qed.

(* ---- one item of a combination ---- *)
Definition item_text_of (x : tspec) : text :=
  match x with
  | SpRange a b => bracket a ++ c_colon :: bracket b
  | _ => bracket (spec_text x)
  end.
Definition item_trim (x : tspec) : Prop :=
  match x with
  | SpCol c => trim c = c
  | SpRange a b => trim a = a /\ trim b = b
  | _ => True
  end.
Definition rest_ok (rest : text) : Prop := match rest with [] => True | c :: _ => c = c_comma end.

Lemma token_plain : forall c, plain_in_brackets c -> trim c = c -> token_spec c = Some (SpCol c).
Proof.
  intros c (Hn & Hq & _ & _ & Hh & Ha) Ht. unfold token_spec. rewrite Ht. destruct c as [|x c]; [contradiction|].
  cbn [starts] in Hh, Ha. rewrite Hh, Ha. unfold unescape_name. rewrite unescape_inert by auto. rewrite Ht. reflexivity.
Qed.
Lemma token_range_plain : forall a b, plain_in_brackets a -> plain_in_brackets b -> trim a = a -> trim b = b ->
  token_range a b = Some (SpRange a b).
Proof.
  intros a b (Hn & Hq & _ & _ & Hh & Ha) (Hn2 & Hq2 & _ & _ & Hh2 & Ha2) Ht Ht2. unfold token_range.
  rewrite Ht, Ht2. destruct a as [|x a]; [contradiction|]. destruct b as [|y b]; [contradiction|].
  cbn [starts] in *. rewrite Hh, Ha, Hh2, Ha2. cbn [orb]. unfold unescape_name.
  rewrite !unescape_inert by auto. rewrite Ht, Ht2. reflexivity.
Qed.
Lemma item_inert : forall i, inert (item_text i).
Proof. destruct i; vm_compute; auto. Qed.

Lemma rest_skip : forall rest, rest_ok rest -> skip_item_ws rest = rest.
Proof. intros [|c r] H; [reflexivity|]. rewrite H. reflexivity. Qed.

Lemma item_read : forall x rest, item_ok x -> item_trim x -> rest_ok rest ->
  parse_item (item_text_of x ++ rest) = Some (x, rest).
Proof.
  assert (One : forall inner x rest, inert inner -> token_spec inner = Some x -> rest_ok rest ->
    parse_item (bracket inner ++ rest) = Some (x, rest)).
  { intros inner x rest Hi Ht Hr. unfold bracket. cbn [app]. rewrite <- app_assoc. cbn [app].
    unfold parse_item, skip_item_ws at 1. cbn [drop_while]. change (item_ws c_lb) with false. cbn iota.
    rewrite N.eqb_refl. rewrite close_inert by auto. rewrite rest_skip by auto. rewrite Ht.
    destruct rest as [|d r]; [reflexivity|]. cbn in Hr. rewrite Hr. reflexivity. }
  intros x rest Hk Ht Hr. destruct x as [| |c|a b|i|l]; cbn [item_ok item_trim] in *; try contradiction.
  - cbn [item_text_of spec_text]. apply One; auto using plain_inert, token_plain.
  - destruct Hk as [Ka Kb]. destruct Ht as [Ta Tb]. cbn [item_text_of]. unfold bracket.
    cbn [app]. rewrite <- !app_assoc. cbn [app]. rewrite <- !app_assoc. cbn [app].
    unfold parse_item, skip_item_ws at 1. cbn [drop_while]. change (item_ws c_lb) with false. cbn iota.
    rewrite N.eqb_refl. rewrite close_inert by auto using plain_inert.
    unfold skip_item_ws at 1. cbn [drop_while]. change (item_ws c_colon) with false. cbn iota.
    rewrite N.eqb_refl. unfold skip_item_ws at 1. cbn [drop_while]. change (item_ws c_lb) with false. cbn iota.
    rewrite N.eqb_refl. rewrite close_inert by auto using plain_inert.
    rewrite token_range_plain by auto. reflexivity.
  - cbn [item_text_of spec_text]. apply One; auto using item_inert. destruct i; reflexivity.
Qed.

Lemma item_start : forall x r, exists t, item_text_of x ++ r = c_lb :: t.
Proof. intros [| | | | |] r; cbn [item_text_of]; unfold bracket; cbn [app]; eauto. Qed.
Lemma item_len : forall x, (1 <= List.length (item_text_of x))%nat.
Proof. intro x. destruct (item_start x []) as [t H]. rewrite app_nil_r in H. rewrite H. cbn. lia. Qed.

Lemma spec_text_comb : forall l, spec_text (SpComb l) = join_comma (map item_text_of l).
Proof.
  intro l. change (spec_text (SpComb l)) with
    (join_comma (map (fun x => match x with
                                | SpRange a b => bracket a ++ c_colon :: bracket b
                                | _ => bracket (spec_text x)
                                end) l)).
  first [reflexivity | f_equal; apply map_ext; intros []; reflexivity].
Qed.

Lemma items_read : forall l n, l <> [] -> Forall item_ok l -> Forall item_trim l ->
  (List.length l <= n)%nat -> parse_items n (join_comma (map item_text_of l)) = Some l.
Proof.
  induction l as [|x l IH]; intros n Hn Hk Ht Hlen; [contradiction|].
  inversion Hk; subst. inversion Ht; subst. destruct n as [|n]; [cbn in Hlen; lia|].
  cbn [map parse_items]. destruct l as [|y l].
  - cbn [map join_comma]. rewrite <- (app_nil_r (item_text_of x)), item_read by (auto; exact I). reflexivity.
  - change (join_comma (item_text_of x :: map item_text_of (y :: l)))
      with (item_text_of x ++ c_comma :: join_comma (map item_text_of (y :: l))).
    rewrite item_read by (auto; reflexivity).
    unfold skip_item_ws at 1. cbn [drop_while]. change (item_ws c_comma) with false. cbn iota.
    rewrite N.eqb_refl.
    assert (Es : skip_item_ws (join_comma (map item_text_of (y :: l))) = join_comma (map item_text_of (y :: l))).
    { assert (Q : exists t, join_comma (map item_text_of (y :: l)) = c_lb :: t).
      { cbn [map]. destruct (map item_text_of l) as [|z zs]; cbn [join_comma].
        - destruct (item_start y []) as [t Q]. rewrite app_nil_r in Q. eauto.
        - apply item_start. }
      destruct Q as [t ->]. reflexivity. }
    rewrite Es, IH; auto; [discriminate|cbn in Hlen |- *; lia].
Qed.

(* Brackets of a combination are balanced. *)
Lemma item_close : forall x rest, item_ok x ->
  close_at 0 (item_text_of x ++ rest)
  = match close_at 0 rest with Some (a, b) => Some (item_text_of x ++ a, b) | None => None end.
Proof.
  assert (One : forall inner rest, inert inner ->
    close_at 0 (bracket inner ++ rest)
    = match close_at 0 rest with Some (a, b) => Some (bracket inner ++ a, b) | None => None end).
  { intros inner rest H. unfold bracket. cbn [app]. rewrite <- app_assoc. cbn [app close_at].
    change (c_lb =? c_sq) with false. rewrite N.eqb_refl. cbn iota. rewrite close_inert by auto.
    destruct (close_at 0 rest) as [[a b]|]; [|reflexivity]. rewrite <- app_assoc. reflexivity. }
  intros x rest Hk. destruct x as [| |c|a b|i|l]; cbn [item_ok] in *; try contradiction.
  - apply One. apply plain_inert; auto.
  - destruct Hk as [Ka Kb]. cbn [item_text_of]. rewrite <- app_assoc. rewrite One by auto using plain_inert.
    cbn [app close_at]. change (c_colon =? c_sq) with false. change (c_colon =? c_lb) with false.
    change (c_colon =? c_rb) with false. cbn iota. rewrite One by auto using plain_inert.
    destruct (close_at 0 rest) as [[u v]|]; [|reflexivity]. rewrite <- app_assoc. reflexivity.
  - apply One. apply item_inert.
Qed.
Lemma items_close : forall l rest, Forall item_ok l ->
  close_at 0 (join_comma (map item_text_of l) ++ c_rb :: rest) = Some (join_comma (map item_text_of l), rest).
Proof.
  induction l as [|x l IH]; intros rest H; [reflexivity|]. inversion H; subst. cbn [map]. destruct l as [|y l].
  - cbn [map join_comma]. rewrite item_close by auto. cbn [close_at].
    change (c_rb =? c_sq) with false. change (c_rb =? c_lb) with false. rewrite N.eqb_refl. cbn iota.
    rewrite app_nil_r. reflexivity.
  - change (join_comma (item_text_of x :: map item_text_of (y :: l)))
      with (item_text_of x ++ c_comma :: join_comma (map item_text_of (y :: l))).
    rewrite <- app_assoc, item_close by auto. cbn [app close_at].
    change (c_comma =? c_sq) with false. change (c_comma =? c_lb) with false.
    change (c_comma =? c_rb) with false. cbn iota. rewrite IH by auto. reflexivity.
Qed.
Lemma item_scan : forall x pre rest, item_ok x -> (forall pre', scan_top 0 pre' rest <> None) ->
  exists k, scan_top 0 pre (item_text_of x ++ rest) = Some k /\ s_bracket k = true.
Proof.
  assert (One : forall inner pre rest, inert inner -> (forall pre', scan_top 0 pre' rest <> None) ->
    exists k, scan_top 0 pre (bracket inner ++ rest) = Some k /\ s_bracket k = true).
  { intros inner pre rest H Hr. unfold bracket. cbn [app]. rewrite <- app_assoc. cbn [app scan_top].
    change (c_lb =? c_sq) with false. rewrite N.eqb_refl. cbn iota. rewrite scan_inert by auto.
    specialize (Hr (c_rb :: rev inner ++ c_lb :: pre)).
    destruct (scan_top 0 (c_rb :: rev inner ++ c_lb :: pre) rest) as [k|]; [|contradiction].
    eexists. split; reflexivity. }
  intros x pre rest Hk Hr. destruct x as [| |c|a b|i|l]; cbn [item_ok] in *; try contradiction.
  - apply One; auto using plain_inert.
  - destruct Hk as [Ka Kb]. cbn [item_text_of]. rewrite <- app_assoc. apply One; auto using plain_inert.
    intro pre'. cbn [app scan_top]. change (c_colon =? c_sq) with false. change (c_colon =? c_lb) with false.
    change (c_colon =? c_rb) with false. cbn iota.
    destruct (One b (c_colon :: pre') rest) as [k [-> _]]; auto using plain_inert. discriminate.
  - apply One; [apply item_inert|exact Hr].
Qed.
Lemma items_scan : forall l pre, l <> [] -> Forall item_ok l ->
  exists k, scan_top 0 pre (join_comma (map item_text_of l)) = Some k /\ s_bracket k = true.
Proof.
  induction l as [|x l IH]; intros pre Hn H; [contradiction|]. inversion H; subst. cbn [map]. destruct l as [|y l].
  - cbn [map join_comma]. rewrite <- (app_nil_r (item_text_of x)). apply item_scan; auto. discriminate.
  - change (join_comma (item_text_of x :: map item_text_of (y :: l)))
      with (item_text_of x ++ c_comma :: join_comma (map item_text_of (y :: l))).
    apply item_scan; auto. intro pre'. cbn [scan_top]. change (c_comma =? c_sq) with false.
    change (c_comma =? c_lb) with false. change (c_comma =? c_rb) with false. cbn iota.
    destruct (IH (c_comma :: pre')) as [k [-> _]]; auto; discriminate.
Qed.

Lemma item_last : forall x, exists t, item_text_of x = t ++ [c_rb].
Proof.
  intros [| |c|a b|i|l]; cbn [item_text_of]; unfold bracket.
  1-3: eexists (c_lb :: _); reflexivity.
  - exists (c_lb :: (a ++ [c_rb]) ++ c_colon :: c_lb :: b). cbn [app]. rewrite <- !app_assoc. reflexivity.
  - eexists (c_lb :: _); reflexivity.
  - eexists (c_lb :: _); reflexivity.
Qed.
Lemma items_form : forall l, l <> [] -> exists m, join_comma (map item_text_of l) = c_lb :: m ++ [c_rb].
Proof.
  induction l as [|x l IH]; intro Hn; [contradiction|].
  assert (Q : exists m, item_text_of x = c_lb :: m ++ [c_rb]).
  { destruct (item_start x []) as [t Ht]. rewrite app_nil_r in Ht. destruct (item_last x) as [u Hu].
    rewrite Ht in Hu. destruct u as [|c u]; cbn [app] in Hu.
    - injection Hu as Hc _. discriminate.
    - injection Hu as <- ->. rewrite Ht. eauto. }
  destruct Q as [m Em]. destruct l as [|y l].
  - cbn [map join_comma]. eauto.
  - destruct IH as [m2 E2]; [discriminate|].
    change (join_comma (map item_text_of (x :: y :: l)))
      with (item_text_of x ++ c_comma :: join_comma (map item_text_of (y :: l))).
    rewrite Em, E2. exists ((m ++ [c_rb]) ++ c_comma :: c_lb :: m2).
    cbn [app]. rewrite <- !app_assoc. reflexivity.
Qed.

(* ---- specifiers ---- *)
Definition spec_trim (sp : tspec) : Prop :=
  match sp with
  | SpCol c => trim c = c
  | SpRange a b => trim a = a /\ trim b = b
  | SpComb l => (2 <= List.length l)%nat /\ Forall item_trim l
  | _ => True
  end.
Definition inner_text (sp : tspec) : text :=
  match sp with
  | SpCol c => trim c
  | SpRange a b => trim a ++ c_colon :: trim b
  | _ => spec_text sp
  end.

Lemma inert_app : forall a b, inert a -> inert b -> inert (a ++ b).
Proof.
  intros a b (A1 & A2 & A3) (B1 & B2 & B3). unfold inert. rewrite !memc_app, A1, A2, A3, B1, B2, B3. auto.
Qed.

Lemma trimmed_range : forall a b, trim a = a -> trim b = b -> a <> [] -> b <> [] -> trim (a ++ c_colon :: b) = a ++ c_colon :: b.
Proof.
  intros a b Ha Hb Na Nb. apply trim_trimmed' in Ha, Hb. apply trim_id. split.
  - destruct a as [|x a]; [contradiction|]. apply Ha.
  - rewrite rev_app_distr. cbn [rev]. destruct Hb as [_ Hb]. destruct (rev b) as [|z zs] eqn:E.
    + assert (b = []) by (rewrite <- (rev_involutive b), E; reflexivity). contradiction.
    + exact Hb.
Qed.

Lemma comb_length : forall l, (List.length l <= List.length (join_comma (map item_text_of l)))%nat.
Proof.
  induction l as [|x l IH]; [cbn; lia|]. pose proof (item_len x) as Hx. destruct l as [|y l].
  - cbn [map join_comma List.length]. exact Hx.
  - change (join_comma (map item_text_of (x :: y :: l)))
      with (item_text_of x ++ c_comma :: join_comma (map item_text_of (y :: l))).
    rewrite app_length. cbn [List.length] in *. lia.
Qed.

Lemma spec_read : forall sp, spec_ok sp -> spec_trim sp ->
  full_specifier (bracket (inner_text sp)) = Some (Some (canon_spec sp)).
Proof.
  assert (Go : forall inner sp, close_at 0 (inner ++ [c_rb]) = Some (inner, []) ->
    parse_content inner = Some sp -> full_specifier (bracket inner) = Some (Some sp)).
  { intros inner sp Hc Hp. unfold bracket, full_specifier. rewrite N.eqb_refl, Hc, Hp. reflexivity. }
  intros sp Hk Ht. destruct sp as [| |c|a b|i|l]; cbn [spec_ok spec_trim inner_text canon_spec] in *.
  - reflexivity.
  - reflexivity.
  - destruct Hk as (Hp & Hcm & Hcl). rewrite Ht. pose proof (plain_inert c Hp) as Hi.
    destruct Hp as (Hn & Hq & _ & _ & Hh & Ha).
    apply Go; [apply close_inert; auto|]. unfold parse_content. rewrite Ht.
    destruct c as [|x c]; [contradiction|]. cbn [starts] in Hh, Ha. rewrite Ha.
    rewrite scan_plain by auto. cbn [s_bracket s_comma s_colon]. rewrite Hh.
    unfold unescape_name. rewrite unescape_inert by auto. rewrite Ht. reflexivity.
  - destruct Hk as [(Pa & Ca & Ka) (Pb & Cb & Kb)]. destruct Ht as [Ta Tb]. rewrite Ta, Tb.
    pose proof (plain_inert a Pa) as Ia. pose proof (plain_inert b Pb) as Ib.
    destruct Pa as (Na & Qa & _ & _ & Ha & Aa). destruct Pb as (Nb & Qb & _ & _ & Hb & Ab).
    apply Go.
    { apply close_inert. apply inert_app; [exact Ia|]. destruct Ib as (B1 & B2 & B3).
      unfold inert. rewrite !memc_cons, B1, B2, B3. auto. }
    unfold parse_content. rewrite trimmed_range by auto.
    destruct a as [|x a]; [contradiction|]. cbn [starts] in Aa. cbn [app]. rewrite Aa.
    change (x :: a ++ c_colon :: b) with ((x :: a) ++ c_colon :: b).
    rewrite scan_range by auto. cbn [s_bracket s_comma s_colon rev app]. rewrite Ta, Tb.
    destruct b as [|y b]; [contradiction|]. unfold column_range, unescape_name.
    rewrite !unescape_inert by auto. rewrite Ta, Tb. reflexivity.
  - destruct i; reflexivity.
  - destruct Ht as [Hlen Ht]. rewrite spec_text_comb.
    assert (Hne : l <> []) by (destruct l; [cbn in Hlen; lia|discriminate]).
    apply Go; [apply items_close; auto|].
    destruct (items_form l Hne) as [m Em].
    assert (Tr : trim (join_comma (map item_text_of l)) = join_comma (map item_text_of l)).
    { rewrite Em. apply trim_id. apply trimmed_ends; reflexivity. }
    unfold parse_content. rewrite Tr. destruct (items_scan l [] Hne Hk) as [k [Ek Bk]]. rewrite Ek, Bk.
    assert (Hc : combination (join_comma (map item_text_of l)) = Some (SpComb l)).
    { unfold combination.
      assert (Es : skip_item_ws (join_comma (map item_text_of l)) = join_comma (map item_text_of l))
        by (rewrite Em; reflexivity).
      rewrite Es. pose proof (items_read l (List.length (join_comma (map item_text_of l))) Hne Hk Ht
        (comb_length l)) as Hr.
      rewrite Em in Hr |- *. rewrite Hr. destruct l as [|x [|y l]]; [contradiction|cbn in Hlen; lia|reflexivity]. }
    rewrite Hc, Em. reflexivity.
Qed.

(* ---- what the parser yields ---- *)
Definition item_wf (sp : tspec) : Prop := item_trim sp.
Lemma unescape_name_trim : forall s, trim (unescape_name s) = unescape_name s.
Proof. intro s. apply trim_trim. Qed.

Lemma at_wf : forall s sp, at_shorthand s = Some sp -> spec_trim sp /\ item_trim sp.
Proof.
  intros s sp H. unfold at_shorthand in H. destruct s as [|c s]; [injection H as <-; split; exact I|].
  destruct (match strip_outer (trim (c :: s)) with Some s0 => s0 | None => trim (c :: s) end); [discriminate|].
  injection H as <-. split; [|exact I]. split; [cbn; lia|].
  repeat constructor. apply unescape_name_trim.
Qed.
Lemma token_wf : forall s sp, token_spec s = Some sp -> spec_trim sp /\ item_trim sp.
Proof.
  intros s sp H. unfold token_spec in H. destruct (trim s) as [|c r] eqn:E; [discriminate|].
  destruct (c =? c_hash).
  - destruct (special_token (c :: r)); [|discriminate]. injection H as <-. split; exact I.
  - destruct (c =? c_at).
    + destruct (trim r); [injection H as <-; split; exact I|]. apply at_wf in H. exact H.
    + injection H as <-. split; apply unescape_name_trim.
Qed.
Lemma token_range_wf : forall a b sp, token_range a b = Some sp -> spec_trim sp /\ item_trim sp.
Proof.
  intros a b sp H. unfold token_range in H. destruct (trim a) as [|x l]; [discriminate|].
  destruct (trim b) as [|y r]; [discriminate|].
  destruct ((x =? c_hash) || (x =? c_at) || (y =? c_hash) || (y =? c_at)); [discriminate|].
  injection H as <-. split; split; apply unescape_name_trim.
Qed.
Lemma parse_item_wf : forall s sp r, parse_item s = Some (sp, r) -> spec_trim sp /\ item_trim sp.
Proof.
  intros s sp r H. unfold parse_item in H. destruct (skip_item_ws s) as [|c s1]; [discriminate|].
  destruct (c =? c_lb); [|discriminate]. destruct (close_at 0 s1) as [[first rest]|]; [|discriminate].
  cbv zeta in H.
  assert (P : match token_spec first with Some sp0 => Some (sp0, rest) | None => None end = Some (sp, r) ->
    spec_trim sp /\ item_trim sp).
  { destruct (token_spec first) eqn:E; [|discriminate]. intro Q. injection Q as -> _. eapply token_wf; eauto. }
  destruct (skip_item_ws rest) as [|d r1]; auto. destruct (d =? c_colon); auto.
  destruct (skip_item_ws r1) as [|e r2]; [discriminate|]. destruct (e =? c_lb); [|discriminate].
  destruct (close_at 0 r2) as [[second rest2]|]; [|discriminate].
  destruct (token_range first second) eqn:E; [|discriminate]. injection H as -> _. eapply token_range_wf; eauto.
Qed.
Lemma parse_items_wf : forall n s l, parse_items n s = Some l ->
  l <> [] /\ Forall (fun sp => spec_trim sp /\ item_trim sp) l.
Proof.
  induction n as [|n IH]; intros s l H; [discriminate|]. cbn [parse_items] in H.
  destruct (parse_item s) as [[sp rest]|] eqn:E; [|discriminate]. apply parse_item_wf in E.
  destruct (skip_item_ws rest) as [|c r].
  - injection H as <-. split; [discriminate|]. repeat constructor; apply E.
  - destruct (c =? c_comma); [|discriminate].
    destruct (parse_items n (skip_item_ws r)) as [l0|] eqn:E2; [|discriminate]. injection H as <-.
    apply IH in E2. split; [discriminate|]. constructor; [exact E|apply E2].
Qed.
Lemma content_wf : forall s sp, parse_content s = Some sp -> spec_trim sp.
Proof.
  intros s sp H. unfold parse_content in H. destruct (trim s) as [|c r] eqn:Et; [injection H as <-; exact I|].
  destruct (c =? c_at); [apply at_wf in H; apply H|].
  destruct (scan_top 0 [] (c :: r)) as [k|]; [|discriminate].
  destruct (s_bracket k).
  - unfold combination in H. destruct (skip_item_ws (c :: r)) as [|x y]; [injection H as <-; exact I|].
    destruct (parse_items (List.length (x :: y)) (x :: y)) as [l|] eqn:E; [|discriminate].
    apply parse_items_wf in E. destruct E as [Hn Hall].
    destruct l as [|p [|q l]]; [contradiction| |].
    + injection H as <-. inversion Hall; subst. tauto.
    + injection H as <-. split; [cbn; lia|]. eapply Forall_impl; [|exact Hall]. intros z [_ Hz]. exact Hz.
  - destruct (s_comma k); [discriminate|]. destruct (s_colon k) as [[a b]|].
    + unfold column_range in H. destruct (trim a); [discriminate|]. destruct (trim b); [discriminate|].
      injection H as <-. split; apply unescape_name_trim.
    + destruct (c =? c_hash).
      * destruct (special_token (c :: r)); [|discriminate]. injection H as <-. exact I.
      * injection H as <-. apply unescape_name_trim.
Qed.
Lemma full_wf : forall s sp, s <> [] -> full_specifier s = Some sp -> exists x, sp = Some x /\ spec_trim x.
Proof.
  intros s sp Hn H. unfold full_specifier in H. destruct s as [|c r]; [contradiction|].
  destruct (c =? c_lb); [|discriminate]. destruct (close_at 0 r) as [[content [|]]|]; try discriminate.
  destruct (parse_content content) as [x|] eqn:E; [|discriminate]. injection H as <-.
  exists x. split; [reflexivity|]. eapply content_wf; eauto.
Qed.

Definition wf (r : reft) : Prop :=
  match r with
  | RCell sh row col _ _ => no_ext sh /\ 1 <= row <= 1048576 /\ 1 <= col <= 16384
  | RRange sh b => no_ext sh /\ box_ok b
  | RCell3 f l row col _ _ => f <> [] /\ l <> [] /\ 1 <= row <= 1048576 /\ 1 <= col <= 16384
  | RRange3 f l b => f <> [] /\ l <> [] /\ box_ok b
  | RExtCell raw _ _ row col _ _ => parse_ref raw = Some r /\ 1 <= row <= 1048576 /\ 1 <= col <= 16384
  | RExtRange raw _ _ b => parse_ref raw = Some r /\ box_ok b
  | RTable n sp => trim n = n /\ exists s, sp = Some s /\ spec_trim s /\ (n = [] -> forall c, s <> SpCol c)
  | RName n => parse_ref n = Some r
  end.

Lemma parse_3d_wf : forall f l p r, parse_3d f l p = Some r -> wf r.
Proof.
  intros f l p r H. unfold parse_3d in H. destruct f as [|x f]; [discriminate|]. destruct l as [|y l]; [discriminate|].
  destruct p as [|z p]; [discriminate|]. destruct (memc c_lb (z :: p)); [discriminate|].
  destruct (memc c_colon (z :: p)).
  - destruct (range_box (z :: p)) as [b|] eqn:E; [|discriminate]. injection H as <-. apply box_parsed in E.
    cbn [wf]. repeat split; try discriminate; apply E.
  - destruct (parse_a1_components (z :: p)) as [[[[row col] ra] ca]| |] eqn:E; try discriminate.
    injection H as <-. apply a1_bound in E. cbn [wf]. repeat split; try discriminate; apply E.
Qed.
Lemma table_wf : forall s r, table_reference s = Some r -> wf r.
Proof.
  intros s r H. unfold table_reference in H. destruct (cut c_lb s) as [[name spec]|]; [|discriminate].
  destruct (trim name) as [|c n] eqn:E; [discriminate|].
  destruct (full_specifier (c_lb :: spec)) as [sp|] eqn:Es; [|discriminate]. injection H as <-.
  apply full_wf in Es; [|discriminate]. destruct Es as [x [-> Hx]]. cbn [wf].
  split; [rewrite <- E; apply trim_trim|]. exists x. split; [reflexivity|]. split; [exact Hx|discriminate].
Qed.
Lemma bracketed_wf : forall s r, s <> [] -> bracketed_reference s = Some r -> wf r.
Proof.
  intros s r Hn H. unfold bracketed_reference in H. destruct (full_specifier s) as [sp|] eqn:Es; [|discriminate].
  apply full_wf in Es; auto. destruct Es as [x [-> Hx]].
  destruct x as [| |c|a b|i|l]; injection H as <-; cbn [wf];
    try (split; [reflexivity|]; eexists; split; [reflexivity|]; split; [exact Hx|discriminate]).
  split; [exact Hx|]. eexists. split; [reflexivity|]. split; [exact I|discriminate].
Qed.

Lemma parse_wf : forall t r, parse_ref t = Some r -> wf r.
Proof.
  intros t r H0. pose proof H0 as H. unfold parse_ref in H.
  destruct (starts c_lb t && ends c_rb t && negb (memc c_bang t)) eqn:Eb.
  { eapply bracketed_wf; eauto. intros ->. discriminate. }
  destruct (extract_sheet t) as [spec part] eqn:Ex.
  assert (K : forall sheet,
     (if memc c_lb part
       then if r1c1_shape part then Some (RName t) else table_reference part
       else
        if memc c_colon part
        then
         match range_box part with
         | Some b => Some match match sheet with Some n => external_sheet n | None => None end with
               | Some (book, name) => RExtRange t book name b
               | None => RRange sheet b
               end
         | None => None
         end
        else
         match parse_a1_components part with
         | Ok (row, col, ra, ca) =>
             Some match match sheet with Some n => external_sheet n | None => None end with
               | Some (book, name) => RExtCell t book name row col ra ca
               | None => RCell sheet row col ra ca
               end
         | _ => Some (RName t)
         end) = Some r -> wf r).
  { intros sheet K. destruct (memc c_lb part).
    - destruct (r1c1_shape part); [injection K as <-; exact H0|]. eapply table_wf; eauto.
    - destruct (memc c_colon part).
      + destruct (range_box part) as [b|] eqn:Er; [|discriminate]. apply box_parsed in Er.
        injection K as K. destruct (match sheet with Some n => external_sheet n | None => None end) as [[book name]|] eqn:Ee;
          subst r; cbn [wf]; [split; auto|]. split; [|exact Er]. destruct sheet; [exact Ee|exact I].
      + destruct (parse_a1_components part) as [[[[row col] ra] ca]| |] eqn:Ea.
        * apply a1_bound in Ea. injection K as K.
          destruct (match sheet with Some n => external_sheet n | None => None end) as [[book name]|] eqn:Ee;
          subst r; cbn [wf]; [split; auto|]. split; [|exact Ea]. destruct sheet; [exact Ee|exact I].
        * injection K as <-. exact H0.
        * injection K as <-. exact H0. }
  destruct spec as [|n|f l].
  - apply (K None). exact H.
  - apply (K (Some n)). exact H.
  - eapply parse_3d_wf; eauto.
Qed.

(* ---- every displayable reference ---- *)
Lemma ends_last : forall s c, ends c (s ++ [c]) = true.
Proof.
  intros s c. unfold ends. destruct (s ++ [c]) eqn:E; [destruct s; discriminate|].
  rewrite <- E, last_last. apply N.eqb_refl.
Qed.

Lemma read_table : forall n sp, trim n = n -> spec_trim sp -> (n = [] -> forall c, sp <> SpCol c) ->
  displayable (RTable n (Some sp)) ->
  parse_ref (show_ref (RTable n (Some sp))) = Some (canon (RTable n (Some sp))).
Proof.
  intros n sp Ht Hs Hc (Hl & Hb & Hr & Hk).
  assert (Es : show_ref (RTable n (Some sp)) = n ++ bracket (inner_text sp)) by (destruct sp; reflexivity).
  rewrite Es in *. pose proof (spec_read sp Hk Hs) as Hsp. cbn [canon]. destruct n as [|x n].
  - cbn [app] in *. unfold parse_ref. rewrite Hb.
    assert (E : starts c_lb (bracket (inner_text sp)) && ends c_rb (bracket (inner_text sp)) && negb false = true).
    { unfold bracket. cbn [starts]. rewrite N.eqb_refl.
      change (c_lb :: inner_text sp ++ [c_rb]) with ((c_lb :: inner_text sp) ++ [c_rb]). rewrite ends_last. reflexivity. }
    rewrite E. unfold bracketed_reference. rewrite Hsp.
    assert (Q : forall c, canon_spec sp <> SpCol c).
    { intros c E2. destruct sp as [| |c0|a b|i|l]; cbn in E2; try discriminate; [apply (Hc eq_refl c0); reflexivity|].
      destruct i; discriminate. }
    destruct (canon_spec sp) as [| |c0| | |]; try reflexivity. exfalso. apply (Q c0). reflexivity.
  - unfold parse_ref. rewrite Hb.
    assert (E : starts c_lb ((x :: n) ++ bracket (inner_text sp)) = false).
    { cbn [app starts]. rewrite memc_cons in Hl. apply orb_false_iff in Hl. rewrite N.eqb_sym. apply Hl. }
    rewrite E. cbn [andb]. rewrite extract_none by auto.
    assert (M : memc c_lb ((x :: n) ++ bracket (inner_text sp)) = true).
    { rewrite memc_app, Hl. reflexivity. }
    rewrite M, Hr. unfold table_reference. unfold bracket at 1. rewrite cut_app by auto. rewrite Ht.
    unfold bracket in Hsp. rewrite Hsp. reflexivity.
Qed.

Theorem display_reads : forall t r, parse_ref t = Some r -> displayable r ->
  parse_ref (show_ref r) = Some (canon r).
Proof.
  intros t r H D. pose proof (parse_wf t r H) as W.
  destruct r as [sh row col ra ca|sh b|f l row col ra ca|f l b|raw bk sh row col ra ca|raw bk sh b|n sp|n];
    cbn [wf displayable canon] in *.
  - destruct W as (W1 & W2 & W3). apply read_cell; auto.
  - destruct W as (W1 & W2). apply read_box; auto.
  - destruct W as (W1 & W2 & W3 & W4). destruct D. apply read_cell3; auto.
  - destruct W as (W1 & W2 & W3). destruct D. apply read_box3; auto.
  - apply W.
  - apply W.
  - destruct W as (W1 & s & -> & W2 & W3). apply read_table; auto.
  - exact W.
Qed.
