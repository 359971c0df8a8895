(* Dependencies of a range, 3D sheets, escaped columns and OpenFormula. *)
From Coq Require Import List Bool NArith ZArith Lia String.
From Coq Require Import ZifyN ZifyNat ZifyBool.
From Verif Require Import Base CoordModel CoordSpec CoordProofs LexModel LexProofs RtModel RtSpec RtProofs RtProofs2.
Import ListNotations.
Open Scope N_scope.

(* ---- both dialects ---- *)
Lemma open_wf : forall t r, parse_open t = Some r -> exists u, parse_ref u = Some r.
Proof.
  intros t r H. unfold parse_open in H. destruct t as [|c [|x y]]; try discriminate.
  destruct ((c =? c_lb) && (last (x :: y) 0 =? c_rb)); [|discriminate].
  destruct (removelast (x :: y)) as [|i j]; [discriminate|]. set (inner := i :: j) in *.
  destruct (match cut c_colon inner with Some (a, b) => (a, Some b) | None => (inner, None) end) as [a b].
  destruct (of_part a) as [[sh1 k1]|]; [|discriminate].
  destruct (match b with Some b => match of_part b with Some x => Some (Some x) | None => None end | None => Some None end)
    as [[[sh2 k2]|]|]; try discriminate.
  - destruct sh1 as [n|]; destruct sh2 as [m|]; try (eexists; exact H).
    destruct (text_eqb n m); [eexists; exact H|discriminate].
  - eexists; exact H.
Qed.
Lemma read_from : forall d t r, read_ref d t = Some r -> exists u, parse_ref u = Some r.
Proof.
  intros d t r H. destruct d; cbn [read_ref] in H; [eauto|].
  destruct (parse_open t) eqn:E; [|eauto]. injection H as ->. eapply open_wf; eauto.
Qed.
Lemma read_wf : forall d t r, read_ref d t = Some r -> wf r.
Proof. intros d t r H. apply read_from in H. destruct H as [u H]. eapply parse_wf; eauto. Qed.
Lemma display_any : forall d t r, read_ref d t = Some r -> displayable r ->
  parse_ref (show_ref r) = Some (canon r).
Proof. intros d t r H. apply read_from in H. destruct H as [u H]. eapply display_reads; eauto. Qed.

Definition ref_bounds (r : reft) : Prop :=
  match r with
  | RCell _ row col _ _ | RCell3 _ _ row col _ _ | RExtCell _ _ _ row col _ _ =>
      1 <= row <= rows /\ 1 <= col <= cols
  | RRange _ b | RRange3 _ _ b | RExtRange _ _ _ b =>
      in_bound 4294967295 (b_sr b) /\ in_bound cols (b_sc b) /\
      in_bound 4294967295 (b_er b) /\ in_bound cols (b_ec b)
  | _ => True
  end.
Lemma bounds_any : forall d t r, read_ref d t = Some r -> ref_bounds r.
Proof.
  intros d t r H. apply read_wf in H. unfold rows, cols, ref_bounds.
  destruct r; cbn [wf] in H; unfold box_ok, corner_ok, cols in *; auto; repeat split; tauto.
Qed.

(* ---- dependencies ---- *)
Lemma cell_dep_eval : forall row col, 1 <= row -> 1 <= col <= cols ->
  cell_dep row col = if rows <? row then Panic else Ok (DCell (row - 1) (col - 1)).
Proof.
  intros row col Hr Hc. unfold cell_dep, cols, rows in *. destruct (1048576 <? row) eqn:E.
  - apply N.ltb_lt in E. rewrite rcoord_new_panic; [reflexivity|]. unfold ROW_MAX. lia.
  - apply N.ltb_ge in E. assert (H1 : row - 1 <= ROW_MAX) by (unfold ROW_MAX; lia).
    assert (H2 : col - 1 <= COL_MAX) by (unfold COL_MAX; lia).
    rewrite rcoord_new_ok by auto. destruct (unpack_pack (row - 1) (col - 1) true true H1 H2) as (-> & -> & _).
    reflexivity.
Qed.
Lemma upto_in : forall a b x, In x (upto a b) <-> a <= x <= b.
Proof.
  intros a b x. unfold upto. rewrite in_map_iff. split.
  - intros (i & <- & Hi). apply in_seq in Hi. lia.
  - intro H. exists (N.to_nat (x - a)). split; [lia|]. apply in_seq. lia.
Qed.
Lemma all_ok_ok : forall l, (forall x, In x l -> exists d, x = Ok d) ->
  exists ds, all_ok l = Ok ds /\ forall d, In d ds <-> In (Ok d) l.
Proof.
  induction l as [|x l IH]; intro H.
  - exists []. split; [reflexivity|]. intro d. split; intros [].
  - destruct (H x (or_introl eq_refl)) as [d ->]. destruct IH as (ds & E & Hi); [intros y Hy; apply H; right; exact Hy|].
    exists (d :: ds). cbn [all_ok rbind]. rewrite E. split; [reflexivity|].
    intro e. cbn [In]. rewrite Hi. split; (intros [Q|Q]; [left; congruence|right; exact Q]).
Qed.
Lemma all_ok_panic : forall l, (forall x, In x l -> x = Panic \/ exists d, x = Ok d) -> In Panic l ->
  all_ok l = Panic.
Proof.
  induction l as [|x l IH]; intros H Hin; [contradiction|]. cbn [all_ok].
  destruct (H x (or_introl eq_refl)) as [-> | [d ->]]; [reflexivity|]. cbn [rbind].
  destruct Hin as [Q|Q]; [discriminate|]. rewrite IH; auto. intros y Hy. apply H. right. exact Hy.
Qed.

Definition box_in_order (b : box) : Prop := ordered (b_sr b) (b_er b) = true /\ ordered (b_sc b) (b_ec b) = true.
Definition expanded (expand : bool) (limit : N) (b : box) : Prop :=
  expand = true /\ exists sr sc er ec a1 a2 a3 a4,
    b = Box (Some (sr, a1)) (Some (sc, a2)) (Some (er, a3)) (Some (ec, a4)) /\
    sr <= er /\ sc <= ec /\ (er - sr + 1) * (ec - sc + 1) <= limit.

Lemma range_dep_covers : forall b, box_ok b -> box_in_order b ->
  forall r c, (exists d, In d (range_dep b) /\ dep_covers d r c) <-> inside b r c.
Proof.
  intros [sr sc er ec] [H1 H2] [O1 O2] r c. cbn [b_sr b_sc b_er b_ec] in *. unfold range_dep.
  cbn [b_sr b_sc b_er b_ec]. rewrite O1, O2. cbn [andb].
  assert (G : dep_covers (DRange (idx sr) (idx sc) (idx er) (idx ec)) r c <-> inside (Box sr sc er ec) r c).
  { unfold inside. cbn [dep_covers b_sr b_sc b_er b_ec]. destruct H1 as (A1 & A2 & _). destruct H2 as (B1 & B2 & _).
    destruct sr as [[sr ?]|], sc as [[sc ?]|], er as [[er ?]|], ec as [[ec ?]|];
      cbn [idx lo hi above below in_bound] in *; lia. }
  split.
  - intros (d & [<-|[]] & Hd). apply G. exact Hd.
  - intro Hi. eexists. split; [left; reflexivity|]. apply G. exact Hi.
Qed.

Lemma plan_panics : forall expand limit b, box_ok b ->
  plan_box expand limit b = Panic <->
  expanded expand limit b /\ exists i a, b_er b = Some (i, a) /\ rows < i.
Proof.
  intros expand limit b Hb. unfold plan_box.
  assert (Cells : forall sr sc er ec, 1 <= sr -> 1 <= sc -> ec <= cols ->
    forall x, In x (flat_map (fun row => map (fun col => cell_dep row col) (upto sc ec)) (upto sr er)) ->
    x = Panic \/ exists d, x = Ok d).
  { intros sr sc er ec Hs1 Hs2 Hs3 x Hx. apply in_flat_map in Hx. destruct Hx as (row & Hr & Hx).
    apply in_map_iff in Hx. destruct Hx as (col & <- & Hc). rewrite upto_in in Hr, Hc.
    rewrite cell_dep_eval by lia. destruct (rows <? row); eauto. }
  destruct b as [[[sr a1]|] [[sc a2]|] [[er a3]|] [[ec a4]|]]; cbn [b_sr b_sc b_er b_ec] in *;
  try (split; [discriminate|]; intros [(_ & x1 & x2 & x3 & x4 & y1 & y2 & y3 & y4 & Q & _) _]; discriminate).
  destruct Hb as [(H1 & H2 & _) (H3 & H4 & _)]. cbn [b_sr b_sc b_er b_ec in_bound] in *.
  destruct ((er <? sr) || (ec <? sc)) eqn:Er.
  { split; [discriminate|]. intros [(_ & x1 & x2 & x3 & x4 & y1 & y2 & y3 & y4 & Q & Q1 & Q2 & _) _].
    injection Q as <- <- <- <- <- <- <- <-. apply orb_true_iff in Er. lia. }
  apply orb_false_iff in Er. destruct Er as [E1 E2]. apply N.ltb_ge in E1, E2.
  destruct (expand && ((er - sr + 1) * (ec - sc + 1) <=? limit)) eqn:Ex.
  - apply andb_true_iff in Ex. destruct Ex as [-> Ex]. apply N.leb_le in Ex.
    destruct (rows <? er) eqn:Eo.
    + apply N.ltb_lt in Eo. split.
      * intros _. split; [|eauto]. split; [reflexivity|]. exists sr, sc, er, ec, a1, a2, a3, a4. auto.
      * intros _. apply all_ok_panic; [apply Cells; unfold cols; lia|].
        apply in_flat_map. exists er. split; [apply upto_in; lia|]. apply in_map_iff. exists sc.
        split; [|apply upto_in; lia]. rewrite cell_dep_eval by (unfold cols; lia).
        apply N.ltb_lt in Eo. rewrite Eo. reflexivity.
    + apply N.ltb_ge in Eo. split.
      * intro H. exfalso.
        destruct (all_ok_ok (flat_map (fun row => map (fun col => cell_dep row col) (upto sc ec)) (upto sr er)))
          as (ds & Q & _); [|rewrite Q in H; discriminate].
        intros x Hx. apply in_flat_map in Hx. destruct Hx as (row & Hr & Hx).
        apply in_map_iff in Hx. destruct Hx as (col & <- & Hc). rewrite upto_in in Hr, Hc.
        rewrite cell_dep_eval by (unfold cols; lia).
        assert (Q : rows <? row = false) by (apply N.ltb_ge; lia). rewrite Q. eauto.
      * intros [_ (i & a & Q & Hi)]. injection Q as <- _. lia.
  - split; [discriminate|]. intros [(-> & x1 & x2 & x3 & x4 & y1 & y2 & y3 & y4 & Q & Q1 & Q2 & Q3) _].
    injection Q as <- <- <- <- <- <- <- <-. cbn [andb] in Ex. apply N.leb_gt in Ex. lia.
Qed.

Lemma plan_covers : forall expand limit b deps, box_ok b -> box_in_order b ->
  plan_box expand limit b = Ok deps ->
  forall r c, (exists d, In d deps /\ dep_covers d r c) <-> inside b r c.
Proof.
  intros expand limit b deps Hb Ho H r c. unfold plan_box in H.
  pose proof (range_dep_covers b Hb Ho r c) as G.
  assert (D : Ok (range_dep b) = Ok deps :> res plan_error (list dep) -> (exists d, In d deps /\ dep_covers d r c) <-> inside b r c)
    by (intro Q; injection Q as <-; exact G).
  destruct b as [[[sr a1]|] [[sc a2]|] [[er a3]|] [[ec a4]|]]; cbn [b_sr b_sc b_er b_ec] in *; auto.
  destruct Hb as [(H1 & H2 & _) (H3 & H4 & _)]. cbn [b_sr b_sc b_er b_ec in_bound] in *.
  destruct ((er <? sr) || (ec <? sc)) eqn:Er; [discriminate|].
  destruct (expand && ((er - sr + 1) * (ec - sc + 1) <=? limit)) eqn:Ex; [|auto]. clear D G.
  apply orb_false_iff in Er. destruct Er as [E1 E2]. apply N.ltb_ge in E1, E2.
  destruct (rows <? er) eqn:Eo.
  - exfalso. apply N.ltb_lt in Eo. rewrite all_ok_panic in H; [discriminate| |].
    + intros x Hx. apply in_flat_map in Hx. destruct Hx as (row & Hr & Hx).
      apply in_map_iff in Hx. destruct Hx as (col & <- & Hc). rewrite upto_in in Hr, Hc.
      rewrite cell_dep_eval by (unfold cols; lia). destruct (rows <? row); eauto.
    + apply in_flat_map. exists er. split; [apply upto_in; lia|]. apply in_map_iff. exists sc.
      split; [|apply upto_in; lia]. rewrite cell_dep_eval by (unfold cols; lia).
      apply N.ltb_lt in Eo. rewrite Eo. reflexivity.
  - apply N.ltb_ge in Eo.
    destruct (all_ok_ok (flat_map (fun row => map (fun col => cell_dep row col) (upto sc ec)) (upto sr er)))
      as (ds & Q & Hi).
    { intros x Hx. apply in_flat_map in Hx. destruct Hx as (row & Hr & Hx).
      apply in_map_iff in Hx. destruct Hx as (col & <- & Hc). rewrite upto_in in Hr, Hc.
      rewrite cell_dep_eval by (unfold cols; lia).
      assert (Q : rows <? row = false) by (apply N.ltb_ge; lia). rewrite Q. eauto. }
    rewrite Q in H. injection H as <-. unfold inside. cbn [above below b_sr b_sc b_er b_ec]. split.
    + intros (d & Hd & Hc). apply Hi in Hd. apply in_flat_map in Hd. destruct Hd as (row & Hr & Hd).
      apply in_map_iff in Hd. destruct Hd as (col & Hd & Hcc). rewrite upto_in in Hr, Hcc.
      rewrite cell_dep_eval in Hd by (unfold cols; lia).
      assert (Q2 : rows <? row = false) by (apply N.ltb_ge; lia). rewrite Q2 in Hd. injection Hd as <-.
      cbn [dep_covers] in Hc. destruct Hc as [<- <-]. lia.
    + intros (I1 & I2 & I3 & I4). exists (DCell r c). split; [|split; reflexivity].
      apply Hi. apply in_flat_map. exists (r + 1). split; [apply upto_in; lia|]. apply in_map_iff.
      exists (c + 1). split; [|apply upto_in; lia]. rewrite cell_dep_eval by (unfold cols; lia).
      assert (Q2 : rows <? r + 1 = false) by (apply N.ltb_ge; lia). rewrite Q2.
      replace (r + 1 - 1) with r by lia. replace (c + 1 - 1) with c by lia. reflexivity.
Qed.
(* Corners out of order: an error, or no dependency at all. *)
Lemma plan_reversed : forall expand limit b, ~ box_in_order b ->
  plan_box expand limit b = Err ERef \/ plan_box expand limit b = Ok [].
Proof.
  intros expand limit b Ho.
  assert (D : range_dep b = []).
  { unfold range_dep. destruct (ordered (b_sr b) (b_er b) && ordered (b_sc b) (b_ec b)) eqn:E; [|reflexivity].
    apply andb_true_iff in E. contradiction. }
  unfold plan_box. rewrite D.
  destruct b as [[[sr a1]|] [[sc a2]|] [[er a3]|] [[ec a4]|]]; cbn [b_sr b_sc b_er b_ec]; auto.
  destruct ((er <? sr) || (ec <? sc)) eqn:Er; auto. exfalso. apply Ho. unfold box_in_order.
  cbn [b_sr b_sc b_er b_ec ordered]. apply orb_false_iff in Er. lia.
Qed.

(* ---- 3D references as Excel writes them ---- *)
Lemma read_3d_quoted : forall f l row col ra ca,
  external_sheet (f ++ c_colon :: l) = None -> 1 <= row <= rows -> 1 <= col <= cols ->
  parse_ref (c_sq :: double_q (f ++ c_colon :: l) ++ c_sq :: c_bang :: cell_text row col ra ca)
  = Some (RCell (Some (f ++ c_colon :: l)) row col ra ca).
Proof.
  intros f l row col ra ca He Hr Hc.
  pose proof (read_cell (Some (f ++ c_colon :: l)) row col ra ca) as R.
  assert (N : f ++ c_colon :: l <> []) by (destruct f; discriminate).
  assert (Q : needs_quote (f ++ c_colon :: l) = true).
  { unfold needs_quote. destruct (f ++ c_colon :: l) as [|x y] eqn:E; [contradiction|].
    rewrite <- E, existsb_app. cbn [existsb]. change (memc c_colon quote_bytes) with true.
    cbn [orb]. rewrite !orb_true_r. reflexivity. }
  cbn [with_sheet] in R. unfold sheet_text in R. rewrite Q in R. cbn [app] in R. rewrite <- app_assoc in R.
  apply R; auto; congruence.
Qed.

(* ---- escaped columns ---- *)
Definition marked (x : N) : bool := memc x [39; 91; 93; 35; 64; 44; 58].
Lemma escape_cons : forall x c, escape (x :: c) = (if marked x then [c_sq; x] else [x]) ++ escape c.
Proof. intros. cbn [escape]. fold (marked x). destruct (marked x); reflexivity. Qed.
Lemma unescape_escape : forall c, unescape (escape c) = c.
Proof.
  induction c as [|x c IH]; [reflexivity|]. rewrite escape_cons. destruct (marked x) eqn:E; cbn [app unescape].
  - rewrite N.eqb_refl, IH. reflexivity.
  - assert (Q : x =? c_sq = false).
    { apply N.eqb_neq. intros ->. discriminate. }
    rewrite Q, IH. reflexivity.
Qed.
Lemma unmarked : forall x, marked x = false ->
  x =? c_sq = false /\ x =? c_lb = false /\ x =? c_rb = false /\ x =? c_hash = false /\ x =? c_at = false
  /\ x =? c_comma = false /\ x =? c_colon = false.
Proof. intros x H. repeat split; apply N.eqb_neq; intros ->; discriminate. Qed.
Lemma close_escape : forall c rest, close_at 0 (escape c ++ c_rb :: rest) = Some (escape c, rest).
Proof.
  induction c as [|x c IH]; intro rest; [reflexivity|]. rewrite escape_cons. destruct (marked x) eqn:E; cbn [app close_at].
  - rewrite N.eqb_refl, IH. reflexivity.
  - destruct (unmarked x E) as (-> & -> & -> & _). rewrite IH. reflexivity.
Qed.
Lemma scan_escape : forall c pre, scan_top 0 pre (escape c) = Some (Scan false false None).
Proof.
  induction c as [|x c IH]; intro pre; [reflexivity|]. rewrite escape_cons. destruct (marked x) eqn:E; cbn [app scan_top].
  - rewrite N.eqb_refl. apply IH.
  - destruct (unmarked x E) as (-> & -> & -> & _ & _ & -> & ->). rewrite IH. reflexivity.
Qed.
Lemma strip_escape : forall c, strip_scan 1 (escape c) = true.
Proof.
  induction c as [|x c IH]; [reflexivity|]. rewrite escape_cons. destruct (marked x) eqn:E; cbn [app strip_scan].
  - rewrite N.eqb_refl. apply IH.
  - destruct (unmarked x E) as (-> & -> & -> & _). apply IH.
Qed.
Lemma escape_app : forall a b, escape (a ++ b) = escape a ++ escape b.
Proof.
  induction a as [|x a IH]; intro b; [reflexivity|]. cbn [app]. rewrite !escape_cons, IH, <- app_assoc. reflexivity.
Qed.
Lemma trim_escape : forall c, trim c = c -> trim (escape c) = escape c.
Proof.
  intros c H. apply trim_trimmed' in H. destruct H as [H1 H2]. apply trim_id. split.
  - destruct c as [|x c]; [exact I|]. rewrite escape_cons. destruct (marked x); [reflexivity|exact H1].
  - destruct (rev c) as [|z zs] eqn:E.
    + assert (c = []) by (rewrite <- (rev_involutive c), E; reflexivity). subst. exact I.
    + assert (Ec : c = rev zs ++ [z]) by (rewrite <- (rev_involutive c), E; reflexivity).
      rewrite Ec, escape_app, escape_cons. cbn [escape]. rewrite app_nil_r.
      destruct (marked z); rewrite rev_app_distr; exact H2.
Qed.
Lemma escape_nonempty : forall c, c <> [] -> escape c <> [].
Proof. intros [|x c] H; [contradiction|]. rewrite escape_cons. destruct (marked x); discriminate. Qed.
Lemma escape_start : forall c x y, escape c = x :: y -> x =? c_hash = false /\ x =? c_at = false /\ x =? c_lb = false.
Proof.
  intros [|u c] x y H; [discriminate|]. rewrite escape_cons in H. destruct (marked u) eqn:E; cbn [app] in H.
  - injection H as <- _. repeat split; reflexivity.
  - injection H as <- _. destruct (unmarked u E) as (_ & ? & _ & ? & ? & _). auto.
Qed.

Lemma read_spec : forall n inner sp, n <> [] -> trim n = n -> memc c_lb n = false ->
  memc c_bang (n ++ bracket inner) = false -> r1c1_shape (n ++ bracket inner) = false ->
  full_specifier (bracket inner) = Some (Some sp) ->
  parse_ref (n ++ bracket inner) = Some (RTable n (Some sp)).
Proof.
  intros n inner sp Hn Ht Hl Hb Hr Hsp. unfold parse_ref. rewrite Hb.
  assert (E : starts c_lb (n ++ bracket inner) = false).
  { destruct n as [|x n]; [contradiction|]. cbn [app starts]. rewrite memc_cons in Hl. apply orb_false_iff in Hl.
    rewrite N.eqb_sym. apply Hl. }
  rewrite E. cbn [andb]. rewrite extract_none by auto.
  assert (M : memc c_lb (n ++ bracket inner) = true) by (rewrite memc_app, Hl; reflexivity).
  rewrite M, Hr. unfold table_reference. unfold bracket at 1. rewrite cut_app by auto. rewrite Ht.
  destruct n as [|x n]; [contradiction|]. unfold bracket in Hsp. rewrite Hsp. reflexivity.
Qed.
Lemma full_bracket : forall inner sp, close_at 0 (inner ++ [c_rb]) = Some (inner, []) ->
  parse_content inner = Some sp -> full_specifier (bracket inner) = Some (Some sp).
Proof. intros inner sp Hc Hp. unfold bracket, full_specifier. rewrite N.eqb_refl, Hc, Hp. reflexivity. Qed.

Lemma read_column : forall n c, n <> [] -> trim n = n -> memc c_lb n = false ->
  c <> [] -> trim c = c ->
  memc c_bang (n ++ bracket (escape c)) = false -> r1c1_shape (n ++ bracket (escape c)) = false ->
  parse_ref (n ++ bracket (escape c)) = Some (RTable n (Some (SpCol c))).
Proof.
  intros n c Hn Ht Hl Hc Htc Hb Hr. apply read_spec; auto. apply full_bracket; [apply close_escape|].
  unfold parse_content. rewrite trim_escape by auto.
  destruct (escape c) as [|x y] eqn:E; [apply escape_nonempty in E; auto; contradiction|].
  destruct (escape_start c x y E) as (-> & -> & _). rewrite <- E, scan_escape. cbn [s_bracket s_comma s_colon].
  unfold unescape_name. rewrite unescape_escape, Htc. reflexivity.
Qed.
Lemma strip_bracket : forall c, strip_outer (bracket (escape c)) = Some (escape c).
Proof.
  intro c. unfold strip_outer, bracket. destruct (escape c ++ [c_rb]) as [|x y] eqn:E; [destruct (escape c); discriminate|].
  rewrite <- E, last_last, !N.eqb_refl, removelast_last, strip_escape. reflexivity.
Qed.
Lemma read_this_row : forall n c, n <> [] -> trim n = n -> memc c_lb n = false ->
  c <> [] -> trim c = c ->
  memc c_bang (n ++ bracket (c_at :: bracket (escape c))) = false ->
  r1c1_shape (n ++ bracket (c_at :: bracket (escape c))) = false ->
  parse_ref (n ++ bracket (c_at :: bracket (escape c))) = Some (RTable n (Some (SpComb [SpItem IThisRow; SpCol c]))).
Proof.
  intros n c Hn Ht Hl Hc Htc Hb Hr. apply read_spec; auto.
  assert (Tb : trim (bracket (escape c)) = bracket (escape c))
    by (apply trim_id, (trimmed_ends c_lb (escape c) c_rb); reflexivity).
  apply full_bracket.
  - unfold bracket. cbn [app]. rewrite <- app_assoc. cbn [app close_at].
    change (c_at =? c_sq) with false. change (c_at =? c_lb) with false. change (c_at =? c_rb) with false.
    change (c_lb =? c_sq) with false. rewrite N.eqb_refl. cbn iota.
    assert (G : forall k rest, close_at 1 (escape k ++ c_rb :: c_rb :: rest) = Some (escape k ++ [c_rb], rest)).
    { induction k as [|x k IH]; intro rest; [reflexivity|]. rewrite escape_cons.
      destruct (marked x) eqn:E; cbn [app close_at].
      - rewrite N.eqb_refl, IH. reflexivity.
      - destruct (unmarked x E) as (-> & -> & -> & _). rewrite IH. reflexivity. }
    rewrite G. reflexivity.
  - unfold parse_content.
    assert (T : trim (c_at :: bracket (escape c)) = c_at :: bracket (escape c)).
    { apply trim_id. unfold bracket. apply (trimmed_ends c_at (c_lb :: escape c) c_rb); reflexivity. }
    rewrite T, N.eqb_refl, Tb. unfold at_shorthand. unfold bracket at 1. rewrite Tb, strip_bracket.
    destruct (escape c) as [|x y] eqn:E; [apply escape_nonempty in E; auto; contradiction|].
    rewrite <- E. unfold unescape_name. rewrite unescape_escape, Htc. reflexivity.
Qed.

(* An exclamation mark in the column. *)
Lemma span_bare : forall (n : text) c rest, Forall (fun x => bare_byte x = true) n -> bare_byte c = false ->
  span bare_byte (n ++ c :: rest) = (n, c :: rest).
Proof.
  induction n as [|x n IH]; intros c rest H Hc; cbn [app span].
  - rewrite Hc. reflexivity.
  - inversion H; subst. rewrite H2, IH by auto. reflexivity.
Qed.
Lemma a1_bytes : forall s row col ra ca, parse_a1_components s = Ok (row, col, ra, ca) -> memc c_rb s = false.
Proof.
  intros s row col ra ca H. apply parse_a1_iff in H. destruct H as (L & D & -> & _ & HL & _ & _ & HD & _).
  apply memc_false. intro Hin. rewrite !in_app_iff in Hin. unfold c_rb in *.
  assert (Hd : forall a, ~ In 93 (dollar a)) by (intros []; cbn; [intros [|[]]; discriminate|intros []]).
  destruct Hin as [Q|[Q|[Q|Q]]].
  - eapply Hd; eauto.
  - unfold ascii_letters in HL. rewrite Forall_forall in HL. specialize (HL _ Q). cbv beta in HL. lia.
  - eapply Hd; eauto.
  - unfold ascii_digits in HD. rewrite Forall_forall in HD. specialize (HD _ Q). cbv beta in HD. lia.
Qed.
Lemma read_bang : forall n a b, Forall (fun x => bare_byte x = true) n -> Forall (fun x => bare_byte x = true) a ->
  n <> [] -> memc c_lb n = false -> memc c_lb b = false -> memc c_colon b = false ->
  parse_ref (n ++ bracket (a ++ c_bang :: b)) = Some (RName (n ++ bracket (a ++ c_bang :: b))).
Proof.
  intros n a b Bn Ba Hn Hl Hb Hk.
  assert (Et : n ++ bracket (a ++ c_bang :: b) = (n ++ c_lb :: a) ++ c_bang :: b ++ [c_rb])
    by (unfold bracket; rewrite <- !app_assoc; cbn [app]; rewrite <- ?app_assoc; reflexivity).
  assert (Bx : Forall (fun x => bare_byte x = true) (n ++ c_lb :: a))
    by (apply Forall_app; split; [exact Bn|constructor; [reflexivity|exact Ba]]).
  unfold parse_ref.
  assert (E : starts c_lb (n ++ bracket (a ++ c_bang :: b)) = false).
  { destruct n as [|x n]; [contradiction|]. cbn [app starts]. rewrite memc_cons in Hl. apply orb_false_iff in Hl.
    rewrite N.eqb_sym. apply Hl. }
  rewrite E. cbn [andb].
  assert (X : extract_sheet (n ++ bracket (a ++ c_bang :: b)) = (ShOne (n ++ c_lb :: a), b ++ [c_rb])).
  { rewrite Et. unfold extract_sheet, sheet_segment. destruct n as [|x n]; [contradiction|]. cbn [app].
    inversion Bn; subst.
    assert (Q : x =? c_sq = false) by (apply N.eqb_neq; intros ->; discriminate).
    rewrite Q. change (x :: (n ++ c_lb :: a) ++ c_bang :: b ++ [c_rb]) with ((x :: n ++ c_lb :: a) ++ c_bang :: b ++ [c_rb]).
    rewrite span_bare by (auto; reflexivity).
    change (c_bang =? c_colon) with false. rewrite N.eqb_refl. reflexivity. }
  rewrite X. rewrite !memc_app, Hb, Hk. cbn [memc existsb orb]. change (c_lb =? c_rb) with false. change (c_colon =? c_rb) with false.
  cbn [orb].
  destruct (parse_a1_components (b ++ [c_rb])) as [[[[row col] ra] ca]| |] eqn:Ea; try reflexivity.
  apply a1_bytes in Ea. rewrite memc_app in Ea. apply orb_false_iff in Ea. destruct Ea as [_ Ea]. discriminate.
Qed.

(* ---- OpenFormula ---- *)
Lemma sep_open : forall n rest, of_separator true (double_q n ++ c_sq :: c_dot :: rest) = Some (double_q n ++ [c_sq], rest).
Proof.
  induction n as [|x n IH]; intro rest; [reflexivity|]. cbn [double_q]. destruct (x =? c_sq) eqn:E; cbn [app of_separator].
  - rewrite !N.eqb_refl, IH. reflexivity.
  - rewrite E, andb_false_r, IH. reflexivity.
Qed.
Lemma sep_pair : forall q r, of_separator q (c_sq :: c_sq :: r) =
  match of_separator q r with Some (a, b) => Some (c_sq :: c_sq :: a, b) | None => None end.
Proof. reflexivity. Qed.
Lemma sep_toggle : forall q x r, x =? c_sq = false -> of_separator q (c_sq :: x :: r) =
  match of_separator (negb q) (x :: r) with Some (a, b) => Some (c_sq :: a, b) | None => None end.
Proof.
  intros q x r H.
  change (of_separator q (c_sq :: x :: r)) with
    (if x =? c_sq then match of_separator q r with Some (a, b) => Some (c_sq :: x :: a, b) | None => None end
     else match of_separator (negb q) (x :: r) with Some (a, b) => Some (c_sq :: a, b) | None => None end).
  rewrite H at 1. reflexivity.
Qed.
Lemma sep_quoted : forall n rest,
  of_separator false (c_sq :: double_q n ++ c_sq :: c_dot :: rest) = Some (c_sq :: double_q n ++ [c_sq], rest).
Proof.
  induction n as [|x n IH]; intro rest; [reflexivity|]. pose proof (sep_open (x :: n) rest) as Q.
  cbn [double_q] in *. destruct (x =? c_sq) eqn:E; cbn [app] in *.
  - rewrite sep_pair, IH. reflexivity.
  - rewrite sep_toggle by exact E. cbn [negb]. rewrite Q. reflexivity.
Qed.

Lemma no_space : forall t, Forall corner_byte t -> trim t = t.
Proof.
  intros t H. assert (K : forall c, corner_byte c -> is_space c = false).
  { intros c Hc. unfold is_space, memc. cbn [existsb]. unfold corner_byte in Hc.
    repeat (apply orb_false_iff; split); try reflexivity; apply N.eqb_neq; lia. }
  apply trim_id. split.
  - destruct H; [exact I|]. auto.
  - apply Forall_rev in H. destruct H; [exact I|]. auto.
Qed.

Lemma part_dot : forall t, t <> [] -> Forall corner_byte t -> of_part (c_dot :: t) = Some (None, t).
Proof.
  intros t Hn Hb. unfold of_part.
  assert (T : trim (c_dot :: t) = c_dot :: t).
  { pose proof (no_space t Hb) as Q. apply trim_trimmed' in Q. destruct Q as [_ Q]. apply trim_id. split; [reflexivity|].
    cbn [rev]. destruct (rev t) as [|z zs] eqn:E; [reflexivity|]. exact Q. }
  rewrite T, N.eqb_refl. destruct t as [|x t]; [contradiction|]. cbn [andb].
  change (c_dot =? c_lb) with false. cbn iota. rewrite (no_space (x :: t) Hb).
  cbn [drop_while]. inversion Hb; subst.
  assert (Q : c_dot =? x = false) by (apply N.eqb_neq; unfold corner_byte, c_dot in *; lia).
  rewrite Q, (no_space (x :: t) Hb). reflexivity.
Qed.

Lemma part_sheet : forall a n t, t <> [] -> Forall corner_byte t ->
  of_part (open_sheet a n ++ c_dot :: t) = Some (Some n, t).
Proof.
  intros a n t Hn Hb. unfold of_part.
  pose proof (no_space t Hb) as Tt.
  assert (Te : trim (open_sheet a n ++ c_dot :: t) = open_sheet a n ++ c_dot :: t).
  { apply trim_trimmed' in Tt. destruct Tt as [_ Q]. apply trim_id. split; [destruct a; reflexivity|].
    rewrite rev_app_distr. cbn [rev]. destruct (rev t) as [|z zs] eqn:E; [|exact Q].
    assert (t = []) by (rewrite <- (rev_involutive t), E; reflexivity). contradiction. }
  rewrite Te.
  assert (Sep : of_separator false (open_sheet a n ++ c_dot :: t) = Some (open_sheet a n, t)).
  { unfold open_sheet. pose proof (sep_quoted n t) as Q. destruct a; cbn [abs_text app].
    - cbn [of_separator]. change (c_dollar =? c_sq) with false. change (c_dollar =? c_dot) with false. cbn [andb].
      rewrite <- app_assoc. cbn [app]. cbn [of_separator] in Q. rewrite Q. reflexivity.
    - rewrite <- app_assoc. cbn [app]. exact Q. }
  assert (Sh : of_sheet (trim (open_sheet a n)) = Some n).
  { assert (To : trim (open_sheet a n) = open_sheet a n).
    { apply trim_id. split; [destruct a; reflexivity|]. unfold open_sheet. rewrite rev_app_distr. cbn [rev].
      rewrite rev_unit. reflexivity. }
    unfold of_sheet. rewrite !To. unfold open_sheet.
    assert (Dr : drop_while (N.eqb c_dollar) (abs_text a ++ c_sq :: double_q n ++ [c_sq]) = c_sq :: double_q n ++ [c_sq])
      by (destruct a; reflexivity).
    rewrite Dr, N.eqb_refl. destruct (double_q n ++ [c_sq]) as [|x y] eqn:E; [destruct (double_q n); discriminate|].
    rewrite <- E, ends_last, removelast_last, undouble_double. reflexivity. }
  assert (G : exists x y, open_sheet a n ++ c_dot :: t = x :: y /\ x =? c_dot = false /\ x =? c_lb = false).
  { unfold open_sheet. destruct a; cbn [abs_text app]; repeat eexists; reflexivity. }
  destruct G as (x & y & E & E1 & E2). rewrite E in *. rewrite E1, E2. cbn [andb].
  rewrite Sep, Tt. destruct t as [|u t]; [contradiction|]. rewrite Sh.
  cbn [drop_while]. inversion Hb; subst.
  assert (Q : c_dot =? u = false) by (apply N.eqb_neq; unfold corner_byte, c_dot in *; lia).
  rewrite Q, Tt. reflexivity.
Qed.

Definition strip_abs (sh : option (bool * text)) : option text :=
  match sh with Some (_, n) => Some n | None => None end.
Lemma part_any : forall sh t, t <> [] -> Forall corner_byte t ->
  of_part (open_cell sh t) = Some (strip_abs sh, t).
Proof.
  intros [[a n]|] t Hn Hb; unfold open_cell; cbn [strip_abs].
  - apply part_sheet; auto.
  - apply part_dot; auto.
Qed.

Lemma double_no : forall x n, x <> c_sq -> memc x n = false -> memc x (double_q n) = false.
Proof.
  intros x n Hx. induction n as [|c n IH]; intro H; [reflexivity|]. rewrite memc_cons in H.
  apply orb_false_iff in H. destruct H as [H1 H2]. cbn [double_q]. apply N.eqb_neq in Hx.
  destruct (c =? c_sq); rewrite !memc_cons, ?Hx, ?H1, IH by auto; reflexivity.
Qed.
Definition sheet_no_colon (sh : option (bool * text)) : Prop :=
  match sh with Some (_, n) => memc c_colon n = false | None => True end.
Lemma open_no_colon : forall sh t, sheet_no_colon sh -> Forall corner_byte t -> memc c_colon (open_cell sh t) = false.
Proof.
  intros sh t Hs Hb. unfold open_cell. rewrite memc_app, memc_cons.
  rewrite (corner_no c_colon t Hb) by not_corner. change (c_colon =? c_dot) with false. cbn [orb]. rewrite orb_false_r.
  destruct sh as [[a n]|]; [|reflexivity]. unfold open_sheet. rewrite memc_app, memc_cons, memc_app.
  cbn [sheet_no_colon] in Hs. rewrite double_no by (auto; discriminate).
  destruct a; reflexivity.
Qed.
Lemma open_nonempty : forall sh t, open_cell sh t <> [].
Proof. intros sh t H. unfold open_cell in H. apply app_eq_nil in H. destruct H. discriminate. Qed.

Lemma open_one : forall inner sh1 k1, inner <> [] -> memc c_colon inner = false ->
  of_part inner = Some (sh1, k1) ->
  parse_open (open_ref inner) = parse_ref (match sh1 with Some n => sheet_text n ++ [c_bang] | None => [] end ++ k1).
Proof.
  intros inner sh1 k1 Hn Hc Hp. unfold parse_open, open_ref.
  destruct (inner ++ [c_rb]) as [|x y] eqn:E; [destruct inner; discriminate|].
  rewrite <- E, last_last, !N.eqb_refl, removelast_last. cbn [andb].
  destruct inner as [|i j]; [contradiction|]. apply cut_none in Hc. rewrite Hc, Hp, app_nil_r. reflexivity.
Qed.
Lemma open_two : forall a b sh1 k1 sh2 k2, memc c_colon a = false -> a <> [] ->
  of_part a = Some (sh1, k1) -> of_part b = Some (sh2, k2) ->
  (sh2 = None \/ sh2 = sh1) ->
  parse_open (open_ref (a ++ c_colon :: b))
  = parse_ref (match sh1 with Some n => sheet_text n ++ [c_bang] | None => [] end ++ k1 ++ c_colon :: k2).
Proof.
  intros a b sh1 k1 sh2 k2 Hc Hn Ha Hb Hs. unfold parse_open, open_ref.
  destruct ((a ++ c_colon :: b) ++ [c_rb]) as [|x y] eqn:E; [destruct a; discriminate|].
  rewrite <- E, last_last, !N.eqb_refl, removelast_last. cbn [andb].
  destruct (a ++ c_colon :: b) as [|i j] eqn:E2; [destruct a; discriminate|].
  rewrite <- E2, cut_app, Ha, Hb by auto.
  destruct sh1 as [n|], sh2 as [m|]; try reflexivity; destruct Hs as [Hs|Hs]; try discriminate.
  injection Hs as ->. assert (Q : text_eqb n n = true) by (apply text_eqb_refl). rewrite Q. reflexivity.
Qed.

Lemma read_open_cell : forall sh row col ra ca,
  sheet_no_colon sh -> strip_abs sh <> Some [] -> no_ext (strip_abs sh) ->
  1 <= row <= rows -> 1 <= col <= cols ->
  read_ref DOpen (open_ref (open_cell sh (cell_text row col ra ca))) = Some (RCell (strip_abs sh) row col ra ca).
Proof.
  intros sh row col ra ca Hc Hn He Hr Hcol. cbn [read_ref]. unfold rows, cols in *.
  assert (B : Forall corner_byte (cell_text row col ra ca))
    by (apply cell_bytes; auto; unfold U32; change (2^32) with 4294967296; lia).
  rewrite (open_one _ (strip_abs sh) (cell_text row col ra ca)).
  - pose proof (read_cell (strip_abs sh) row col ra ca Hn He Hr Hcol) as R.
    destruct (strip_abs sh) as [n|]; cbn [with_sheet] in R; [rewrite <- app_assoc|]; cbn [app]; rewrite R; reflexivity.
  - apply open_nonempty.
  - apply open_no_colon; auto.
  - apply part_any; auto. apply cell_nonempty; auto.
Qed.
Lemma read_open_box : forall sh sh2 b,
  sheet_no_colon sh -> strip_abs sh <> Some [] -> no_ext (strip_abs sh) ->
  (strip_abs sh2 = None \/ strip_abs sh2 = strip_abs sh) -> box_ok b ->
  read_ref DOpen (open_ref (open_cell sh (corner_text (b_sc b) (b_sr b)) ++ c_colon
                           :: open_cell sh2 (corner_text (b_ec b) (b_er b)))) = Some (RRange (strip_abs sh) b).
Proof.
  intros sh sh2 b Hc Hn He Hs Hb. cbn [read_ref]. pose proof Hb as [C1 C2].
  rewrite (open_two _ _ (strip_abs sh) (corner_text (b_sc b) (b_sr b)) (strip_abs sh2) (corner_text (b_ec b) (b_er b))); auto.
  - pose proof (read_box (strip_abs sh) b Hn He Hb) as R. unfold box_text in R.
    destruct (strip_abs sh) as [n|]; cbn [with_sheet] in R; [rewrite <- app_assoc|]; cbn [app]; rewrite R; reflexivity.
  - apply open_no_colon; auto. apply corner_bytes; auto.
  - apply open_nonempty.
  - apply part_any; [apply corner_nonempty|apply corner_bytes]; auto.
  - apply part_any; [apply corner_nonempty|apply corner_bytes]; auto.
Qed.
