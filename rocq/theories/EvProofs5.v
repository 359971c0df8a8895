(** Operators on values and implicit intersection. *)
From Verif Require Import Base Maps LookupModel LookupProofs BcastModel EvModel EvSpec EvProofs1.

Section Ops.
  Variable W : world.
  Notation T := (T W).

  Lemma arith_number_cases : forall s : scalar T, (exists x, to_arithmetic_number W s = Ok x) \/ (exists e, to_arithmetic_number W s = Err e).
  Proof.
    intros [x|z|b|t|e| |u v|]; cbn; eauto. destruct (w_number W t); eauto. destruct (w_datetime W t); eauto.
  Qed.

  Lemma dims_height : forall v : value T, shape_of W v = (height W v, width W v).
  Proof. intros [s|[|row g]]; reflexivity. Qed.

  Lemma bshape : forall a b c d, 1 <= a -> 1 <= b -> 1 <= c -> 1 <= d ->
    (meets a c /\ meets b d -> broadcast_shape [(a, b); (c, d)] = Ok (Nat.max a c, Nat.max b d)) /\
    (~ (meets a c /\ meets b d) -> broadcast_shape [(a, b); (c, d)] = Err tt).
  Proof.
    intros a b c d Ha Hb Hc Hd. unfold broadcast_shape, broadcast_loop, broadcast_dim, meets.
    change (1 =? 1) with true. rewrite !orb_true_r. cbn [rbind].
    replace (Nat.max a 1) with a by lia. replace (Nat.max b 1) with b by lia.
    split.
    - intros [H1 H2].
      assert (E1 : (if (a =? c) || (a =? 1) then Ok (Nat.max c a) else if c =? 1 then Ok (Nat.max a c) else Err tt) = Ok (Nat.max a c)).
      { destruct (Nat.eqb_spec a c); cbn [orb]; [f_equal; lia|]. destruct (Nat.eqb_spec a 1); [f_equal; lia|].
        destruct (Nat.eqb_spec c 1); [reflexivity|]. exfalso. lia. }
      assert (E2 : (if (b =? d) || (b =? 1) then Ok (Nat.max d b) else if d =? 1 then Ok (Nat.max b d) else Err tt) = Ok (Nat.max b d)).
      { destruct (Nat.eqb_spec b d); cbn [orb]; [f_equal; lia|]. destruct (Nat.eqb_spec b 1); [f_equal; lia|].
        destruct (Nat.eqb_spec d 1); [reflexivity|]. exfalso. lia. }
      destruct (a =? 1) eqn:A1, (b =? 1) eqn:B1; cbn [orb rbind] in *; rewrite ?E1; cbn [rbind]; rewrite ?E2; reflexivity.
    - intros H.
      assert (H' : ~ meets a c \/ ~ meets b d).
      { unfold meets. destruct (Nat.eq_dec a c), (Nat.eq_dec a 1), (Nat.eq_dec c 1), (Nat.eq_dec b d), (Nat.eq_dec b 1), (Nat.eq_dec d 1); try lia. }
      unfold meets in H'.
      destruct (Nat.eqb_spec a 1), (Nat.eqb_spec b 1), (Nat.eqb_spec a c), (Nat.eqb_spec b d), (Nat.eqb_spec c 1), (Nat.eqb_spec d 1);
        cbn [orb rbind]; try reflexivity; exfalso; lia.
  Qed.

  Lemma at_operand : forall (v : value T) i j, at_index W v (project_index (i, j) (shape_of W v)) = operand_cell W v i j.
  Proof.
    intros [s|g] i j; [reflexivity|]. rewrite dims_height. unfold project_index, at_index, get, operand_cell, height, width.
    cbn [fst snd]. reflexivity.
  Qed.

  Lemma broadcast_spec : forall f (l r : value T), 1 <= height W l -> 1 <= width W l -> 1 <= height W r -> 1 <= width W r ->
    (forall s t, l = VS s -> r = VS t -> broadcast_apply W f l r = VS (f s t)) /\
    ((exists g, l = VA g) \/ (exists g, r = VA g) ->
     (meets (height W l) (height W r) /\ meets (width W l) (width W r) ->
      exists g, broadcast_apply W f l r = VA g /\ length g = Nat.max (height W l) (height W r) /\
        (forall row, In row g -> length row = Nat.max (width W l) (width W r)) /\
        (forall i j, i < Nat.max (height W l) (height W r) -> j < Nat.max (width W l) (width W r) ->
          nth j (nth i g []) SEmpty = f (operand_cell W l i j) (operand_cell W r i j))) /\
     (~ (meets (height W l) (height W r) /\ meets (width W l) (width W r)) ->
      broadcast_apply W f l r = VS (SErr K_VALUE))).
  Proof.
    intros f l r H1 H2 H3 H4. split; [intros s t -> ->; reflexivity|]. intros HA.
    assert (HB : broadcast_apply W f l r =
        match broadcast_shape [shape_of W l; shape_of W r] with
        | Ok (n, m) =>
            VA (map (fun i => map (fun j =>
                  f (at_index W l (project_index (i, j) (shape_of W l)))
                    (at_index W r (project_index (i, j) (shape_of W r)))) (seq 0 m)) (seq 0 n))
        | _ => VS (SErr K_VALUE)
        end).
    { destruct l as [s|g], r as [t|h]; try reflexivity. destruct HA as [[g Q]|[g Q]]; discriminate. }
    rewrite HB. clear HB. destruct (bshape _ _ _ _ H1 H2 H3 H4) as [HS HN].
    split.
    - intros HM. assert (HQ : broadcast_shape [shape_of W l; shape_of W r] = Ok (Nat.max (height W l) (height W r), Nat.max (width W l) (width W r)))
        by (rewrite !dims_height; exact (HS HM)).
      rewrite HQ, !dims_height.
      eexists. split; [reflexivity|]. split; [|split].
      + now rewrite map_length, seq_length.
      + intros row HI. apply in_map_iff in HI. destruct HI as [i [<- _]]. now rewrite map_length, seq_length.
      + intros i j Hi Hj.
        set (F := fun i j => f (at_index W l (project_index (i, j) (height W l, width W l)))
                               (at_index W r (project_index (i, j) (height W r, width W r)))).
        change (nth j (nth i (map (fun i => map (F i) (seq 0 (Nat.max (width W l) (width W r)))) (seq 0 (Nat.max (height W l) (height W r)))) []) SEmpty = f (operand_cell W l i j) (operand_cell W r i j)).
        rewrite (nth_indep _ [] (map (F 0) (seq 0 (Nat.max (width W l) (width W r))))) by (now rewrite map_length, seq_length).
        rewrite (map_nth (fun i => map (F i) (seq 0 (Nat.max (width W l) (width W r)))) _ 0 i), seq_nth by lia.
        rewrite (nth_indep _ SEmpty (F (0 + i) 0)) by (now rewrite map_length, seq_length).
        rewrite (map_nth (F (0 + i)) _ 0 j), seq_nth by lia. unfold F. cbn [Nat.add].
        rewrite <- !dims_height, !at_operand. reflexivity.
    - intros HM. assert (HQ : broadcast_shape [shape_of W l; shape_of W r] = Err tt) by (rewrite !dims_height; exact (HN HM)).
      rewrite HQ. reflexivity.
  Qed.

  (** Comparisons *)
  Lemma holds_says : forall o c, holds o (Some c) = says o c.
  Proof. intros [] []; reflexivity. Qed.
  Lemma compared_order : forall (l r : scalar T), exists c, forall o, compared W o l r = holds o c.
  Proof.
    intros l r.
    assert (HF : exists c, forall o, (match to_number_lenient W l, to_number_lenient W r with
        | Ok x, Ok y => holds o (w_cmp W x y)
        | _, _ => cmp_text W o (to_text W (VS l)) (to_text W (VS r))
        end) = holds o c).
    { unfold cmp_text. destruct (to_number_lenient W l), (to_number_lenient W r); eexists; intros o; reflexivity. }
    unfold cmp_text in *. destruct l, r; cbn [compared]; unfold cmp_text; try exact HF; eexists; intros o; reflexivity.
  Qed.
  Lemma lenient_cases : forall s : scalar T, (exists x, to_number_lenient W s = Ok x) \/ (exists e, to_number_lenient W s = Err e).
  Proof. intros [x|z|b|t|e| |u v|]; cbn; eauto. destruct (w_number W t); eauto. Qed.
  Lemma compared_total : (forall x y, w_cmp W x y <> None) -> forall (l r : scalar T), exists c, forall o, compared W o l r = says o c.
  Proof.
    intros HT l r.
    assert (HW : forall x y, exists c, forall o, holds o (w_cmp W x y) = says o c).
    { intros x y. destruct (w_cmp W x y) as [c|] eqn:E; [|now apply HT in E]. exists c. intros o. apply holds_says. }
    assert (HX : forall a b, exists c, forall o, cmp_text W o a b = says o c).
    { intros a b. eexists. intros o. apply holds_says. }
    assert (HF : exists c, forall o, (match to_number_lenient W l, to_number_lenient W r with
        | Ok x, Ok y => holds o (w_cmp W x y)
        | _, _ => cmp_text W o (to_text W (VS l)) (to_text W (VS r))
        end) = says o c).
    { destruct (to_number_lenient W l), (to_number_lenient W r); auto. }
    destruct l, r; cbn [compared]; auto.
  Qed.
  Definition flip (o : cmpop) : cmpop := match o with CLt => CGt | CGt => CLt | CLe => CGe | CGe => CLe | o => o end.
  Lemma holds_flip : forall o c, holds (flip o) (option_map CompOpp c) = holds o c.
  Proof. intros [] [[]|]; reflexivity. Qed.
  Lemma compared_flip : (forall x y, w_cmp W y x = option_map CompOpp (w_cmp W x y)) ->
    forall o (l r : scalar T), compared W (flip o) r l = compared W o l r.
  Proof.
    intros HA o l r.
    assert (HX : forall a b, cmp_text W (flip o) b a = cmp_text W o a b).
    { intros a b. unfold cmp_text. rewrite (text_cmp_antisym (w_fold W b) (w_fold W a)).
      change (Some (CompOpp (text_cmp (w_fold W a) (w_fold W b)))) with (option_map CompOpp (Some (text_cmp (w_fold W a) (w_fold W b)))).
      apply holds_flip. }
    assert (HN : forall x y, holds (flip o) (w_cmp W y x) = holds o (w_cmp W x y)) by (intros x y; rewrite HA; apply holds_flip).
    assert (HF : (match to_number_lenient W r, to_number_lenient W l with
        | Ok x, Ok y => holds (flip o) (w_cmp W x y)
        | _, _ => cmp_text W (flip o) (to_text W (VS r)) (to_text W (VS l))
        end) = (match to_number_lenient W l, to_number_lenient W r with
        | Ok x, Ok y => holds o (w_cmp W x y)
        | _, _ => cmp_text W o (to_text W (VS l)) (to_text W (VS r))
        end)).
    { destruct (to_number_lenient W l), (to_number_lenient W r); auto. }
    destruct l, r; cbn [compared]; auto.
  Qed.

  (** Implicit intersection *)
  Lemma at_rect : forall s sr sc er ec a1 a2 a3 a4,
    ~ (sr = er /\ sc = ec) ->
    (forall cell, crosses (Z.min sr er) (Z.min sc ec) (Z.max sr er) (Z.max sc ec) (fst (here W) + 1, snd (here W) + 1)%Z cell ->
      at_reference W (RRange s (Some sr) (Some sc) (Some er) (Some ec) a1 a2 a3 a4) =
      shown W (w_cell W (Some (match s with Some s => s | None => w_sheet W end)) (fst cell) (snd cell))) /\
    ((forall cell, ~ crosses (Z.min sr er) (Z.min sc ec) (Z.max sr er) (Z.max sc ec) (fst (here W) + 1, snd (here W) + 1)%Z cell) ->
      at_reference W (RRange s (Some sr) (Some sc) (Some er) (Some ec) a1 a2 a3 a4) = SErr K_VALUE).
  Proof.
    intros s sr sc er ec a1 a2 a3 a4 HN. unfold crosses, at_reference. cbn [fst snd].
    set (r0 := Z.min sr er). set (r1 := Z.max sr er). set (c0 := Z.min sc ec). set (c1 := Z.max sc ec).
    set (cr := (fst (here W) + 1)%Z). set (cc := (snd (here W) + 1)%Z).
    assert (HR : (r0 <= r1)%Z) by lia. assert (HC : (c0 <= c1)%Z) by lia.
    assert (H1 : ~ (r0 = r1 /\ c0 = c1)) by lia.
    clearbody r0 r1 c0 c1 cr cc. clear HN.
    split.
    - intros [x y]. cbn [fst snd]. intros [X1 [X2 [X3 X4]]].
      destruct (Z.eqb_spec c0 c1) as [EC|EC].
      + assert (x = cr) by (apply X3; lia). assert (y = c0) by lia. subst x y.
        destruct (Z.leb_spec r0 cr); [|lia]. destruct (Z.leb_spec cr r1); [|lia]. reflexivity.
      + assert (y = cc) by (apply X4; lia). subst y.
        destruct (Z.eqb_spec r0 r1) as [ER|ER].
        * assert (x = r0) by lia. subst x.
          destruct (Z.leb_spec c0 cc); [|lia]. destruct (Z.leb_spec cc c1); [|lia]. reflexivity.
        * assert (x = cr) by (apply X3; lia). subst x.
          destruct (Z.leb_spec r0 cr); [|lia]. destruct (Z.leb_spec cr r1); [|lia].
          destruct (Z.leb_spec c0 cc); [|lia]. destruct (Z.leb_spec cc c1); [|lia]. reflexivity.
    - intros HX. destruct (Z.eqb_spec c0 c1) as [EC|EC].
      + specialize (HX (cr, c0)). cbn [fst snd] in HX.
        destruct (Z.leb_spec r0 cr), (Z.leb_spec cr r1); cbn [andb]; auto. exfalso. apply HX. repeat split; lia.
      + destruct (Z.eqb_spec r0 r1) as [ER|ER].
        * specialize (HX (r0, cc)). cbn [fst snd] in HX.
          destruct (Z.leb_spec c0 cc), (Z.leb_spec cc c1); cbn [andb]; auto. exfalso. apply HX. repeat split; lia.
        * specialize (HX (cr, cc)). cbn [fst snd] in HX.
          destruct (Z.leb_spec r0 cr), (Z.leb_spec cr r1); cbn [andb]; auto.
          destruct (Z.leb_spec c0 cc), (Z.leb_spec cc c1); cbn [andb]; auto. exfalso. apply HX. repeat split; lia.
  Qed.

  Lemma at_view : forall (r : range T), g_tmp r = false ->
    (forall cell, crosses (g_row r) (g_col r) (g_row r + Z.of_nat (height W (VA (g_cells r))) - 1) (g_col r + Z.of_nat (width W (VA (g_cells r))) - 1) (here W) cell ->
      at_range W r = nth (Z.to_nat (snd cell - g_col r)) (nth (Z.to_nat (fst cell - g_row r)) (g_cells r) []) SEmpty) /\
    ((forall cell, ~ crosses (g_row r) (g_col r) (g_row r + Z.of_nat (height W (VA (g_cells r))) - 1) (g_col r + Z.of_nat (width W (VA (g_cells r))) - 1) (here W) cell) ->
      at_range W r = SErr K_VALUE).
  Proof.
    intros [tmp r0 c0 g] HT. cbn [g_tmp g_row g_col g_cells] in *. subst tmp. unfold at_range, crosses.
    cbn [g_tmp g_row g_col g_cells].
    assert (HD : dims W g = (height W (VA g), width W (VA g))) by (now destruct g).
    rewrite HD. clear HD. set (h := height W (VA g)). set (w := width W (VA g)).
    destruct (here W) as [hr hc]. cbn [fst snd]. unfold get. clearbody h w.
    split.
    - intros [x y]. cbn [fst snd]. intros [X1 [X2 [X3 X4]]].
      destruct (Nat.eqb_spec h 0) as [E|E]; [lia|]. destruct (Nat.eqb_spec w 0) as [E'|E']; [lia|]. cbn [orb].
      destruct (Nat.eqb_spec h 1) as [Eh|Eh], (Nat.eqb_spec w 1) as [Ew|Ew]; cbn [andb].
      + replace (x - r0)%Z with 0%Z by lia. replace (y - c0)%Z with 0%Z by lia. reflexivity.
      + assert (y = hc) by (apply X4; lia). subst y. replace (x - r0)%Z with 0%Z by lia.
        destruct (Z.leb_spec 0 (hc - c0)); [|lia]. destruct (Z.ltb_spec (hc - c0) (Z.of_nat w)); [|lia]. reflexivity.
      + assert (x = hr) by (apply X3; lia). subst x. replace (y - c0)%Z with 0%Z by lia.
        destruct (Z.leb_spec 0 (hr - r0)); [|lia]. destruct (Z.ltb_spec (hr - r0) (Z.of_nat h)); [|lia]. reflexivity.
      + assert (y = hc) by (apply X4; lia). assert (x = hr) by (apply X3; lia). subst x y.
        destruct (Z.leb_spec 0 (hr - r0)); [|lia]. destruct (Z.ltb_spec (hr - r0) (Z.of_nat h)); [|lia].
        destruct (Z.leb_spec 0 (hc - c0)); [|lia]. destruct (Z.ltb_spec (hc - c0) (Z.of_nat w)); [|lia]. reflexivity.
    - intros HX. destruct (Nat.eqb_spec h 0) as [E|E]; [reflexivity|]. destruct (Nat.eqb_spec w 0) as [E'|E']; [reflexivity|]. cbn [orb].
      destruct (Nat.eqb_spec h 1) as [Eh|Eh], (Nat.eqb_spec w 1) as [Ew|Ew]; cbn [andb].
      + exfalso. apply (HX (r0, c0)). cbn [fst snd]. repeat split; lia.
      + destruct (Z.leb_spec 0 (hc - c0)), (Z.ltb_spec (hc - c0) (Z.of_nat w)); cbn [andb]; auto.
        exfalso. apply (HX (r0, hc)). cbn [fst snd]. repeat split; lia.
      + destruct (Z.leb_spec 0 (hr - r0)), (Z.ltb_spec (hr - r0) (Z.of_nat h)); cbn [andb]; auto.
        exfalso. apply (HX (hr, c0)). cbn [fst snd]. repeat split; lia.
      + destruct (Z.leb_spec 0 (hr - r0)), (Z.ltb_spec (hr - r0) (Z.of_nat h)); cbn [andb]; auto.
        destruct (Z.leb_spec 0 (hc - c0)), (Z.ltb_spec (hc - c0) (Z.of_nat w)); cbn [andb]; auto.
        exfalso. apply (HX (hr, hc)). cbn [fst snd]. repeat split; lia.
  Qed.
End Ops.
