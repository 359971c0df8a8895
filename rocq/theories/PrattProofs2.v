From Coq Require Import List Bool NArith PeanoNat Lia String.
From Verif Require Import LexModel LexSpec LexProofs PrattModel PrattSpec PrattProofs.
Import ListNotations.
Open Scope N_scope.

Section P.
Variables num ref : Type.
Variable pnum : text -> option num.
Variable pref : text -> option ref.
Notation expr := (expr num ref).
Notation bp := (bp num ref pnum pref).
Notation loop := (loop num ref pnum pref).
Notation prefix := (prefix num ref pnum pref).
Notation enter := (enter num ref pnum pref).
Notation args := (args num ref pnum pref).
Notation arr := (arr num ref pnum pref).
Notation operand := (operand num ref pnum pref).
Notation items := (items num ref pnum pref).
Notation tok_items := (tok_items num ref pnum pref).
Notation reading := (reading num ref).
Notation sepby := (sepby num ref).
Notation item := (item num ref).

Lemma items_app : forall a b, items (a ++ b) = items a ++ items b.
Proof. intros. unfold PrattSpec.items. apply flat_map_app. Qed.

Lemma skip_split : forall ts, exists w, ts = w ++ skip_ws ts /\ items w = [] /\
  (forall s x, nest s (w ++ x) = nest s x).
Proof.
  induction ts as [|t ts [w [E [Ei En]]]].
  - exists []. repeat split.
  - simpl. destruct (ttype_eqb (tt t) TWs) eqn:T.
    + exists (t :: w). apply ttype_eqb_eq in T. split; [simpl; rewrite <- E; reflexivity|].
      split.
      * unfold PrattSpec.items in *. simpl. rewrite Ei. unfold PrattSpec.tok_items. rewrite T. reflexivity.
      * intros s x. simpl. unfold opens, closes, bracket. rewrite T. simpl. apply En.
    + exists []. repeat split.
Qed.

Definition pre (i : item) (l : list (list item)) : list item :=
  flat_map (fun a => a ++ [i]) l.

Lemma sepby_snoc : forall i l x, sepby i (l ++ [x]) = pre i l ++ x.
Proof.
  intros i l x. induction l as [|a l IH]; [reflexivity|].
  change ((a :: l) ++ [x]) with (a :: (l ++ [x])).
  assert (E : sepby i (a :: (l ++ [x])) = a ++ i :: sepby i (l ++ [x])).
  { destruct (l ++ [x]) as [|b r] eqn:E; [destruct l; discriminate|reflexivity]. }
  rewrite E, IH. unfold pre. simpl. rewrite <- !app_assoc. reflexivity.
Qed.

Lemma pre_app : forall i a b, pre i (a ++ b) = pre i a ++ pre i b.
Proof. intros. unfold pre. apply flat_map_app. Qed.

Definition allf (fs : list ttype) : Prop := Forall (eq TFunc) fs.

(* What the consumed tokens do to the bracket stack, and what they spell. *)
Definition good (seg r : list tok) (want : list item -> Prop) : Prop :=
  forall s sx, nest s seg = Some sx ->
    (exists fs, s = fs ++ sx /\ allf fs /\ (fs = [] -> want (items seg)))
    \/ (r = [] /\ sx <> []).

(* The same for tokens that end with the closer [cl] of an open bracket. *)
Definition goodc (cl : ttype) (seg : list tok) (want : list item -> Prop) : Prop :=
  forall s sx, nest s seg = Some sx ->
    exists fs, s = fs ++ cl :: sx /\ allf fs /\ (fs = [] -> want (items seg)).

Definition gooda (seg r : list tok) (want : list item -> Prop) : Prop :=
  forall s0 sx, nest (TArray :: s0) seg = Some sx ->
    (sx = s0 /\ want (items seg)) \/ (r = [] /\ sx <> []).

Lemma allf_app : forall a b, allf a -> allf b -> allf (a ++ b).
Proof. intros. apply Forall_app. auto. Qed.

Lemma allf_not : forall t s fs sx, t <> TFunc -> t :: s = fs ++ sx -> allf fs -> fs = [] /\ sx = t :: s.
Proof.
  intros t s fs sx Ht E Hf. destruct fs as [|f fs]; [auto|].
  inversion Hf; subst. simpl in E. congruence.
Qed.

Lemma shape_app_r : forall (a b : list tok), Forall shape (a ++ b) -> Forall shape b.
Proof. intros a b H. apply Forall_app in H. tauto. Qed.

(* [prefix_op] values. *)
Lemma shape_pre : forall t, shape t -> tt t = TPre -> postfix_op (sem_value t) = false.
Proof.
  intros t H E. unfold shape in H. rewrite E in H. unfold sem_value. rewrite E. simpl.
  destruct (tsb t); try contradiction. destruct H as [-> | [-> | ->]]; reflexivity.
Qed.

Lemma shape_post : forall t, shape t -> tt t = TPost -> postfix_op (sem_value t) = true.
Proof.
  intros t H E. unfold shape in H. rewrite E in H. unfold sem_value. rewrite E. simpl.
  destruct (tsb t); try contradiction. destruct H as [-> | ->]; reflexivity.
Qed.

Lemma nest_plain : forall s t r, bracket t = false -> nest s (t :: r) = nest s r.
Proof. intros s t r H. simpl. unfold opens, closes. rewrite H. reflexivity. Qed.

Lemma is_tok_eq : forall ty sb t, is_tok ty sb t = true -> tt t = ty /\ tsb t = sb.
Proof.
  intros ty sb t H. unfold is_tok in H. apply andb_true_iff in H. destruct H as [A B].
  split; [apply ttype_eqb_eq|apply tsub_eqb_eq]; auto.
Qed.

Lemma is_sep_items : forall call t, is_sep call t = true ->
  tok_items t = [IComma _ _] /\ bracket t = false.
Proof.
  intros call t H. unfold is_sep in H. apply orb_true_iff in H. destruct H as [H|H].
  - apply is_tok_eq in H. destruct H as [A B]. unfold PrattSpec.tok_items, bracket. rewrite A, B. auto.
  - apply andb_true_iff in H. destruct H as [H V]. apply andb_true_iff in H. destruct H as [_ T].
    apply ttype_eqb_eq in T. apply text_eqb_spec in V.
    unfold PrattSpec.tok_items, bracket, sem_value. rewrite T, V. simpl. auto.
Qed.

Lemma is_close_props : forall call t, is_close call t = true ->
  tok_items t = [] /\ forall s r,
    nest s (t :: r) = match s with
      | o :: s' => if ttype_eqb o (if call then TParen else TFunc) then nest s' r else None
      | [] => None end.
Proof.
  intros call t H. unfold is_close in H. apply is_tok_eq in H. destruct H as [A B].
  split.
  - unfold PrattSpec.tok_items. rewrite A, B. destruct call; reflexivity.
  - intros s r. simpl. unfold opens, closes, bracket. rewrite A, B. destruct call; reflexivity.
Qed.

Lemma close_good : forall call t w (want : list item -> Prop),
  is_close call t = true -> items w = [] -> (forall s x, nest s (w ++ x) = nest s x) ->
  want [] -> goodc (if call then TParen else TFunc) (w ++ [t]) want.
Proof.
  intros call t w want Hc Hi Hn Hw s sx H.
  destruct (is_close_props call t Hc) as [Ht Hs].
  rewrite Hn, Hs in H. destruct s as [|o s]; [discriminate|].
  destruct (ttype_eqb o (if call then TParen else TFunc)) eqn:E; [|discriminate].
  apply ttype_eqb_eq in E. simpl in H. inversion H; subst. exists [].
  split; auto. split; [constructor|]. intros _.
  rewrite items_app, Hi. unfold PrattSpec.items. simpl. rewrite Ht. auto.
Qed.

(* [goodc] after some tokens. *)
Lemma goodc_good : forall cl seg1 seg2 r1 (w1 w2 want : list item -> Prop),
  r1 <> [] ->
  good seg1 r1 w1 -> goodc cl seg2 w2 ->
  (forall a b, w1 a -> w2 b -> want (a ++ b)) ->
  goodc cl (seg1 ++ seg2) want.
Proof.
  intros cl seg1 seg2 r1 w1 w2 want Hr G1 G2 Hw s sx H.
  rewrite nest_app in H. destruct (nest s seg1) as [s1|] eqn:E1; [|discriminate].
  destruct (G1 s s1 E1) as [[fs [Es [Hf Hi]]]|[Hr1 _]]; [|congruence].
  destruct (G2 s1 sx H) as [fs2 [Es2 [Hf2 Hi2]]].
  exists (fs ++ fs2). split; [rewrite Es, Es2, app_assoc; reflexivity|].
  split; [apply allf_app; auto|]. intro E. apply app_eq_nil in E. destruct E as [-> ->].
  rewrite items_app. auto.
Qed.

Lemma good_one : forall t (r : list tok) (want : list item -> Prop),
  bracket t = false -> want (tok_items t) -> good [t] r want.
Proof.
  intros t r want Hb Hw s sx H. rewrite nest_plain in H by auto. simpl in H. inversion H; subst.
  left. exists []. split; auto. split; [constructor|]. intros _.
  unfold PrattSpec.items. simpl. rewrite app_nil_r. auto.
Qed.

Lemma good_ws : forall w (r : list tok) (want : list item -> Prop), items w = [] -> (forall s x, nest s (w ++ x) = nest s x) ->
  want [] -> good w r want.
Proof.
  intros w r want Hi Hn Hw s sx H. rewrite <- (app_nil_r w) in H. rewrite Hn in H. simpl in H.
  inversion H; subst. left. exists []. split; auto. split; [constructor|]. intros _. rewrite Hi. auto.
Qed.

Lemma good_app : forall seg1 seg2 r1 r (w1 w2 want : list item -> Prop),
  (r1 = [] -> seg2 = [] /\ r = []) ->
  good seg1 r1 w1 -> good seg2 r w2 ->
  (forall a b, w1 a -> w2 b -> want (a ++ b)) ->
  good (seg1 ++ seg2) r want.
Proof.
  intros seg1 seg2 r1 r w1 w2 want Hr G1 G2 Hw s sx H.
  rewrite nest_app in H. destruct (nest s seg1) as [s1|] eqn:E1; [|discriminate].
  destruct (G1 s s1 E1) as [[fs [Es [Hf Hi]]]|[Hr1 Hs1]].
  - destruct (G2 s1 sx H) as [[fs2 [Es2 [Hf2 Hi2]]]|R]; [left|right; auto].
    exists (fs ++ fs2). split; [rewrite Es, Es2, app_assoc; reflexivity|].
    split; [apply allf_app; auto|]. intro E. apply app_eq_nil in E. destruct E as [-> ->].
    rewrite items_app. auto.
  - destruct (Hr Hr1) as [-> ->]. simpl in H. inversion H; subst. right. auto.
Qed.

Lemma soundness : forall n,
  (forall k m ts e r, bp n k m ts = POk (e, r) -> Forall shape ts ->
     exists seg, ts = seg ++ r /\ good seg r (fun a => a = reading e)) /\
  (forall k m l ts e r, loop n k m l ts = POk (e, r) -> Forall shape ts ->
     exists seg, ts = seg ++ r /\ good seg r (fun a => reading l ++ a = reading e)) /\
  (forall k ts e r, prefix n k ts = POk (e, r) -> Forall shape ts ->
     exists seg, ts = seg ++ r /\ good seg r (fun a => a = reading e)) /\
  (forall c k ts a r, enter n c k ts = POk (a, r) -> Forall shape ts ->
     exists seg, ts = seg ++ r /\
       goodc (if c then TParen else TFunc) seg (fun i => i = sepby (IComma _ _) (map reading a))) /\
  (forall c k ex sw acc ts a r, args n c k ex sw acc ts = POk (a, r) -> Forall shape ts ->
     (sw = false -> acc = []) -> (ex = false -> acc <> []) ->
     exists seg, ts = seg ++ r /\
       goodc (if c then TParen else TFunc) seg
         (fun i => (if ex then pre (IComma _ _) (map reading acc)
                    else sepby (IComma _ _) (map reading acc)) ++ i
                   = sepby (IComma _ _) (map reading a))) /\
  (forall k rows row ts e r, arr n k rows row ts = POk (e, r) -> Forall shape ts -> row <> [] ->
     exists seg, ts = seg ++ r /\
       gooda seg r (fun i =>
         ILB _ _ :: pre (ISemi _ _) (map (fun w => sepby (IComma _ _) (map reading w)) rows)
           ++ sepby (IComma _ _) (map reading row) ++ i = reading e)).
Proof.
  induction n as [|n [Ibp [Iloop [Ipre [Ient [Iargs Iarr]]]]]].
  { split; [|split; [|split; [|split; [|split]]]]; intros; discriminate. }
  split; [|split; [|split; [|split; [|split]]]].
  - (* bp *)
    intros k m ts e r H Hsh. rewrite bp_S in H.
    destruct (prefix n k ts) as [[l ts1]| |] eqn:E1; try discriminate.
    destruct (Ipre _ _ _ _ E1 Hsh) as [seg1 [-> G1]].
    destruct (Iloop _ _ _ _ _ _ H) as [seg2 [-> G2]]; [eapply shape_app_r; eauto|].
    exists (seg1 ++ seg2). split; [apply app_assoc|].
    eapply good_app; [|exact G1|exact G2|].
    + intro Q. apply app_eq_nil in Q. destruct Q; auto.
    + intros a b -> <-. reflexivity.
  - (* loop *)
    intros k m l ts e r H Hsh. rewrite loop_S in H.
    destruct (skip_split ts) as [w [Ew [Iw Nw]]].
    destruct (skip_ws ts) as [|t r0] eqn:Es.
    { inversion H; subst. exists w. split; [auto|]. apply good_ws; auto. apply app_nil_r. }
    assert (Hst : shape t) by (rewrite Ew in Hsh; apply shape_app_r in Hsh; inversion Hsh; auto).
    assert (Hsr : Forall shape r0) by (rewrite Ew in Hsh; apply shape_app_r in Hsh; inversion Hsh; auto).
    assert (Hstop : POk (l, t :: r0) = POk (e, r) -> exists seg, ts = seg ++ r /\
        good seg r (fun a => reading l ++ a = reading e)).
    { intro Q. inversion Q; subst e r. exists w. split; auto. apply good_ws; auto. apply app_nil_r. }
    destruct (is_tok TParen SOpen t) eqn:Et.
    { apply is_tok_eq in Et. destruct Et as [A B].
      destruct (enter n true k r0) as [[a r1]| |] eqn:Ee; try discriminate.
      destruct (Ient _ _ _ _ _ Ee Hsr) as [seg1 [-> G1]].
      destruct (Iloop _ _ _ _ _ _ H) as [seg2 [-> G2]]; [eapply shape_app_r; eauto|].
      exists ((w ++ [t] ++ seg1) ++ seg2). split; [rewrite Ew, <- !app_assoc; reflexivity|].
      eapply good_app with (w1 := fun i => i = sepby (IComma _ _) (map reading a))
        (r1 := seg2 ++ r) (w2 := fun b => reading (ECall _ _ l a) ++ b = reading e); auto.
      - intro Q. apply app_eq_nil in Q. destruct Q; auto.
      - intros s sx Hn. rewrite Nw in Hn. simpl in Hn. unfold opens, closes, bracket in Hn.
        rewrite A, B in Hn. simpl in Hn. destruct (G1 _ _ Hn) as [fs [E [Hf Hi]]].
        apply allf_not in E; [|discriminate|auto]. destruct E as [-> E]. inversion E; subst.
        left. exists []. split; auto. split; [constructor|]. intros _.
        rewrite !items_app, Iw. unfold PrattSpec.items at 1. simpl. unfold PrattSpec.tok_items at 1.
        rewrite A. simpl. apply Hi. reflexivity.
      - intros x b -> <-. simpl. rewrite <- app_assoc. reflexivity. }
    destruct (ttype_eqb (tt t) TPost) eqn:Ep.
    { destruct (fst (op_prec (sem_value t)) <? m); auto.
      apply ttype_eqb_eq in Ep.
      destruct (Iloop _ _ _ _ _ _ H) as [seg2 [-> G2]]; auto.
      exists ((w ++ [t]) ++ seg2). split; [rewrite Ew, <- !app_assoc; reflexivity|].
      eapply good_app with (r1 := seg2 ++ r) (w1 := fun a => a = [op_item _ _ (sem_value t)]).
      - intro Q. apply app_eq_nil in Q. destruct Q; auto.
      - eapply good_app with (w1 := fun a => a = []) (r1 := t :: seg2 ++ r); [discriminate|apply good_ws; auto|
          apply good_one with (want := fun a => a = [op_item _ _ (sem_value t)])|].
        + unfold bracket. rewrite Ep. reflexivity.
        + unfold PrattSpec.tok_items. rewrite Ep. reflexivity.
        + intros a b -> ->. reflexivity.
      - exact G2.
      - intros a b -> Hb. rewrite <- Hb. cbn [PrattSpec.reading].
        rewrite (shape_post t Hst Ep). rewrite <- app_assoc. reflexivity. }
    destruct (ttype_eqb (tt t) TInf) eqn:Ei; simpl in H; [|auto].
    destruct (k && text_eqb (tv t) [c_comma]); auto.
    destruct (op_prec (sem_value t)) as [p la]. destruct (p <? m); auto.
    apply ttype_eqb_eq in Ei.
    destruct (bp n k (if la then p + 1 else p) r0) as [[y r1]| |] eqn:Eb; try discriminate.
    destruct (Ibp _ _ _ _ _ Eb Hsr) as [seg1 [-> G1]].
    destruct (Iloop _ _ _ _ _ _ H) as [seg2 [-> G2]]; [eapply shape_app_r; eauto|].
    exists (((w ++ [t]) ++ seg1) ++ seg2). split; [rewrite Ew, <- !app_assoc; reflexivity|].
    eapply good_app with (r1 := seg2 ++ r) (w1 := fun a => a = op_item _ _ (sem_value t) :: reading y).
    + intro Q. apply app_eq_nil in Q. destruct Q; auto.
    + eapply good_app with (r1 := seg1 ++ seg2 ++ r) (w1 := fun a => a = [op_item _ _ (sem_value t)]).
      * intro Q. apply app_eq_nil in Q. destruct Q; auto.
      * eapply good_app with (w1 := fun a => a = []) (r1 := t :: seg2 ++ r); [discriminate|apply good_ws; auto|
          apply good_one with (want := fun a => a = [op_item _ _ (sem_value t)])|].
        -- unfold bracket. rewrite Ei. reflexivity.
        -- unfold PrattSpec.tok_items. rewrite Ei. reflexivity.
        -- intros a b -> ->. reflexivity.
      * exact G1.
      * intros a b -> ->. reflexivity.
    + exact G2.
    + intros a b -> Hb. rewrite <- Hb. cbn [PrattSpec.reading]. rewrite <- app_assoc. reflexivity.
  - (* prefix *)
    intros k ts e r H Hsh. rewrite prefix_S in H.
    destruct (skip_split ts) as [w [Ew [Iw Nw]]].
    destruct (skip_ws ts) as [|t r0] eqn:Es; [discriminate|].
    assert (Hst : shape t) by (rewrite Ew in Hsh; apply shape_app_r in Hsh; inversion Hsh; auto).
    assert (Hsr : Forall shape r0) by (rewrite Ew in Hsh; apply shape_app_r in Hsh; inversion Hsh; auto).
    destruct (tt t) eqn:T; try discriminate.
    + (* operand *)
      destruct (operand (tsb t) (tv t)) as [e0|] eqn:Eo; [|discriminate].
      inversion H; subst e0 r0. exists (w ++ [t]). split; [rewrite Ew, <- app_assoc; reflexivity|].
      eapply good_app with (w1 := fun a => a = []) (r1 := t :: r) (w2 := fun a => a = reading e);
        [discriminate|apply good_ws; auto|apply good_one|].
      * unfold bracket. rewrite T. reflexivity.
      * unfold PrattSpec.tok_items. rewrite T, Eo.
        unfold PrattModel.operand in Eo. destruct (tsb t); try discriminate.
        -- inversion Eo. reflexivity.
        -- destruct (pnum (tv t)); inversion Eo. reflexivity.
        -- inversion Eo. reflexivity.
        -- inversion Eo. reflexivity.
        -- destruct (pref (tv t)); inversion Eo. reflexivity.
      * intros a b -> ->. reflexivity.
    + (* function *)
      destruct (enter n false k r0) as [[a r1]| |] eqn:Ee; try discriminate.
      inversion H; subst e r1. destruct (Ient _ _ _ _ _ Ee Hsr) as [seg1 [-> G1]].
      exists (w ++ t :: seg1). split; [rewrite Ew, <- app_assoc; reflexivity|].
      intros s sx Hn. rewrite Nw in Hn. simpl in Hn. unfold opens, closes, bracket in Hn.
      rewrite T in Hn. simpl in Hn. left.
      destruct (tsb t) eqn:B.
      7:{ destruct (G1 _ _ Hn) as [fs [E [Hf Hi]]].
          destruct fs as [|f fs].
          - simpl in E. inversion E; subst. exists []. split; auto. split; [constructor|].
            intros _. rewrite items_app, Iw. unfold PrattSpec.items at 1. simpl.
            unfold PrattSpec.tok_items at 1. rewrite T, B. simpl. f_equal. apply Hi. reflexivity.
          - inversion E; subst. inversion Hf; subst. exists (fs ++ [TFunc]).
            split; [rewrite <- app_assoc; reflexivity|]. split; [apply allf_app; auto; repeat constructor|].
            intro Q. apply app_eq_nil in Q. destruct Q; discriminate. }
      7:{ destruct s as [|o s]; [discriminate|].
          destruct (ttype_eqb o TFunc) eqn:Q; [|discriminate]. apply ttype_eqb_eq in Q. subst o.
          destruct (G1 _ _ Hn) as [fs [E [Hf Hi]]]. subst s.
          exists (TFunc :: fs ++ [TFunc]). split; [simpl; rewrite <- app_assoc; reflexivity|].
          split; [constructor; auto; apply allf_app; auto; repeat constructor|]. discriminate. }
      all: destruct (G1 _ _ Hn) as [fs [E [Hf Hi]]]; exists (fs ++ [TFunc]);
          (split; [rewrite <- app_assoc; auto|]); (split; [apply allf_app; auto; repeat constructor|]);
          intro Q; apply app_eq_nil in Q; destruct Q; discriminate.
    + (* array *)
      destruct (tsub_eqb (tsb t) SOpen) eqn:B; [|discriminate]. apply tsub_eqb_eq in B.
      destruct (skip_split r0) as [w2 [Ew2 [Iw2 Nw2]]].
      destruct (skip_ws r0) as [|t2 r2] eqn:Es2; [discriminate|].
      assert (Hs2 : Forall shape (t2 :: r2)) by (rewrite Ew2 in Hsr; apply shape_app_r in Hsr; auto).
      destruct (is_tok TArray SClose t2) eqn:C2.
      * inversion H; subst e r2. apply is_tok_eq in C2. destruct C2 as [A2 B2].
        exists (w ++ t :: w2 ++ [t2]). split; [rewrite Ew, Ew2, <- !app_assoc; simpl; rewrite <- app_assoc; reflexivity|].
        intros s sx Hn. rewrite Nw in Hn. simpl in Hn. unfold opens, closes, bracket in Hn.
        rewrite T, B in Hn. simpl in Hn. rewrite Nw2 in Hn. simpl in Hn.
        unfold opens, closes, bracket in Hn. rewrite A2, B2 in Hn. simpl in Hn. inversion Hn; subst.
        left. exists []. split; auto. split; [constructor|]. intros _.
        rewrite items_app, Iw. simpl. unfold PrattSpec.items. simpl. unfold PrattSpec.tok_items at 1.
        rewrite T, B. fold (items (w2 ++ [t2])). rewrite items_app, Iw2. unfold PrattSpec.items. simpl.
        unfold PrattSpec.tok_items. rewrite A2, B2. reflexivity.
      * destruct (bp n k 0 (t2 :: r2)) as [[x r1]| |] eqn:Eb; try discriminate.
        destruct (Ibp _ _ _ _ _ Eb Hs2) as [seg1 [E1 G1]].
        assert (Hs1 : Forall shape r1) by (rewrite E1 in Hs2; apply shape_app_r in Hs2; auto).
        destruct (Iarr _ _ _ _ _ _ H Hs1) as [seg2 [E2 G2]]; [discriminate|].
        exists (w ++ t :: w2 ++ seg1 ++ seg2).
        split; [rewrite Ew, Ew2, E1, E2, <- !app_assoc; simpl; rewrite <- !app_assoc; reflexivity|].
        intros s sx Hn. rewrite Nw in Hn. simpl in Hn. unfold opens, closes, bracket in Hn.
        rewrite T, B in Hn. simpl in Hn. rewrite Nw2, nest_app in Hn.
        destruct (nest (TArray :: s) seg1) as [s1|] eqn:N1; [|discriminate].
        destruct (G1 _ _ N1) as [[fs [E [Hf Hi]]]|[R1 R2]].
        -- apply allf_not in E; [|discriminate|auto]. destruct E as [-> ->].
           destruct (G2 _ _ Hn) as [[-> Hw]|R]; [left|right; auto].
           exists []. split; auto. split; [constructor|]. intros _.
           rewrite items_app, Iw. simpl. unfold PrattSpec.items at 1. simpl.
           unfold PrattSpec.tok_items at 1. rewrite T, B. fold (items (w2 ++ seg1 ++ seg2)).
           rewrite !items_app, Iw2. rewrite Hi by reflexivity. simpl in *. exact Hw.
        -- right. rewrite R1 in E2. symmetry in E2. apply app_eq_nil in E2. destruct E2 as [-> ->].
           simpl in Hn. inversion Hn; subst. auto.
    + (* parenthesis *)
      destruct (tsub_eqb (tsb t) SOpen) eqn:B; [|discriminate]. apply tsub_eqb_eq in B.
      destruct (bp n k 0 r0) as [[x r1]| |] eqn:Eb; try discriminate.
      destruct (Ibp _ _ _ _ _ Eb Hsr) as [seg1 [E1 G1]].
      destruct (skip_split r1) as [w2 [Ew2 [Iw2 Nw2]]].
      destruct (skip_ws r1) as [|t2 r2] eqn:Es2; [discriminate|].
      destruct (is_tok TParen SClose t2) eqn:C2; [|discriminate].
      inversion H; subst x r2. apply is_tok_eq in C2. destruct C2 as [A2 B2].
      exists (w ++ t :: seg1 ++ w2 ++ [t2]).
      split; [rewrite Ew, E1, Ew2, <- !app_assoc; simpl; rewrite <- !app_assoc; reflexivity|].
      intros s sx Hn. rewrite Nw in Hn. simpl in Hn. unfold opens, closes, bracket in Hn.
      rewrite T, B in Hn. simpl in Hn. rewrite nest_app in Hn.
      destruct (nest (TParen :: s) seg1) as [s1|] eqn:N1; [|discriminate].
      destruct (G1 _ _ N1) as [[fs [E [Hf Hi]]]|[R1 R2]].
      * apply allf_not in E; [|discriminate|auto]. destruct E as [-> ->].
        rewrite Nw2 in Hn. simpl in Hn. unfold opens, closes, bracket in Hn. rewrite A2, B2 in Hn.
        simpl in Hn. inversion Hn; subst. left. exists []. split; auto. split; [constructor|]. intros _.
        rewrite items_app, Iw. simpl. unfold PrattSpec.items at 1. simpl.
        unfold PrattSpec.tok_items at 1. rewrite T. fold (items (seg1 ++ w2 ++ [t2])).
        rewrite !items_app, Iw2. rewrite Hi by reflexivity. simpl.
        unfold PrattSpec.items. simpl. unfold PrattSpec.tok_items. rewrite A2. simpl. apply app_nil_r.
      * rewrite R1 in Ew2. destruct w2; discriminate.
    + (* prefix operator *)
      destruct (bp n k pre_prec r0) as [[x r1]| |] eqn:Eb; try discriminate.
      inversion H; subst e r1. destruct (Ibp _ _ _ _ _ Eb Hsr) as [seg1 [-> G1]].
      exists ((w ++ [t]) ++ seg1). split; [rewrite Ew, <- !app_assoc; reflexivity|].
      eapply good_app with (r1 := seg1 ++ r) (w1 := fun a => a = [op_item _ _ (sem_value t)]).
      * intro Q. apply app_eq_nil in Q. destruct Q; auto.
      * eapply good_app with (w1 := fun a => a = []) (r1 := t :: seg1 ++ r); [discriminate|apply good_ws; auto|
          apply good_one with (want := fun a => a = [op_item _ _ (sem_value t)])|].
        -- unfold bracket. rewrite T. reflexivity.
        -- unfold PrattSpec.tok_items. rewrite T. reflexivity.
        -- intros a b -> ->. reflexivity.
      * exact G1.
      * intros a b -> ->. cbn [PrattSpec.reading]. rewrite (shape_pre t Hst T). reflexivity.
  - (* enter *)
    intros c k ts a r H Hsh. rewrite enter_S in H.
    destruct (skip_split ts) as [w [Ew [Iw Nw]]].
    destruct (skip_ws ts) as [|t r0] eqn:Es; [discriminate|].
    destruct (is_close c t) eqn:Ec.
    + inversion H; subst a r0. exists (w ++ [t]). split; [rewrite Ew, <- app_assoc; reflexivity|].
      apply close_good; auto.
    + assert (Hsr : Forall shape (t :: r0)) by (rewrite Ew in Hsh; apply shape_app_r in Hsh; auto).
      destruct (Iargs _ _ _ _ _ _ _ _ H Hsr) as [seg [E G]]; auto; [discriminate|].
      exists (w ++ seg). split; [rewrite Ew, E, app_assoc; reflexivity|].
      eapply goodc_good with (r1 := t :: r0) (w1 := fun a => a = []);
        [discriminate|apply good_ws; auto|exact G|]. intros x b -> Hb. exact Hb.
  - (* args *)
    intros c k ex sw acc ts a r H Hsh Hsw Hex. rewrite args_S in H.
    destruct (skip_split ts) as [w [Ew [Iw Nw]]].
    destruct (skip_ws ts) as [|t r0] eqn:Es; [discriminate|].
    assert (Hsr : Forall shape (t :: r0)) by (rewrite Ew in Hsh; apply shape_app_r in Hsh; auto).
    assert (Hsr0 : Forall shape r0) by (inversion Hsr; auto).
    destruct ex.
    + destruct (is_close c t) eqn:Ec.
      { inversion H; subst a r0. exists (w ++ [t]). split; [rewrite Ew, <- app_assoc; reflexivity|].
        apply close_good; auto. destruct sw.
        - rewrite map_app. cbn [map PrattSpec.reading]. rewrite sepby_snoc. reflexivity.
        - rewrite Hsw by auto. reflexivity. }
      destruct (is_sep c t) eqn:Ep.
      { destruct (is_sep_items c t Ep) as [It Bt].
        destruct (Iargs _ _ _ _ _ _ _ _ H Hsr0) as [seg [E G]]; try discriminate.
        exists ((w ++ [t]) ++ seg). split; [rewrite Ew, E, <- !app_assoc; reflexivity|].
        eapply goodc_good with (r1 := seg ++ r) (w1 := fun a => a = [IComma _ _]).
        - intro Q. apply app_eq_nil in Q. destruct Q as [-> ->].
          simpl in E. subst r0. destruct n; [discriminate|]. rewrite args_S in H. discriminate.
        - eapply good_app with (w1 := fun a => a = []) (r1 := t :: r0); [discriminate|apply good_ws; auto|
            apply good_one with (want := fun a => a = [IComma _ _]); auto|].
          intros x b -> ->. reflexivity.
        - exact G.
        - intros x b -> Hb. rewrite <- Hb. cbn beta iota. rewrite map_app, pre_app.
          simpl. rewrite <- app_assoc. reflexivity. }
      destruct (bp n k 0 (t :: r0)) as [[x r1]| |] eqn:Eb; try discriminate.
      destruct (Ibp _ _ _ _ _ Eb Hsr) as [seg1 [E1 G1]].
      assert (Hs1 : Forall shape r1) by (rewrite E1 in Hsr; apply shape_app_r in Hsr; auto).
      destruct (Iargs _ _ _ _ _ _ _ _ H Hs1) as [seg [E G]]; [discriminate| |].
      { intros _ Q. apply app_eq_nil in Q. destruct Q; discriminate. }
      exists ((w ++ seg1) ++ seg). split; [rewrite Ew, E1, E, <- !app_assoc; reflexivity|].
      eapply goodc_good with (r1 := r1) (w1 := fun a => a = reading x).
      * intros ->. destruct n; [discriminate|]. rewrite args_S in H. discriminate.
      * eapply good_app with (w1 := fun a => a = []) (r1 := t :: r0); [discriminate|apply good_ws; auto|
            exact G1|]. intros y b -> ->. reflexivity.
      * exact G.
      * intros y b -> Hb. rewrite <- Hb. cbn beta iota. rewrite map_app. cbn [map]. rewrite sepby_snoc, <- app_assoc.
        reflexivity.
    + destruct (is_sep c t) eqn:Ep.
      { destruct (is_sep_items c t Ep) as [It Bt].
        destruct (Iargs _ _ _ _ _ _ _ _ H Hsr0) as [seg [E G]]; [auto|discriminate|].
        exists ((w ++ [t]) ++ seg). split; [rewrite Ew, E, <- !app_assoc; reflexivity|].
        eapply goodc_good with (r1 := seg ++ r) (w1 := fun a => a = [IComma _ _]).
        - intro Q. apply app_eq_nil in Q. destruct Q as [-> ->].
          simpl in E. subst r0. destruct n; [discriminate|]. rewrite args_S in H. discriminate.
        - eapply good_app with (w1 := fun a => a = []) (r1 := t :: r0); [discriminate|apply good_ws; auto|
            apply good_one with (want := fun a => a = [IComma _ _]); auto|].
          intros x b -> ->. reflexivity.
        - exact G.
        - intros x b -> Hb. rewrite <- Hb. cbn beta iota.
          destruct (exists_last (Hex eq_refl)) as [l' [z Hz]]. rewrite Hz, map_app.
          simpl. rewrite sepby_snoc, pre_app. simpl. rewrite app_nil_r, <- !app_assoc. reflexivity. }
      destruct (is_close c t) eqn:Ec; [|discriminate].
      inversion H; subst a r0. exists (w ++ [t]). split; [rewrite Ew, <- app_assoc; reflexivity|].
      apply close_good; auto. apply app_nil_r.
  - (* arr *)
    intros k rows row ts e r H Hsh Hrow. rewrite arr_S in H.
    destruct (skip_split ts) as [w [Ew [Iw Nw]]].
    destruct (skip_ws ts) as [|t r0] eqn:Es.
    { inversion H; subst. exists w. split; [auto|]. intros s0 sx Hn.
      rewrite <- (app_nil_r w), Nw in Hn. simpl in Hn. inversion Hn; subst. right. split; auto. discriminate. }
    assert (Hsr0 : Forall shape r0).
    { rewrite Ew in Hsh. apply shape_app_r in Hsh. inversion Hsh; auto. }
    destruct (ttype_eqb (tt t) TSep) eqn:T.
    + apply ttype_eqb_eq in T.
      assert (Bt : bracket t = false) by (unfold bracket; rewrite T; reflexivity).
      destruct (tsb t) eqn:B; try discriminate.
      * destruct (bp n k 0 r0) as [[x r1]| |] eqn:Eb; try discriminate.
        destruct (Ibp _ _ _ _ _ Eb Hsr0) as [seg1 [E1 G1]].
        assert (Hs1 : Forall shape r1) by (rewrite E1 in Hsr0; apply shape_app_r in Hsr0; auto).
        destruct (Iarr _ _ _ _ _ _ H Hs1) as [seg2 [E2 G2]]; [destruct row; discriminate|].
        exists (w ++ t :: seg1 ++ seg2). split; [rewrite Ew, E1, E2, <- !app_assoc; simpl; rewrite <- !app_assoc; reflexivity|].
        intros s0 sx Hn. rewrite Nw, nest_plain, nest_app in Hn by auto.
        destruct (nest (TArray :: s0) seg1) as [s1|] eqn:N1; [|discriminate].
        destruct (G1 _ _ N1) as [[fs [E [Hf Hi]]]|[R1 R2]].
        -- apply allf_not in E; [|discriminate|auto]. destruct E as [-> ->].
           destruct (G2 _ _ Hn) as [[-> Hw]|R]; [left|right; auto]. split; auto.
           rewrite items_app, Iw. simpl. unfold PrattSpec.items at 1. simpl.
           unfold PrattSpec.tok_items at 1. rewrite T, B. fold (items (seg1 ++ seg2)).
           rewrite items_app, Hi by reflexivity. rewrite <- Hw.
           destruct (exists_last Hrow) as [row' [z Hz]]. rewrite Hz.
           rewrite !map_app. cbn [map]. rewrite !sepby_snoc, pre_app. simpl.
           rewrite app_nil_r, <- !app_assoc. reflexivity.
        -- right. rewrite R1 in E2. symmetry in E2. apply app_eq_nil in E2. destruct E2 as [-> ->].
           simpl in Hn. inversion Hn; subst. auto.
      * destruct (bp n k 0 r0) as [[x r1]| |] eqn:Eb; try discriminate.
        destruct (Ibp _ _ _ _ _ Eb Hsr0) as [seg1 [E1 G1]].
        assert (Hs1 : Forall shape r1) by (rewrite E1 in Hsr0; apply shape_app_r in Hsr0; auto).
        destruct (Iarr _ _ _ _ _ _ H Hs1) as [seg2 [E2 G2]]; [discriminate|].
        exists (w ++ t :: seg1 ++ seg2). split; [rewrite Ew, E1, E2, <- !app_assoc; simpl; rewrite <- !app_assoc; reflexivity|].
        intros s0 sx Hn. rewrite Nw, nest_plain, nest_app in Hn by auto.
        destruct (nest (TArray :: s0) seg1) as [s1|] eqn:N1; [|discriminate].
        destruct (G1 _ _ N1) as [[fs [E [Hf Hi]]]|[R1 R2]].
        -- apply allf_not in E; [|discriminate|auto]. destruct E as [-> ->].
           destruct (G2 _ _ Hn) as [[-> Hw]|R]; [left|right; auto]. split; auto.
           rewrite items_app, Iw. simpl. unfold PrattSpec.items at 1. simpl.
           unfold PrattSpec.tok_items at 1. rewrite T, B. fold (items (seg1 ++ seg2)).
           rewrite items_app, Hi by reflexivity. rewrite <- Hw.
           rewrite map_app, pre_app. simpl. rewrite app_nil_r, <- !app_assoc. reflexivity.
        -- right. rewrite R1 in E2. symmetry in E2. apply app_eq_nil in E2. destruct E2 as [-> ->].
           simpl in Hn. inversion Hn; subst. auto.
    + destruct (is_tok TArray SClose t) eqn:C2; [|discriminate].
      inversion H; subst e r0. apply is_tok_eq in C2. destruct C2 as [A2 B2].
      exists (w ++ [t]). split; [rewrite Ew, <- app_assoc; reflexivity|].
      intros s0 sx Hn. rewrite Nw in Hn. simpl in Hn. unfold opens, closes, bracket in Hn.
      rewrite A2, B2 in Hn. simpl in Hn. inversion Hn; subst. left. split; auto.
      rewrite items_app, Iw. unfold PrattSpec.items. simpl. unfold PrattSpec.tok_items. rewrite A2, B2.
      rewrite map_app. simpl. rewrite sepby_snoc. rewrite <- app_assoc. reflexivity.
Qed.
End P.
