From Coq Require Import ZifyN ZifyNat ZifyBool.
From Verif Require Import Base Maps SheetModel SheetSpec.
Local Open Scope N_scope.
Ltac Zify.zify_post_hook ::= Z.div_mod_to_equations.

Section S.
  Variable lower : text -> text.
  Hypothesis LOK : lower_ok lower.

  Lemma rget_put_same : forall m k v, rget (rput m k v) k = Some v.
  Proof. intros. apply mget_put_same, text_eqb_spec. Qed.
  Lemma rget_put_other : forall m k v j, k <> j -> rget (rput m k v) j = rget m j.
  Proof. intros. apply mget_put_other; auto using text_eqb_spec. Qed.
  Lemma rget_del_same : forall m k, rget (rdel m k) k = None.
  Proof. intros. apply mget_del_same. Qed.
  Lemma rget_del_other : forall m k j, k <> j -> rget (rdel m k) j = rget m j.
  Proof. intros. apply mget_del_other; auto using text_eqb_spec. Qed.

  Record Inv (g : registry) : Prop := {
    iA : forall k id, rget (by_name g) k = Some id -> sheet_name g id <> [] /\ lower (sheet_name g id) = k;
    iB : forall id, sheet_name g id <> [] -> rget (by_name g) (lower (sheet_name g id)) = Some id;
    iC : N.of_nat (length (names g)) <= 65536 }.

  Lemma sheet_name_lt : forall g id, sheet_name g id <> [] -> (N.to_nat id < length (names g))%nat.
  Proof.
    intros g id H. unfold sheet_name in H. destruct (lt_dec (N.to_nat id) (length (names g))); auto.
    rewrite nth_overflow in H by lia. congruence.
  Qed.

  Lemma sheet_name_app : forall m l n id,
    sheet_name (mkReg m (l ++ [n])) id = if id =? N.of_nat (length l) then n else nth (N.to_nat id) l [].
  Proof.
    intros m l n id. unfold sheet_name. cbn [names]. destruct (id =? N.of_nat (length l)) eqn:E.
    - apply N.eqb_eq in E. subst id. rewrite Nnat.Nat2N.id, app_nth2 by lia. now rewrite Nat.sub_diag.
    - apply N.eqb_neq in E. destruct (lt_dec (N.to_nat id) (length l)).
      + now rewrite app_nth1.
      + rewrite app_nth2 by lia. rewrite (nth_overflow l) by lia.
        destruct (N.to_nat id - length l)%nat eqn:D; [lia|]. cbn. now destruct n1.
  Qed.

  Lemma nth_upd : forall A (l : list A) i j a d, (i < length l)%nat ->
    nth j (upd l i a) d = if (j =? i)%nat then a else nth j l d.
  Proof.
    induction l as [|x l IH]; intros i j a d H; cbn in H; [lia|].
    destruct i, j; cbn; auto. apply IH. lia.
  Qed.

  Lemma sheet_name_upd : forall m l i n id, (i < length l)%nat ->
    sheet_name (mkReg m (upd l i n)) id = if id =? N.of_nat i then n else nth (N.to_nat id) l [].
  Proof.
    intros m l i n id H. unfold sheet_name. cbn [names]. rewrite nth_upd by auto.
    destruct (id =? N.of_nat i) eqn:E; destruct (N.to_nat id =? i)%nat eqn:E2; auto; lia.
  Qed.

  Lemma id_for_new : forall g n, Inv g -> N.of_nat (length (names g)) < 65536 -> get_id lower g n = None ->
    id_for lower g n = (mkReg (rput (by_name g) (lower n) (N.of_nat (length (names g)))) (names g ++ [n]),
                        N.of_nat (length (names g))).
  Proof.
    intros g n I L H. unfold id_for, get_id in *. rewrite H. rewrite N.mod_small by (unfold U16; lia). reflexivity.
  Qed.

  Lemma inv_create : forall g n, Inv g -> n <> [] -> N.of_nat (length (names g)) < 65536 -> Inv (fst (id_for lower g n)).
  Proof.
    intros g n I Hn L. destruct (get_id lower g n) as [e|] eqn:G.
    - unfold id_for. unfold get_id in G. now rewrite G.
    - rewrite id_for_new by auto. cbn [fst]. unfold get_id in G. destruct I as [A B C]. split.
      + intros k id H. rewrite sheet_name_app. cbn [by_name] in H.
        destruct (text_eq_dec (lower n) k) as [<-|Ne].
        * rewrite rget_put_same in H. injection H as <-. now rewrite N.eqb_refl.
        * rewrite rget_put_other in H by auto. destruct (A _ _ H) as [X Y].
          pose proof (sheet_name_lt _ _ X). replace (id =? N.of_nat (length (names g))) with false by lia. auto.
      + intros id. rewrite sheet_name_app. destruct (id =? N.of_nat (length (names g))) eqn:E; intros H; cbn [by_name].
        * apply N.eqb_eq in E. subst id. apply rget_put_same.
        * fold (sheet_name g id) in *. rewrite rget_put_other; auto.
          intros X. rewrite X in G. rewrite (B _ H) in G. discriminate.
      + cbn [names]. rewrite app_length. cbn. lia.
  Qed.

  Lemma inv_remove : forall g id g', Inv g -> reg_remove lower g id = Ok g' -> Inv g'.
  Proof.
    intros g id g' I H. unfold reg_remove in H. destruct (nth_error (names g) (N.to_nat id)) as [n|] eqn:E; [|discriminate].
    destruct (nonempty n) eqn:Hn; [|congruence]. injection H as <-.
    assert (L : (N.to_nat id < length (names g))%nat) by (apply nth_error_Some; congruence).
    assert (EN : sheet_name g id = n) by (unfold sheet_name; now apply nth_error_nth).
    assert (NE : n <> []) by (intros ->; discriminate).
    destruct I as [A B C].
    assert (SN : forall j, sheet_name (mkReg (rdel (by_name g) (lower n)) (upd (names g) (N.to_nat id) [])) j
                 = if j =? id then [] else sheet_name g j).
    { intros j. rewrite sheet_name_upd by auto. now rewrite N2Nat.id. }
    split.
    - intros k j H. rewrite SN. cbn [by_name] in H.
      destruct (text_eq_dec (lower n) k) as [<-|Ne]; [rewrite rget_del_same in H; discriminate|].
      rewrite rget_del_other in H by auto. destruct (A _ _ H) as [X Y].
      destruct (j =? id) eqn:E1; auto. apply N.eqb_eq in E1. subst j. congruence.
    - intros j. rewrite SN. destruct (j =? id) eqn:E1; [congruence|]. intros X. cbn [by_name].
      rewrite rget_del_other; auto. intros Y. pose proof (B _ X) as P. rewrite <- Y, <- EN, B in P by congruence.
      injection P as P. lia.
    - cbn [names]. rewrite upd_length. auto.
  Qed.

  Lemma inv_rename : forall g id n g', Inv g -> n <> [] -> reg_rename lower g id n = Ok g' -> Inv g'.
  Proof.
    intros g id n g' I Hn H. unfold reg_rename in H.
    destruct (nth_error (names g) (N.to_nat id)) as [o|] eqn:E; [|discriminate].
    assert (L : (N.to_nat id < length (names g))%nat) by (apply nth_error_Some; congruence).
    assert (EN : sheet_name g id = o) by (unfold sheet_name; now apply nth_error_nth).
    destruct (match rget (by_name g) (lower n) with Some e => negb (e =? id) | None => false end) eqn:T; [discriminate|].
    injection H as <-. destruct I as [A B C].
    set (g' := mkReg _ _).
    assert (SN : forall j, sheet_name g' j = if j =? id then n else sheet_name g j).
    { intros j. unfold g'. rewrite sheet_name_upd by auto. now rewrite N2Nat.id. }
    split.
    - intros k j H. rewrite SN. unfold g' in H. cbn [by_name] in H.
      destruct (text_eq_dec (lower n) k) as [<-|Ne].
      + rewrite rget_put_same in H. injection H as <-. now rewrite N.eqb_refl.
      + rewrite rget_put_other in H by auto.
        destruct (text_eq_dec (lower o) k) as [<-|Ne2]; [rewrite rget_del_same in H; discriminate|].
        rewrite rget_del_other in H by auto. destruct (A _ _ H) as [X Y].
        destruct (j =? id) eqn:E1; auto. apply N.eqb_eq in E1. subst j. congruence.
    - intros j. rewrite SN. unfold g'. cbn [by_name]. destruct (j =? id) eqn:E1; intros X.
      + apply N.eqb_eq in E1. subst j. apply rget_put_same.
      + pose proof (B _ X) as P.
        rewrite rget_put_other.
        * rewrite rget_del_other; auto. intros Y. destruct o as [|c o].
          -- symmetry in Y. apply LOK in Y. congruence.
          -- rewrite <- Y, <- EN, B in P by congruence. injection P as P. lia.
        * intros Y. rewrite Y, P in T. lia.
    - unfold g'. cbn [names]. now rewrite upd_length.
  Qed.

  Lemma reach_Inv : forall g, reg_reach lower g -> Inv g.
  Proof.
    induction 1; eauto using inv_create, inv_remove, inv_rename.
    split; cbn.
    - discriminate.
    - unfold sheet_name. cbn. intros id H. destruct (N.to_nat id); congruence.
    - lia.
  Qed.

  Lemma lookup : forall g id n, reg_reach lower g -> live g id -> lower n = lower (sheet_name g id) ->
    get_id lower g n = Some id.
  Proof. intros g id n R L E. unfold get_id. rewrite E. apply iB; auto. now apply reach_Inv. Qed.

  Lemma lookup_only : forall g id n, reg_reach lower g -> get_id lower g n = Some id ->
    live g id /\ lower (sheet_name g id) = lower n.
  Proof. intros g id n R H. apply (iA g (reach_Inv g R)). exact H. Qed.

  Lemma distinct : forall g i j, reg_reach lower g -> live g i -> live g j ->
    lower (sheet_name g i) = lower (sheet_name g j) -> i = j.
  Proof.
    intros g i j R Li Lj E. pose proof (lookup g i _ R Li eq_refl). pose proof (lookup g j _ R Lj E). congruence.
  Qed.

  Lemma create_fresh : forall g n, reg_reach lower g -> n <> [] -> N.of_nat (length (names g)) < 65536 ->
    get_id lower g n = None ->
    let '(g', id) := id_for lower g n in
    id = N.of_nat (length (names g)) /\ (forall j, sheet_name g' j = if j =? id then n else sheet_name g j).
  Proof.
    intros g n R Hn L G. rewrite id_for_new by auto using reach_Inv. split; auto.
    intros j. apply sheet_name_app.
  Qed.

  Lemma create_existing : forall g n id, get_id lower g n = Some id -> id_for lower g n = (g, id).
  Proof. intros g n id H. unfold id_for. unfold get_id in H. now rewrite H. Qed.

  (** Ids ever handed out are below the number of creations. *)
  Lemma ids_used : forall g id, reg_reach lower g -> live g id -> id < N.of_nat (length (names g)).
  Proof. intros g id R L. pose proof (sheet_name_lt g id L). lia. Qed.

  Lemma names_grow : forall g g' id n,
    (reg_remove lower g id = Ok g' \/ reg_rename lower g id n = Ok g') -> length (names g') = length (names g).
  Proof.
    intros g g' id n [H|H].
    - unfold reg_remove in H. destruct (nth_error _ _) as [t|]; [|discriminate].
      destruct (nonempty t); injection H as <-; auto. cbn. apply upd_length.
    - unfold reg_rename in H. destruct (nth_error _ _) as [t|]; [|discriminate].
      destruct (match rget _ _ with Some _ => _ | None => _ end); [discriminate|]. injection H as <-. cbn. apply upd_length.
  Qed.

  Lemma remove_spec : forall g id g', reg_reach lower g -> reg_remove lower g id = Ok g' ->
    (forall j, sheet_name g' j = if j =? id then [] else sheet_name g j) /\
    (forall n, get_id lower g' n = match get_id lower g n with
                                    | Some e => if e =? id then None else Some e
                                    | None => None end).
  Proof.
    intros g id g' R H. pose proof (reach_Inv g R) as I. pose proof (inv_remove g id g' I H) as I'.
    assert (SN : forall j, sheet_name g' j = if j =? id then [] else sheet_name g j).
    { intros j. unfold reg_remove in H. destruct (nth_error (names g) (N.to_nat id)) as [n|] eqn:E; [|discriminate].
      assert (L : (N.to_nat id < length (names g))%nat) by (apply nth_error_Some; congruence).
      destruct (nonempty n) eqn:Hn.
      - injection H as <-. rewrite sheet_name_upd by auto. now rewrite N2Nat.id.
      - assert (g' = g) by congruence. subst g'. destruct (j =? id) eqn:X; auto. apply N.eqb_eq in X. subst j. unfold sheet_name.
        destruct n; [|discriminate]. exact (nth_error_nth _ _ _ E). }
    split; auto. intros n.
    destruct (get_id lower g n) as [e|] eqn:G.
    - destruct (iA g I _ _ G) as [X Y]. destruct (e =? id) eqn:Q.
      + destruct (get_id lower g' n) as [e'|] eqn:G'; auto. exfalso.
        destruct (iA g' I' _ _ G') as [X' Y']. rewrite SN in X', Y'. destruct (e' =? id) eqn:Q'; [congruence|].
        assert (e' = e); [|lia]. pose proof (iB g I _ X') as P. rewrite Y' in P. unfold get_id in G. congruence.
      + unfold get_id. rewrite <- Y. pose proof (iB g' I' e) as P. rewrite SN, Q in P. auto.
    - destruct (get_id lower g' n) as [e'|] eqn:G'; auto. exfalso.
      destruct (iA g' I' _ _ G') as [X' Y']. rewrite SN in X', Y'. destruct (e' =? id) eqn:Q'; [congruence|].
      pose proof (iB g I _ X') as P. rewrite Y' in P. unfold get_id in G. congruence.
  Qed.

  Lemma rename_spec : forall g id n g', reg_reach lower g -> n <> [] -> reg_rename lower g id n = Ok g' ->
    (forall j, sheet_name g' j = if j =? id then n else sheet_name g j) /\
    (forall m, get_id lower g' m =
       if text_eqb (lower m) (lower n) then Some id
       else match get_id lower g m with
            | Some e => if e =? id then None else Some e
            | None => None end).
  Proof.
    intros g id n g' R Hn H. pose proof (reach_Inv g R) as I. pose proof (inv_rename g id n g' I Hn H) as I'.
    assert (SN : forall j, sheet_name g' j = if j =? id then n else sheet_name g j).
    { intros j. unfold reg_rename in H. destruct (nth_error (names g) (N.to_nat id)) as [o|] eqn:E; [|discriminate].
      assert (L : (N.to_nat id < length (names g))%nat) by (apply nth_error_Some; congruence).
      destruct (match rget _ _ with Some _ => _ | None => _ end); [discriminate|]. injection H as <-.
      rewrite sheet_name_upd by auto. now rewrite N2Nat.id. }
    split; auto. intros m. destruct (text_eqb (lower m) (lower n)) eqn:T.
    - apply text_eqb_spec in T. unfold get_id. rewrite T. pose proof (iB g' I' id) as P.
      rewrite SN, N.eqb_refl in P. auto.
    - assert (TN : lower m <> lower n) by (intros X; apply text_eqb_spec in X; congruence).
      destruct (get_id lower g' m) as [e'|] eqn:G'.
      + destruct (iA g' I' _ _ G') as [X' Y']. rewrite SN in X', Y'. destruct (e' =? id) eqn:Q'; [congruence|].
        pose proof (iB g I _ X') as P. rewrite Y' in P. unfold get_id. now rewrite P, Q'.
      + destruct (get_id lower g m) as [e|] eqn:G; auto. destruct (e =? id) eqn:Q; auto. exfalso.
        destruct (iA g I _ _ G) as [X Y]. pose proof (iB g' I' e) as P. rewrite SN, Q in P. specialize (P X).
        rewrite Y in P. unfold get_id in G'. congruence.
  Qed.

  Lemma rename_ok_iff : forall g id n, reg_reach lower g ->
    ((exists g', reg_rename lower g id n = Ok g') <->
     (id < N.of_nat (length (names g)) /\ forall j, live g j -> lower (sheet_name g j) = lower n -> j = id)).
  Proof.
    intros g id n R. pose proof (reach_Inv g R) as I. unfold reg_rename.
    destruct (nth_error (names g) (N.to_nat id)) as [o|] eqn:E.
    - assert (L : (N.to_nat id < length (names g))%nat) by (apply nth_error_Some; congruence).
      destruct (rget (by_name g) (lower n)) as [e|] eqn:G.
      + destruct (iA g I _ _ G) as [X Y]. destruct (e =? id) eqn:Q; cbn [negb].
        * split; [|eauto]. intros _. split; [lia|]. intros j Lj EJ.
          pose proof (iB g I j Lj) as P. rewrite EJ, G in P. injection P as <-. lia.
        * split; [intros [g' H]; discriminate|]. intros [_ H]. specialize (H e X Y). lia.
      + split; [|eauto]. intros _. split; [lia|]. intros j Lj EJ.
        pose proof (iB g I j Lj) as P. rewrite EJ, G in P. discriminate.
    - apply nth_error_None in E. split; [intros [g' H]; discriminate|]. intros [H _]. lia.
  Qed.

  (** ** Positions *)
  Lemma live_below_filter : forall g k, (k <= length (names g))%nat ->
    length (filter nonempty (firstn k (names g))) = live_below g k.
  Proof.
    intros g. induction k as [|k IH]; intros H; [reflexivity|].
    cbn [live_below]. rewrite <- IH by lia. unfold sheet_name. rewrite Nnat.Nat2N.id.
    destruct (nth_error (names g) k) as [n|] eqn:E; [|apply nth_error_None in E; lia].
    rewrite (nth_error_nth _ _ ([]:text) E).
    assert (F : firstn (S k) (names g) = firstn k (names g) ++ [n]).
    { clear -E. revert k E. induction (names g) as [|x l IH]; intros [|k] E; cbn in *; try discriminate.
      - injection E as ->. reflexivity.
      - f_equal. now apply IH. }
    rewrite F, filter_app, app_length. cbn. destruct n; cbn; lia.
  Qed.

  Lemma position_spec : forall g id, live g id ->
    active_position_by_id g id = Some (S (live_below g (N.to_nat id))).
  Proof.
    intros g id L. pose proof (sheet_name_lt g id L) as LT. unfold active_position_by_id.
    destruct (nth_error (names g) (N.to_nat id)) as [n|] eqn:E; [|apply nth_error_None in E; lia].
    assert (sheet_name g id = n) by (unfold sheet_name; now apply nth_error_nth).
    unfold live in L. rewrite H in L. destruct n as [|c n]; [congruence|]. cbn [nonempty].
    rewrite live_below_filter by lia. cbn [live_below]. rewrite N2Nat.id, H. reflexivity.
  Qed.

  Lemma position_dead : forall g id, sheet_name g id = [] -> active_position_by_id g id = None.
  Proof.
    intros g id H. unfold active_position_by_id. unfold sheet_name in H.
    destruct (nth_error (names g) (N.to_nat id)) as [n|] eqn:E; auto.
    rewrite (nth_error_nth _ _ ([]:text) E) in H. now subst.
  Qed.

  Lemma active_len_spec : forall g, active_len g = live_below g (length (names g)).
  Proof. intros g. rewrite <- live_below_filter by lia. now rewrite firstn_all. Qed.

  Lemma live_below_mono : forall g j k, (j <= k)%nat -> (live_below g j <= live_below g k)%nat.
  Proof. intros g j k H. induction H; auto. cbn. lia. Qed.

  Lemma position_order : forall g i j p q, live g i -> live g j ->
    active_position_by_id g i = Some p -> active_position_by_id g j = Some q ->
    (i < j <-> (p < q)%nat).
  Proof.
    intros g i j p q Li Lj Hp Hq. rewrite (position_spec g i Li) in Hp. rewrite (position_spec g j Lj) in Hq.
    injection Hp as <-. injection Hq as <-.
    assert (M : forall a b, live g a -> a < b -> (live_below g (N.to_nat a) < live_below g (N.to_nat b))%nat).
    { intros a b La Hab. pose proof (live_below_mono g (S (N.to_nat a)) (N.to_nat b) ltac:(lia)) as P. cbn in P.
      rewrite N2Nat.id in P. unfold live in La. destruct (sheet_name g a); [congruence|]. lia. }
    destruct (N.lt_trichotomy i j) as [C|[C|C]].
    - specialize (M i j Li C). lia.
    - subst. lia.
    - specialize (M j i Lj C). lia.
  Qed.

  Lemma position_bound : forall g id p, active_position_by_id g id = Some p -> (1 <= p <= active_len g)%nat.
  Proof.
    intros g id p H. destruct (sheet_name g id) eqn:E; [rewrite position_dead in H by auto; discriminate|].
    assert (L : live g id) by (unfold live; congruence). rewrite position_spec in H by auto. injection H as <-.
    split; [lia|]. rewrite active_len_spec. pose proof (sheet_name_lt g id L).
    pose proof (live_below_mono g (S (N.to_nat id)) (length (names g)) ltac:(lia)) as P. cbn in P.
    rewrite N2Nat.id, E in P. lia.
  Qed.

  Lemma position_onto : forall g p, (1 <= p <= active_len g)%nat -> exists id, live g id /\ active_position_by_id g id = Some p.
  Proof.
    intros g p. rewrite active_len_spec. generalize (length (names g)). induction n as [|n IH]; cbn; intros H; [lia|].
    destruct (sheet_name g (N.of_nat n)) as [|c t] eqn:E; [apply IH; lia|].
    destruct (Nat.eq_dec p (S (live_below g n))) as [->|Ne]; [|apply IH; lia].
    exists (N.of_nat n). assert (L : live g (N.of_nat n)) by (unfold live; congruence). split; auto.
    rewrite position_spec by auto. now rewrite Nnat.Nat2N.id.
  Qed.

  Lemma all_sheets_spec : forall g id n, reg_reach lower g ->
    (In (id, n) (all_sheets g) <-> live g id /\ sheet_name g id = n).
  Proof.
    intros g id n R. pose proof (iC g (reach_Inv g R)) as C. unfold all_sheets. rewrite in_map_iff.
    assert (CB : forall (l : list text) s i t, In (i, t) (combine (seq s (length l)) l) <->
                 (s <= i)%nat /\ nth_error l (i - s) = Some t).
    { induction l as [|x l IH]; intros s i t; cbn.
      - split; [tauto|]. intros [_ H]. destruct (i - s)%nat; discriminate.
      - rewrite IH. split.
        + intros [H|[H1 H2]].
          * inversion H; subst. split; auto. now rewrite Nat.sub_diag.
          * split; [lia|]. now replace (i - s)%nat with (S (i - S s)) by lia.
        + intros [H1 H2]. destruct (Nat.eq_dec i s) as [->|Ne].
          * rewrite Nat.sub_diag in H2. cbn in H2. left. congruence.
          * right. split; [lia|]. now replace (i - s)%nat with (S (i - S s)) in H2 by lia. }
    split.
    - intros ([i t] & E & H). apply filter_In in H. destruct H as [H NE]. apply CB in H. destruct H as [_ H].
      rewrite Nat.sub_0_r in H. cbn [fst snd] in *.
      assert (i < length (names g))%nat by (apply nth_error_Some; congruence).
      rewrite N.mod_small in E by (unfold U16; lia). injection E as <- <-.
      assert (SN : sheet_name g (N.of_nat i) = t) by (unfold sheet_name; rewrite Nnat.Nat2N.id; now apply nth_error_nth).
      split; auto. unfold live. rewrite SN. destruct t; [discriminate|congruence].
    - intros [L E]. pose proof (sheet_name_lt g id L) as LT. exists (N.to_nat id, n). cbn [fst snd]. split.
      + rewrite N2Nat.id, N.mod_small by (unfold U16; lia). reflexivity.
      + apply filter_In. split.
        * apply CB. split; [lia|]. rewrite Nat.sub_0_r. rewrite <- E. unfold sheet_name.
          now apply nth_error_nth'.
        * unfold live in L. rewrite E in L. cbn. destruct n; [congruence|reflexivity].
  Qed.

  Lemma span_spec : forall g a b i j p q, reg_reach lower g ->
    get_id lower g a = Some i -> get_id lower g b = Some j ->
    active_position_by_id g i = Some p -> active_position_by_id g j = Some q -> (p <= q)%nat ->
    active_span_len lower g a b = Some (q - p + 1)%nat /\ active_span_len lower g b a = Some (q - p + 1)%nat.
  Proof.
    intros g a b i j p q R Ha Hb Hp Hq L. unfold active_span_len, active_position. rewrite Ha, Hb, Hp, Hq.
    split; f_equal; lia.
  Qed.

  (** ** Workbook-level calls *)
  Variable bytes : text -> N.

  Lemma rename_sheet_spec : forall g id n g', reg_reach lower g -> rename_sheet lower bytes g id n = Ok g' ->
    reg_reach lower g' /\ live g id /\ n <> [] /\ lower (sheet_name g' id) = lower n /\
    (forall j, j <> id -> sheet_name g' j = sheet_name g j) /\
    (get_id lower g n = None -> sheet_name g' id = n) /\
    (get_id lower g n <> None -> g' = g).
  Proof.
    intros g id n g' R H. unfold rename_sheet in H.
    destruct (negb (nonempty n) || (255 <? bytes n)) eqn:V; [discriminate|].
    apply orb_false_iff in V. destruct V as [V _]. assert (Hn : n <> []) by (intros ->; discriminate).
    destruct (sheet_name g id) as [|c t] eqn:E; [discriminate|].
    assert (L : live g id) by (unfold live; congruence).
    destruct (get_id lower g n) as [e|] eqn:G.
    - destruct (e =? id) eqn:Q; [|discriminate]. cbn in H. injection H as <-. apply N.eqb_eq in Q. subst e.
      destruct (lookup_only g id n R G) as [_ X]. repeat split; auto; congruence.
    - destruct (rename_spec g id n g' R Hn H) as [SN _].
      split; [now apply (rr_rename lower g id n g')|]. repeat split; auto; try congruence.
      + rewrite SN, N.eqb_refl. reflexivity.
      + intros j J. rewrite SN. now replace (j =? id) with false by lia.
      + intros _. rewrite SN, N.eqb_refl. reflexivity.
  Qed.

  Lemma remove_sheet_keeps_one : forall g id g', reg_reach lower g -> remove_sheet lower g id = Ok g' ->
    reg_reach lower g' /\ exists j, live g' j.
  Proof.
    intros g id g' R H. unfold remove_sheet in H. destruct (sheet_name g id) as [|c t] eqn:E; [discriminate|].
    destruct (length (all_sheets g) <=? 1)%nat eqn:L; [discriminate|]. apply Nat.leb_gt in L.
    split; [now apply (rr_remove lower g id g')|].
    destruct (remove_spec g id g' R H) as [SN _].
    pose proof (fun i n => all_sheets_spec g i n R) as AS.
    assert (ND : NoDup (map fst (all_sheets g))).
    { unfold all_sheets. rewrite map_map. cbn.
      pose proof (iC g (reach_Inv g R)) as C.
      assert (X : forall (l : list text) s, N.of_nat (s + length l) <= 65536 ->
        NoDup (map (fun x : nat * text => N.of_nat (fst x) mod U16)
          (filter (fun p => nonempty (snd p)) (combine (seq s (length l)) l)))).
      { induction l as [|x l IH]; intros s B; cbn; [constructor|]. cbn in B.
        destruct (nonempty x); [|apply IH; lia]. cbn. constructor; [|apply IH; lia].
        intros I. apply in_map_iff in I. destruct I as ([i u] & Eq & I). apply filter_In in I. destruct I as [I _].
        pose proof (in_combine_l _ _ _ _ I) as I1. apply in_seq in I1. cbn in Eq.
        rewrite !N.mod_small in Eq by (unfold U16; lia). lia. }
      apply X. lia. }
    destruct (all_sheets g) as [|[i1 n1] [|[i2 n2] l]] eqn:AL; cbn in L; try lia.
    cbn in ND. inversion ND as [|? ? N1 _]; subst.
    assert (D : i1 <> i2) by (intros ->; apply N1; now left).
    destruct (N.eq_dec i1 id) as [->|Ne].
    - exists i2. unfold live. rewrite SN. replace (i2 =? id) with false by lia.
      apply (AS i2 n2). right. now left.
    - exists i1. unfold live. rewrite SN. replace (i1 =? id) with false by lia.
      apply (AS i1 n1). now left.
  Qed.
End S.

(** ** The 65537th sheet *)
Lemma reach_len : forall k, N.of_nat k <= 65536 ->
  exists g, reg_reach_any (fun t => t) g /\ length (names g) = k /\
    (forall i, (i < k)%nat -> sheet_name g (N.of_nat i) = [N.of_nat i]) /\
    forall n, rget (by_name g) n <> None -> exists i, (i < k)%nat /\ n = [N.of_nat i].
Proof.
  induction k as [|k IH]; intros H.
  - exists reg_new. split; [constructor|]. split; [reflexivity|]. split; [intros; lia|]. intros n X. cbn in X. congruence.
  - destruct IH as (g & R & L & SN & K); [lia|].
    exists (fst (id_for (fun t => t) g [N.of_nat k])). split; [constructor; auto; discriminate|].
    assert (G : rget (by_name g) [N.of_nat k] = None).
    { destruct (rget (by_name g) [N.of_nat k]) eqn:E; auto. destruct (K [N.of_nat k]) as (i & Hi & X); [congruence|].
      assert (N.of_nat k = N.of_nat i) by congruence. lia. }
    unfold id_for. rewrite G. cbn [fst names by_name]. split; [rewrite app_length; cbn; lia|]. split.
    + intros i Hi. rewrite sheet_name_app. rewrite L. destruct (N.of_nat i =? N.of_nat k) eqn:E.
      * apply N.eqb_eq in E. rewrite E. reflexivity.
      * apply SN. lia.
    + intros n X. destruct (text_eq_dec [N.of_nat k] n) as [<-|Ne]; [exists k; split; auto; lia|].
      rewrite rget_put_other in X by auto. destruct (K n X) as (i & Hi & E). exists i. split; [lia|exact E].
Qed.

Lemma id_wraps : exists lower g n m, lower_ok lower /\ reg_reach_any lower g /\ n <> [] /\
  get_id lower g n = None /\ snd (id_for lower g n) = 0 /\
  sheet_name g 0 = m /\ m <> [] /\ m <> n /\ get_id lower (fst (id_for lower g n)) m = get_id lower (fst (id_for lower g n)) n.
Proof.
  destruct (reach_len (N.to_nat 65536) ltac:(rewrite N2Nat.id; apply N.le_refl)) as (g & R & L & SN & K).
  assert (L2 : N.of_nat (length (names g)) = 65536) by (rewrite L; apply N2Nat.id).
  clear L. set (K0 := N.to_nat 65536) in *. assert (LK : N.of_nat K0 = 65536) by apply N2Nat.id. clearbody K0.
  assert (G : forall g0 : registry, (forall n, rget (by_name g0) n <> None -> exists i, (i < K0)%nat /\ n = [N.of_nat i]) ->
     rget (by_name g0) [65536] = None).
  { intros g0 KK. destruct (rget (by_name g0) [65536]) eqn:E; auto. destruct (KK [65536]) as (i & Hi & X); [congruence|].
    assert (65536 = N.of_nat i) by congruence. lia. }
  specialize (G g K).
  exists (fun t => t), g, [65536], [0].
  assert (G0 : rget (by_name g) [0] = Some 0).
  { clear G.
    assert (P : forall g, reg_reach_any (fun t => t) g -> (1 <= length (names g))%nat -> N.of_nat (length (names g)) <= 65536 ->
               sheet_name g 0 <> [] -> rget (by_name g) (sheet_name g 0) = Some 0).
    { clear. induction 1 as [|g n R IH Hn]; [cbn; lia|]. unfold id_for.
      destruct (rget (by_name g) n) as [e|] eqn:G; cbn [fst]; auto. cbn [names by_name]. rewrite app_length. cbn [length].
      intros H1 H2 H3. rewrite sheet_name_app in *. destruct (names g) as [|x l] eqn:NL.
      - apply rget_put_same.
      - replace (0 =? N.of_nat (length (x :: l))) with false in * by (cbn; lia).
        assert (SN : nth (N.to_nat 0) (x :: l) [] = sheet_name g 0) by (unfold sheet_name; now rewrite NL).
        rewrite SN in *. specialize (IH ltac:(cbn; lia) ltac:(cbn in *; lia) H3).
        rewrite rget_put_other; auto. intros X. congruence. }
    specialize (P g R ltac:(lia) ltac:(lia)). assert (S0 : sheet_name g 0 = [0]) by (apply (SN 0%nat); lia). rewrite S0 in P. apply P. discriminate. }
  assert (ID : id_for (fun t => t) g [65536] = (mkReg (rput (by_name g) [65536] 0) (names g ++ [[65536]]), 0)).
  { unfold id_for. rewrite G, L2. reflexivity. }
  rewrite ID. cbn [fst snd].
  split; [intros t X; exact X|]. split; [exact R|]. split; [discriminate|]. split; [exact G|]. split; [reflexivity|].
  split; [apply (SN 0%nat); lia|]. split; [discriminate|]. split; [discriminate|].
  unfold get_id. cbn [by_name]. rewrite rget_put_same, rget_put_other by discriminate. exact G0.
Qed.
