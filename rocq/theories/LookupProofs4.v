From Coq Require Import QArith Qabs Qround Lqa ZifyNat ZifyBool.
From Verif Require Import Base Maps WildModel WildSpec WildProofs LookupModel LookupSpec LookupProofs LookupProofs2 LookupProofs3.
Close Scope Q_scope.

(** ** XLOOKUP on ascending numbers *)
Definition ascending_numbers (vs : list lval) : Prop :=
  (forall v, In v vs -> numv v <> None) /\
  (forall i j p q, i < j -> holds vs i p -> holds vs j q -> (p <= q)%Q).

Lemma numv_key : forall lower v q, numv v = Some q -> key_of lower v = Some (KNum q).
Proof. intros lower v; destruct v as [[]| | | | | | |]; intros p H; cbn in *; try discriminate; congruence. Qed.

Lemma ascending_sorted : forall lower parse l vs, clean parse l -> (forall v, In v vs -> In v l) ->
  ascending_numbers vs -> all_sorted lower parse is_le vs = true.
Proof.
  intros lower parse l vs C. induction vs as [|a [|b r] IH]; intros I [N A]; auto.
  cbn [all_sorted]. apply andb_true_iff. split.
  - rewrite (cmp_key lower parse l C a b (I a (or_introl eq_refl)) (I b (or_intror (or_introl eq_refl)))).
    destruct (numv a) as [p|] eqn:Ea; [|exfalso; apply (N a); cbn; auto].
    destruct (numv b) as [q|] eqn:Eb; [|exfalso; apply (N b); cbn; auto].
    rewrite (numv_key lower a p Ea), (numv_key lower b q Eb). apply kcmp_le. constructor.
    apply (A 0 1); auto; [exists a|exists b]; auto.
  - apply IH; [intros v Hv; apply I; right; auto|]. split; [intros v Hv; apply N; right; auto|].
    intros i j p q L (v & Hv & Nv) (w & Hw & Nw). apply (A (S i) (S j)); [lia|exists v; auto|exists w; auto].
Qed.

Lemma xlookup_approx : forall lower parse vs needle n, clean parse (needle :: vs) -> numv needle = Some n ->
  ascending_numbers vs -> forall smaller : bool,
  exists o, xlookup lower parse vs needle (if smaller then -1 else 1) 1 = xopt o /\ closest vs n smaller true o.
Proof.
  intros lower parse vs needle n C Hn A smaller. eexists. split; [|exact (scan_closest lower parse vs needle n C Hn smaller true)].
  assert (S : all_sorted lower parse is_le vs = true) by (eapply ascending_sorted; eauto; intros; now right).
  assert (E : xlookup_scan lower parse smaller needle None (indexed vs) None (start_val smaller) =
              Some (approx_scan lower parse smaller needle (indexed vs) None (start_val smaller))).
  { apply xlookup_scan_eq; auto. now rewrite map_snd_indexed. }
  unfold xlookup. destruct smaller; cbn [Z.eqb Pos.eqb orb]; rewrite E; reflexivity.
Qed.

(** ** Text needles in the approximate modes *)
Lemma scan_text : forall lower parse smaller s cs, parse s = None ->
  (forall i c, In (i, c) cs -> is_eq (cmp_for_lookup lower parse c (LText s)) = false) ->
  forall best bv, approx_scan lower parse smaller (LText s) cs best bv = best.
Proof.
  intros lower parse smaller s cs P. induction cs as [|[i c] cs IH]; intros H best bv; auto.
  cbn [approx_scan]. rewrite (H i c) by (left; auto). unfold better. cbn [value_to_f64_lenient]. rewrite P.
  apply IH. intros; eapply H; right; eauto.
Qed.
Lemma xmatch_text : forall lower parse vs s, parse s = None ->
  (forall c, In c vs -> is_eq (cmp_for_lookup lower parse c (LText s)) = false) ->
  forall smaller first : bool, xmatch lower parse vs (LText s) (if smaller then -1 else 1) (if first then 1 else -1) = XNa.
Proof.
  intros lower parse vs s P H smaller first.
  assert (H1 : forall i c, In (i, c) (indexed vs) -> is_eq (cmp_for_lookup lower parse c (LText s)) = false).
  { intros i c I. apply indexed_nth in I. apply H. eapply nth_error_In; eauto. }
  assert (H2 : forall i c, In (i, c) (rev (indexed vs)) -> is_eq (cmp_for_lookup lower parse c (LText s)) = false).
  { intros i c I. apply (H1 i). now apply in_rev. }
  unfold xmatch. destruct smaller, first; cbn [Z.eqb Pos.eqb orb andb negb]; rewrite scan_text; auto.
Qed.

(** ** The cached index agrees with the direct search *)
Section Equiv.
  Context {K V : Type} (eqb : K -> K -> bool).
  Hypothesis rfl : forall a, eqb a a = true.
  Hypothesis sym : forall a b, eqb a b = true -> eqb b a = true.
  Hypothesis trn : forall a b c, eqb a b = true -> eqb b c = true -> eqb a c = true.
  Lemma eq_l : forall a b c, eqb a b = true -> eqb a c = eqb b c.
  Proof.
    intros a b c H. destruct (eqb a c) eqn:E1, (eqb b c) eqn:E2; auto.
    - pose proof (trn b a c (sym _ _ H) E1). congruence.
    - pose proof (trn a b c H E2). congruence.
  Qed.
  Lemma mget_del_equiv : forall (m : list (K * V)) k j, eqb j k = false -> mget eqb (mdel eqb m k) j = mget eqb m j.
  Proof.
    unfold mdel. induction m as [|[k' v] m IH]; intros k j H; cbn; auto.
    destruct (eqb k k') eqn:E; cbn.
    - rewrite IH by auto. destruct (eqb j k') eqn:E'; auto. pose proof (trn j k' k E' (sym _ _ E)). congruence.
    - now rewrite IH.
  Qed.
  Lemma mget_put_equiv : forall (m : list (K * V)) k v j, mget eqb (mput eqb m k v) j = if eqb j k then Some v else mget eqb m j.
  Proof. intros m k v j. cbn. destruct (eqb j k) eqn:E; auto. now apply mget_del_equiv. Qed.
  Lemma mget_equiv : forall (m : list (K * V)) k j, eqb j k = true -> mget eqb m j = mget eqb m k.
  Proof. induction m as [|[k' v] m IH]; intros k j H; cbn; auto. rewrite (eq_l j k k' H). destruct (eqb k k'); auto. Qed.
End Equiv.

Lemma text_eqb_refl : forall t, text_eqb t t = true.
Proof. intros t. now apply text_eqb_spec. Qed.
Lemma hk_refl : forall k, hkey_eqb k k = true.
Proof. intros [[]| |[]|]; cbn; auto. - apply Qeq_bool_iff. reflexivity. - apply text_eqb_refl. Qed.
Lemma hk_sym : forall a b, hkey_eqb a b = true -> hkey_eqb b a = true.
Proof.
  intros [[]| |[]|] [[]| |[]|]; cbn; auto; try discriminate.
  - rewrite !Qeq_bool_iff. intros H. now symmetry.
  - rewrite !text_eqb_spec. auto.
Qed.
Lemma hk_trans : forall a b c, hkey_eqb a b = true -> hkey_eqb b c = true -> hkey_eqb a c = true.
Proof.
  intros [[]| |[]|] [[]| |[]|] [[]| |[]|]; cbn; auto; try discriminate.
  - rewrite !Qeq_bool_iff. intros H K. now rewrite H.
  - rewrite !text_eqb_spec. congruence.
Qed.

Section Index.
  Variable lower : text -> text.
  Variable parse : text -> option fnum.

  Definition keyed (k : hkey) (v : lval) : bool :=
    match key_of_literal lower v with Some k' => hkey_eqb k k' | None => false end.
  Fixpoint positions_from (i : nat) (p : lval -> bool) (vs : list lval) : list nat :=
    match vs with [] => [] | v :: r => (if p v then [i] else []) ++ positions_from (S i) p r end.
  Definition hits (m : list (hkey * list nat)) (k : hkey) : list nat := match mget hkey_eqb m k with Some l => l | None => [] end.

  Lemma index_hits : forall vs i m k, hits (index_entries lower i vs m) k = hits m k ++ positions_from i (keyed k) vs.
  Proof.
    induction vs as [|v vs IH]; intros i m k; cbn [index_entries positions_from]; [now rewrite app_nil_r|].
    rewrite IH. unfold keyed at 2. destruct (key_of_literal lower v) as [k'|]; [|reflexivity].
    rewrite app_assoc. f_equal. unfold hits at 1. rewrite (mget_put_equiv hkey_eqb hk_sym hk_trans).
    destruct (hkey_eqb k k') eqn:E; [|now rewrite app_nil_r].
    f_equal. unfold hits. now rewrite (mget_equiv hkey_eqb hk_sym hk_trans m k' k E).
  Qed.

  Lemma find_positions : forall P G vs pre all i, all = pre ++ vs -> length pre = i ->
    find (fun j => match nth_error all j with Some v => G v | None => false end) (positions_from i P vs) =
    option_map (Nat.add i) (position (fun v => P v && G v) vs).
  Proof.
    intros P G. induction vs as [|v vs IH]; intros pre all i -> L; cbn [positions_from find position]; auto.
    assert (N : nth_error (pre ++ v :: vs) i = Some v) by (rewrite nth_error_app2, <- L, Nat.sub_diag by lia; reflexivity).
    assert (T : find (fun j => match nth_error (pre ++ v :: vs) j with Some v => G v | None => false end) (positions_from (S i) P vs) =
                option_map (Nat.add (S i)) (position (fun v => P v && G v) vs)).
    { apply (IH (pre ++ [v])); [now rewrite <- app_assoc|]. rewrite app_length. cbn. lia. }
    destruct (P v); cbn [app find andb].
    - rewrite N. destruct (G v); [cbn [option_map]; f_equal; lia|]. rewrite T. destruct (position _ vs); cbn [option_map]; [f_equal; lia|reflexivity].
    - rewrite T. destruct (position _ vs); cbn [option_map]; [f_equal; lia|reflexivity].
  Qed.

  Lemma position_ext : forall p q vs, (forall v, In v vs -> p v = q v) -> position p vs = position q vs.
  Proof.
    intros p q. induction vs as [|v vs IH]; intros H; cbn; auto. rewrite (H v) by (left; auto).
    destruct (q v); auto. rewrite IH; auto. intros; apply H; now right.
  Qed.

  Lemma Qabs_compat' : forall a b, (a == b)%Q -> (Qabs a == Qabs b)%Q.
  Proof. intros a b H. now rewrite H. Qed.
  Lemma near_compat : forall a b c d, (a == b)%Q -> (c == d)%Q -> fnear (Fin a) (Fin c) = fnear (Fin b) (Fin d).
  Proof.
    intros a b c d H K. unfold fnear. f_equal.
    assert (E : (Qabs (a - c) == Qabs (b - d))%Q) by (apply Qabs_compat'; lra).
    destruct (Qle_bool TOL (Qabs (a - c))) eqn:X, (Qle_bool TOL (Qabs (b - d))) eqn:Y; auto.
    - apply Qle_bool_iff in X. rewrite E in X. apply Qle_bool_iff in X. congruence.
    - apply Qle_bool_iff in Y. rewrite <- E in Y. apply Qle_bool_iff in Y. congruence.
  Qed.
  Lemma norm_compat : forall a b, (a == b)%Q -> fnum_eqb (normalize_f64 (Fin a)) (normalize_f64 (Fin b)) = true.
  Proof.
    intros a b H. unfold normalize_f64.
    assert (F : Qfloor (a + (1 # 2)) = Qfloor (b + (1 # 2))) by (apply Qfloor_comp; lra).
    rewrite F. rewrite (near_compat a b _ (inject_Z (Qfloor (b + (1 # 2)))) H (Qeq_refl _)).
    destruct (fnear _ _); cbn [fnum_eqb]; apply Qeq_bool_iff; [reflexivity|exact H].
  Qed.

  Lemma number_needle : forall l vs needle n, clean parse l -> In needle l -> (forall v, In v vs -> In v l) ->
    numv needle = Some n ->
    key_of_literal lower needle = Some (HNum (normalize_f64 (Fin n))) ->
    position (fun v => keyed (HNum (normalize_f64 (Fin n))) v && is_eq (cmp_for_lookup lower parse needle v)) vs =
    position (fun v => match number_lane v with Some x => fnear x (Fin n) | None => false end) vs.
  Proof.
    intros l vs needle n C In_ Iv Hn Kn. apply position_ext. intros v Hv.
    rewrite (cmp_key lower parse l C needle v) by auto. rewrite (numv_key lower needle n Hn).
    destruct C as [CV CS]. pose proof (CV v (Iv v Hv)) as Cv.
    assert (NUM : forall q, number_lane v = Some (Fin q) -> numv v = Some q -> key_of_literal lower v = Some (HNum (normalize_f64 (Fin q))) ->
      (keyed (HNum (normalize_f64 (Fin n))) v && is_eq match key_of lower v with Some b => kcmp (KNum n) b | None => None end =
       match number_lane v with Some x => fnear x (Fin n) | None => false end)).
    { intros q Ln Nv Kv. rewrite Ln, (numv_key lower v q Nv). unfold keyed. rewrite Kv. cbn [kcmp].
      rewrite (near_sep q n) by (apply (CS v needle); auto).
      destruct (Qcompare q n) eqn:E.
      - apply Qeq_alt in E. cbn [hkey_eqb]. rewrite norm_compat by now symmetry.
        assert (X : (n ?= q)%Q = Eq) by (apply Qeq_alt; now symmetry). now rewrite X.
      - assert (X : (n ?= q)%Q = Gt) by (apply Qgt_alt; now apply Qlt_alt in E). rewrite X. apply andb_false_r.
      - assert (X : (n ?= q)%Q = Lt) by (apply Qlt_alt; now apply Qgt_alt in E). rewrite X. apply andb_false_r. }
    destruct v as [x|z|t|b|q| |k|]; cbn in Cv.
    - destruct Cv as (q & ->). now apply NUM with q.
    - now apply NUM with (inject_Z z).
    - reflexivity.
    - reflexivity.
    - now apply NUM with q.
    - reflexivity.
    - reflexivity.
    - reflexivity.
  Qed.

  Lemma position_and_false : forall p vs, (forall v, In v vs -> p v = false) -> position p vs = None.
  Proof. intros p vs H. apply position_none. intros i v E. apply H. eapply nth_error_In; eauto. Qed.

  Lemma index_agrees : forall vs needle entries,
    clean parse (needle :: vs) -> index_build lower vs = Some entries ->
    (forall e, needle <> LErr e) -> (forall q, needle = LSerial q -> ~ (q == 0)%Q \/ ~ In LEmpty vs) ->
    find_exact_index_in_view lower vs needle false = Ok (find_first_exact lower parse entries vs needle).
  Proof.
    intros vs needle entries C B NE NS. unfold index_build in B.
    destruct ((length vs =? 0) || _) eqn:EB; [discriminate|]. injection B as <-.
    assert (IV : forall v, In v vs -> In v (needle :: vs)) by (intros; now right).
    assert (FH : forall k, find (fun i => match nth_error vs i with Some v => is_eq (cmp_for_lookup lower parse needle v) | None => false end)
                     (match mget hkey_eqb (index_entries lower 0 vs []) k with Some l => l | None => [] end) =
                   position (fun v => keyed k v && is_eq (cmp_for_lookup lower parse needle v)) vs).
    { intros k. pose proof (index_hits vs 0 [] k) as H. unfold hits in H. cbn [mget app] in H. rewrite H.
      rewrite (find_positions (keyed k) (fun v => is_eq (cmp_for_lookup lower parse needle v)) vs [] vs 0 eq_refl eq_refl).
      destruct (position _ vs); reflexivity. }
    unfold find_first_exact.
    destruct needle as [x|z|t|b|q| |e|]; cbn [key_of_literal find_exact_index_in_view]; try rewrite FH.
    - destruct (clean_in _ _ C (LNum x) (or_introl eq_refl)) as (n & ->).
      rewrite (number_needle _ vs (LNum (Fin n)) n C (or_introl eq_refl) IV eq_refl eq_refl). reflexivity.
    - rewrite (number_needle _ vs (LInt z) (inject_Z z) C (or_introl eq_refl) IV eq_refl eq_refl). reflexivity.
    - f_equal. unfold find_exact_text. cbn [andb].
      rewrite (position_ext (fun v => keyed (HText (lower t)) v && is_eq (cmp_for_lookup lower parse (LText t) v))
                (fun v => match v with LText c => text_eqb (lower c) (lower t) | _ => false end)).
      + destruct (position _ vs); reflexivity.
      + intros v Hv. rewrite (cmp_key lower parse _ C (LText t) v (or_introl eq_refl) (IV v Hv)).
        destruct v as [[]|z|c|b|q| |e|]; cbn; auto.
        destruct (text_eqb (lower t) (lower c)) eqn:E; cbn.
        * apply text_eqb_spec in E. rewrite E. rewrite text_eqb_refl. now rewrite (proj2 (text_cmp_eq _ _) eq_refl).
        * symmetry. destruct (text_eqb (lower c) (lower t)) eqn:E'; auto. apply text_eqb_spec in E'. rewrite E', text_eqb_refl in E. discriminate.
    - f_equal. unfold find_exact_boolean.
      rewrite (position_ext (fun v => keyed (HBool b) v && is_eq (cmp_for_lookup lower parse (LBool b) v))
                (fun v => match v with LBool x => Bool.eqb x b | _ => false end)).
      + destruct (position _ vs); reflexivity.
      + intros v Hv. destruct v as [[]|z|c|b'|q| |e|]; cbn [keyed key_of_literal hkey_eqb andb]; auto.
        rewrite (cmp_key lower parse _ C (LBool b) (LBool b') (or_introl eq_refl) (IV _ Hv)). destruct b, b'; reflexivity.
    - rewrite (number_needle _ vs (LSerial q) q C (or_introl eq_refl) IV eq_refl eq_refl).
      unfold find_exact_number. destruct (position _ vs) as [i|]; auto. f_equal.
      destruct (fnear (Fin q) (Fin 0%Q)) eqn:E; auto.
      apply position_and_false. intros v Hv. destruct v; auto. exfalso. destruct (NS q eq_refl) as [H|H]; [|contradiction].
      destruct C as [_ CS]. specialize (CS (LSerial q) LEmpty q 0%Q (or_introl eq_refl) (IV _ Hv) eq_refl eq_refl).
      rewrite (near_sep q 0 CS) in E. destruct (q ?= 0)%Q eqn:E0; try discriminate. apply H. now apply Qeq_alt.
    - f_equal. unfold find_exact_empty.
      rewrite (position_ext (fun v => keyed HEmpty v && is_eq (cmp_for_lookup lower parse LEmpty v))
                (fun v => match v with LEmpty => true | _ => false end)).
      + destruct (position _ vs); reflexivity.
      + intros v Hv. destruct v as [[]|z|c|b'|q| |e|]; cbn [keyed key_of_literal hkey_eqb andb]; auto.
    - exfalso. apply (NE e). reflexivity.
    - reflexivity.
  Qed.
End Index.

(** ** Exact search forwards and backwards *)
Lemma position_rev : forall p vs, (position p vs = None <-> position p (rev vs) = None).
Proof.
  intros p vs. rewrite !position_none. split; intros H i v E.
  - apply nth_error_In in E. apply in_rev in E. apply In_nth_error in E. destruct E as (j & E). eauto.
  - apply nth_error_In in E. apply in_rev in E. rewrite <- (rev_involutive vs) in H. apply In_nth_error in E. destruct E as (j & E).
    rewrite rev_involutive in H. eauto.
Qed.

Lemma find_last_spec : forall lower parse needle w vs,
  match find_last lower parse needle w vs with
  | Some i => (exists v, nth_error vs i = Some v /\ matches lower parse needle w v = true) /\
              (forall j v, i < j -> nth_error vs j = Some v -> matches lower parse needle w v = false)
  | None => forall j v, nth_error vs j = Some v -> matches lower parse needle w v = false
  end.
Proof.
  intros lower parse needle w vs. unfold find_last.
  pose proof (position_spec (matches lower parse needle w) (rev vs)) as P.
  assert (R : forall k, k < length vs -> nth_error (rev vs) k = nth_error vs (length vs - 1 - k)).
  { intros k Hk. destruct (nth_error vs (length vs - 1 - k)) as [v|] eqn:E.
    - apply nth_error_nth with (d := LEmpty) in E.
      rewrite nth_error_nth' with (d := LEmpty) by (rewrite rev_length; lia). f_equal. rewrite rev_nth by lia.
      replace (length vs - S k) with (length vs - 1 - k) by lia. exact E.
    - apply nth_error_None in E. lia. }
  destruct (position _ (rev vs)) as [k|].
  - destruct P as [(v & A & B) D].
    assert (Hk : k < length vs) by (rewrite <- rev_length; apply nth_error_Some; congruence).
    split; [exists v; split; auto; now rewrite <- R|].
    intros j u L E. assert (Hj : j < length vs) by (apply nth_error_Some; congruence).
    apply (D (length vs - 1 - j) u); [lia|]. rewrite R by lia. replace (length vs - 1 - (length vs - 1 - j)) with j by lia. exact E.
  - intros j v E. assert (Hj : j < length vs) by (apply nth_error_Some; congruence).
    apply (P (length vs - 1 - j) v). rewrite R by lia. replace (length vs - 1 - (length vs - 1 - j)) with j by lia. exact E.
Qed.

(** For a text that does not read as a number the two searches use the same test. *)
Lemma text_view_eq : forall lower parse vs s w, parse s = None ->
  find_exact_index_in_view lower vs (LText s) w = Ok (find_exact_index lower parse vs (LText s) w).
Proof.
  intros lower parse vs s w P. cbn [find_exact_index_in_view]. f_equal. unfold find_exact_text, find_exact_index.
  apply position_ext. intros v _. destruct v as [[]|z|c|b|q| |e|]; cbn [matches]; auto;
    unfold cmp_for_lookup; cbn [value_to_f64_lenient]; rewrite P; reflexivity.
Qed.

(** A text candidate matches iff the pattern's meaning says so. *)
Lemma has_wild_plain : forall s, has_wild s = false <-> plain s.
Proof.
  intros s. unfold has_wild, plain. induction s as [|c s IH]; cbn; [tauto|].
  rewrite orb_false_iff, IH. unfold STAR, QUEST, TILDE. split.
  - intros [H (A & B & D)]. repeat split; intros [X|X]; subst; try tauto; cbn in H; discriminate.
  - intros (A & B & D). split; [|tauto]. destruct (N.eqb c 42) eqn:E1; [apply N.eqb_eq in E1; subst; tauto|].
    destruct (N.eqb c 63) eqn:E2; [apply N.eqb_eq in E2; subst; tauto|].
    destruct (N.eqb c 126) eqn:E3; [apply N.eqb_eq in E3; subst; tauto|]. reflexivity.
Qed.
Lemma matches_text : forall lower parse s w c, (plain s -> plain (lower s)) ->
  (matches lower parse (LText s) w (LText c) = true <->
   if w then glob (lower s) (lower c) else lower c = lower s).
Proof.
  intros lower parse s w c HP. cbn [matches]. destruct w; cbn [andb].
  - destruct (has_wild s) eqn:E.
    + destruct (matches_spec (compile (lower s)) (lower c)) as (b & -> & B). rewrite B. apply compile_spec.
    + apply has_wild_plain in E. rewrite text_eqb_spec. rewrite (glob_plain _ (HP E)). split; congruence.
  - apply text_eqb_spec.
Qed.
