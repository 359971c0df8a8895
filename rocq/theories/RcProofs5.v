(** Proofs about RcModel.v: the values are determined by the content. *)
From Coq Require Import Permutation.
From Verif Require Import Base ListSort GraphSpec TarjanModel SchedModel SchedSpec SchedProofs2 SchedProofs5
  DirtyModel DirtyProofs RcModel RcSpec RcProofs RcProofs2 RcProofs3 RcProofs4.

Section P.
Variable V : Type.
Variable circ : V.
Variable ho : list nat -> list nat.
Hypothesis HO : forall l, Permutation (ho l) l.
Implicit Types b : book V.
Notation core := (core V circ). Notation inv := (inv V circ). Notation down := (down V). Notation wf := (wf V).

Definition read_list b (v : nat) : list nat := match b_form b v with Some F => f_reads F | None => [] end.
Lemma read_list_in : forall b v u, In u (read_list b v) <-> reads b v u.
Proof.
  intros. unfold read_list, reads. destruct (b_form b v) as [F|] eqn:E.
  - split; [eauto|]. intros (F' & Q & I). injection Q as <-. auto.
  - split; [intros []|intros (F & Q & _); discriminate].
Qed.

(** Two books with the same formulas; [U] contains what its members read; each member of
    [U] has the same value in both or shows what its formula says in both. *)
Lemma unique : forall b b' t (U : nat -> Prop), wf b -> (forall v, b_form b' v = b_form b v) ->
  (forall f u, U f -> reads b f u -> U u) ->
  (forall v, U v -> b_form b v = None -> b_val b v = b_val b' v) ->
  (forall f, U f -> b_val b f = b_val b' f \/ (settled circ t b f /\ settled circ t b' f)) ->
  forall v, U v -> b_val b v = b_val b' v.
Proof.
  intros b b' t U [ND W] Ef Up Base Se.
  assert (Rd : forall x y, reads b' x y <-> reads b x y) by (intros x y; unfold reads; rewrite Ef; tauto).
  assert (Cy : forall x, on_cycle (reads b') x <-> on_cycle (reads b) x).
  { intros x. split; apply cycle_imp; intros p q H; now apply Rd. }
  destruct (create_schedule_virtual_ok (read_list b) (fun l => l) (b_ids b) (fun _ => []) (fun l => Permutation_refl l))
    as (s & _ & Go); [intros v _ []|].
  assert (Nd : forall x y, reads b x y -> In y (b_ids b) -> needs (fun v => read_list b v ++ []) (b_ids b) x y).
  { intros x y R I. pose proof R as (F & E & _). split; [eauto|]. split; auto. rewrite app_nil_r. now apply read_list_in. }
  assert (Rn : forall x y, needs (fun v => read_list b v ++ []) (b_ids b) x y -> reads b x y).
  { intros x y (_ & _ & H). rewrite app_nil_r in H. now apply read_list_in. }
  assert (Cn : forall x, on_cycle (needs (fun v => read_list b v ++ []) (b_ids b)) x <-> on_cycle (reads b) x).
  { intros x. split; [apply cycle_imp, Rn|]. intros (y & R & Re).
    assert (L : forall p q, reach (reads b) p q -> q = x -> In p (b_ids b) /\ reach (needs (fun v => read_list b v ++ []) (b_ids b)) p q).
    { intros p q H. induction H as [p|p w q H1 H2 IH]; intros Q.
      - subst. split; [|constructor]. destruct R as (F & E & _). eauto.
      - destruct (IH Q) as [Iw Rw]. split; [destruct H1 as (F & E & _); eauto|]. apply (r_step _ p w q); auto. }
    destruct (L y x Re eq_refl) as [Iy Ry]. exists y. split; auto. }
  assert (Main : forall us pre, units s = pre ++ us -> (forall x, In x (mem s pre) -> U x -> b_val b x = b_val b' x) ->
    forall x, In x (mem s (units s)) -> U x -> b_val b x = b_val b' x).
  { induction us as [|u us IH]; intros pre E Eq.
    - rewrite app_nil_r in E. now rewrite E.
    - apply (IH (pre ++ [u])); [now rewrite <- app_assoc|]. intros x Hx Ux.
      rewrite (mem_app s) in Hx. apply in_app_or in Hx. destruct Hx as [Hx|Hx]; auto.
      unfold mem in Hx; cbn in Hx. rewrite app_nil_r in Hx.
      destruct (Se x Ux) as [Q|[S1 S2]]; auto.
      destruct (b_form b x) as [F|] eqn:Ex; [|now apply Base].
      assert (Ex' : b_form b' x = Some F) by (now rewrite Ef).
      destruct (S1 F Ex) as [A1 A2]. destruct (S2 F Ex') as [B1 B2]. rewrite Cy in B1, B2.
      destruct Go as (_ & _ & _ & Wk & NL & YC & Or).
      destruct u as [i|i]; cbn in Hx.
      + assert (Nc : ~ on_cycle (reads b) x).
        { rewrite <- Cn. apply (NL i x); auto. rewrite E. apply in_or_app; right; now left. }
        rewrite (A2 Nc), (B2 Nc). do 2 f_equal. apply map_ext_in. intros y Hy.
        assert (Ry : reads b x y) by (exists F; auto). pose proof (Up x y Ux Ry) as Uy.
        destruct (b_form b y) as [Fy|] eqn:Ey; [|now apply Base].
        destruct (Or pre (ULayer i) us x y E Hx (Nd x y Ry (W y Fy Ey))) as [K|(_ & _ & (j & Q))]; [|discriminate].
        apply Eq; auto.
      + assert (C : on_cycle (reads b) x).
        { rewrite <- Cn. apply (YC i x x); auto. rewrite E. apply in_or_app; right; now left. }
        now rewrite (A1 C), (B1 C). }
  intros v Uv. destruct (b_form b v) as [F|] eqn:E; [|now apply Base].
  apply (Main (units s) [] eq_refl); auto; [intros x []|]. destruct Go as (_ & _ & _ & Wk & _). apply Wk. eauto.
Qed.

(** ** The thread pool makes no difference *)
Definition sim b b' : Prop := same_frame V b b' /\ forall u, b_val b' u = b_val b u.

Lemma mark_sim : forall b b' srcs c, sim b b' -> mark b srcs = Some c -> exists c', mark b' srcs = Some c' /\ sim c c'.
Proof.
  intros [i f x d v p k] [i' f' x' d' v' p' k'] srcs c ((E1 & E2 & E3 & E4 & E5 & E6) & Va) M.
  cbn in E1, E2, E3, E4, E5, E6, Va. subst i' f' d' v' p' k'.
  revert M. unfold mark, mark_stack, readers, is_form. cbn [b_ids b_form b_dirty].
  match goal with |- match ?P with Some _ => _ | None => _ end = _ -> _ => destruct P end; [|discriminate].
  intros Q. injection Q as <-. eexists. split; [reflexivity|]. split; [repeat split|exact Va].
Qed.

Lemma pass_sim : forall p p' t b b' vs s, sim b b' -> core b -> core b' ->
  (forall v, In v vs -> is_form b v = true /\ In v (b_dirty b)) ->
  (forall v u, In v vs -> reads b v u -> is_form b u = true -> In u (b_dirty b) -> In u vs) ->
  good_schedule (needs (all_deps V b) vs) vs s ->
  exists c c', pass V circ p t b vs s = Some c /\ pass V circ p' t b' vs s = Some c' /\ sim c c' /\ core c /\ core c' /\ b_vol c = b_vol b.
Proof.
  intros p p' t b b' vs s ((E1 & E2 & E3 & E4 & E5 & E6) & Va) C C' A B Go.
  assert (A' : forall v, In v vs -> is_form b' v = true /\ In v (b_dirty b')) by (unfold is_form; rewrite E2, E3; exact A).
  assert (B' : forall v u, In v vs -> reads b' v u -> is_form b' u = true -> In u (b_dirty b') -> In u vs)
    by (unfold is_form, reads; rewrite E2, E3; exact B).
  assert (Go' : good_schedule (needs (all_deps V b') vs) vs s).
  { replace (all_deps V b') with (all_deps V b); auto. unfold all_deps, deps_of, vdeps, is_form. now rewrite E2, E3, E4. }
  destruct (pass_ok V circ p t b vs s C A B Go) as (c & P1 & Co & Ei & Ef & Ev & Ed & Out & St).
  destruct (pass_ok V circ p' t b' vs s C' A' B' Go') as (c' & P1' & Co' & Ei' & Ef' & Ev' & Ed' & Out' & St').
  exists c, c'. split; auto. split; auto. split; [|auto].
  assert (Fr : forall q (e e' : book V) r, pass V circ q t e vs s = Some e' -> core e -> r = all_deps V e ->
             (forall v, In v vs -> is_form e v = true /\ In v (b_dirty e)) ->
             good_schedule (needs r vs) vs s -> b_topo e' = b_topo e /\ b_cache e' = b_cache e).
  { intros q e e' r Q (_ & Pl & _) Er Ae Ge. subst r.
    destruct (run_schedule_ok V circ q t e vs s (all_deps V e) Ge Pl) as (e1 & R & (_ & _ & _ & _ & T & K) & _).
    - intros v I. destruct (Ae v I) as [H _]. apply is_form_spec in H. destruct H as (F & ->). discriminate.
    - intros f u If Iu (F & E & Re). unfold all_deps. apply in_or_app. unfold f_reads in Re. apply in_app_or in Re.
      unfold deps_of. rewrite E, dedup_in, in_app_iff. destruct Re as [Re|Re]; auto.
      destruct (Nat.eq_dec u f) as [->|Ne].
      + left; right. rewrite (proj2 (memb_spec f (f_cells F)) Re). now left.
      + right. apply vdeps_in. exists F. destruct (Ae u Iu). auto 10.
    - unfold pass in Q. rewrite R in Q. injection Q as <-. cbn. auto. }
  destruct (Fr p b c _ P1 C eq_refl A Go) as [T K]. destruct (Fr p' b' c' _ P1' C' eq_refl A' Go') as [T' K'].
  split; [repeat split; congruence|]. intros u. symmetry.
  apply (unique c c' t (fun _ => True)); auto.
  - apply Co.
  - intros v. now rewrite Ef', Ef, E2.
  - intros v _ Q. rewrite Out, Out', Va; auto.
    + intros I. destruct (A' v I) as [H _]. unfold is_form in H. rewrite Ef in Q. rewrite E2, Q in H. discriminate.
    + intros I. destruct (A v I) as [H _]. unfold is_form in H. rewrite Ef in Q. rewrite Q in H. discriminate.
  - intros f _. destruct (in_dec Nat.eq_dec f vs) as [I|N]; [right; auto|left]. rewrite Out, Out'; auto.
Qed.

Lemma sched_sim : forall b b' vs s k, sim b b' -> eval_schedule V ho b vs = Some (s, set_cache b k) ->
  eval_schedule V ho b' vs = Some (s, set_cache b' k).
Proof.
  intros [i f x d v p q] [i' f' x' d' v' p' q'] vs s k ((E1 & E2 & E3 & E4 & E5 & E6) & Va).
  cbn in E1, E2, E3, E4, E5, E6, Va. subst i' f' d' v' p' q'. clear Va.
  unfold eval_schedule.
  change (fresh_schedule V ho (Book V i f x' d v p q) vs) with (fresh_schedule V ho (Book V i f x d v p q) vs).
  change (has_ranges (Book V i f x' d v p q)) with (has_ranges (Book V i f x d v p q)).
  set (fr := fresh_schedule V ho (Book V i f x d v p q) vs). cbn [b_cache b_topo].
  destruct (forallb _ vs).
  - destruct q as [[[tp vs'] s0]|].
    + destruct (_ && _).
      * cbn. intros Q. injection Q as <- <-. reflexivity.
      * destruct fr as [s'|]; [|discriminate]. cbn. intros Q. injection Q as <- <-. reflexivity.
    + destruct fr as [s'|]; [|discriminate]. cbn. intros Q. injection Q as <- <-. reflexivity.
  - destruct fr as [s'|]; [|discriminate]. cbn. intros Q. injection Q as <- <-. reflexivity.
Qed.

Lemma rstep_sim : forall b b' o o', inv b -> inv b' -> plain_op o -> plain_op o' -> sim b b' -> same_op o o' ->
  exists c c', rstep V circ ho b o = Some c /\ rstep V circ ho b' o' = Some c' /\ inv c /\ inv c' /\ sim c c'.
Proof.
  intros b b' o o' I I' P P' S So.
  destruct (rstep_inv V circ ho HO b o I P) as (c & R & Ic). destruct (rstep_inv V circ ho HO b' o' I' P') as (c' & R' & Ic').
  exists c, c'. split; auto. split; auto. split; auto. split; auto. pose proof S as ((E1 & E2 & E3 & E4 & E5 & E6) & Va).
  destruct o as [v x|v F|p t|p t l], o' as [v' x'|v' F'|p' t'|p' t' l']; cbn in So; try discriminate; try contradiction.
  - injection So as -> ->. cbn [rstep] in R, R'. unfold set_value in R, R'.
    match type of R with mark ?z _ = _ => match type of R' with mark ?y _ = _ => destruct (mark_sim z y [v'] c) as (c2 & M & Sc); auto end end.
    + split; [|intros u; cbn; unfold upd; destruct (Nat.eqb u v'); auto].
      unfold same_frame, is_form; cbn. rewrite E1, E2, E3, E4, E5, E6. repeat split.
    + congruence.
  - injection So as -> ->. cbn [rstep] in R, R'. unfold set_formula in R, R'. destruct (memb v' (f_edges F')).
    + injection R as <-; injection R' as <-. exact S.
    + match type of R with mark ?z _ = _ => match type of R' with mark ?y _ = _ => destruct (mark_sim z y [v'] c) as (c2 & M & Sc); auto end end.
      * split; [|intros u; cbn; auto]. unfold same_frame, is_form; cbn. rewrite E1, E2, E3, E4, E5, E6. repeat split.
      * congruence.
  - subst t'. cbn [rstep] in R, R'. unfold evaluate_all in R, R'.
    assert (Te : to_evaluate b' = to_evaluate b) by (unfold to_evaluate, is_form; now rewrite E2, E3, E4).
    rewrite Te in R'. assert (E0 : forall v, In v (to_evaluate b) <-> is_form b v = true /\ In v (b_dirty b)) by (intros; now apply (to_evaluate_in V circ)).
    destruct (to_evaluate b) as [|v0 vs0] eqn:Tq.
    + rewrite E4 in R'. destruct (mark_sim b b' (b_vol b) c S R) as (c2 & M & Sc). congruence.
    + rewrite <- Tq in *. clear v0 vs0 Tq. set (vs := to_evaluate b) in *. pose proof I as ((W & Pl & Cl & Cn & Vf & Ca) & Vd).
      assert (Inc : incl vs (b_ids b)).
      { intros v H. apply E0 in H. destruct H as [Fo _]. apply is_form_spec in Fo. destruct Fo as (F & E). destruct W as [_ W2]. eauto. }
      destruct (eval_schedule_ok V ho HO b vs W Ca Inc) as (s & k & Es & Go & Cc). rewrite Es in R.
      assert (Es' : eval_schedule V ho b' vs = Some (s, set_cache b' k))
        by (now apply (sched_sim b)).
      rewrite Es' in R'.
      destruct (pass_sim p p' t (set_cache b k) (set_cache b' k) vs s) as (c1 & c1' & P1 & P1' & S1 & Co & Co' & Ev); auto.
      * split; [|exact Va]. unfold same_frame; cbn. auto 10.
      * apply core_cache; auto. apply I.
      * apply core_cache; [apply I'|]. unfold cache_ok in *. cbn in *. unfold deps_of in *. cbn in *. now rewrite E2, E5.
      * intros v H. now apply E0.
      * intros v u Hv Rr Fo Di. apply E0. auto.
      * rewrite P1 in R. rewrite P1' in R'. pose proof S1 as ((_ & _ & _ & V4 & _) & _). rewrite V4 in R'.
        destruct (mark_sim c1 c1' (b_vol c1) c S1 R) as (c2 & M & Sc). congruence.
  - destruct So as [-> ->]. cbn [rstep] in R, R'. unfold evaluate_cells in R, R'.
    assert (De : demand b' l' = demand b l') by (unfold demand, deps_of, vdeps, is_form; now rewrite E1, E2, E3, E4).
    rewrite De in R'. destruct (demand_ok V circ b l' I) as (vs & Dv & A & _ & _ & B). rewrite Dv in R, R'.
    destruct vs as [|v0 vs0].
    + rewrite E4 in R'. destruct (mark_sim b b' (b_vol b) c S R) as (c2 & M & Sc). congruence.
    + set (vs := v0 :: vs0) in *.
      assert (Es' : create_schedule_with_virtual (deps_of b') ho vs (vdeps b') = create_schedule_with_virtual (deps_of b) ho vs (vdeps b))
        by (unfold deps_of, vdeps, is_form; now rewrite E2, E3, E4).
      rewrite Es' in R'. destruct (create_schedule_virtual_ok (deps_of b) ho vs (vdeps b) HO) as (s & Es & Go).
      { intros v _ H. apply vdeps_in in H. destruct H as (F & _ & _ & _ & _ & Ne). congruence. }
      rewrite Es in R, R'.
      destruct (pass_sim p p' t' b b' vs s S (proj1 I) (proj1 I') A B Go) as (c1 & c1' & P1 & P1' & S1 & Co & Co' & Ev).
      rewrite P1 in R. rewrite P1' in R'. pose proof S1 as ((_ & _ & _ & V4 & _) & _). rewrite V4 in R'.
      destruct (mark_sim c1 c1' (b_vol c1) c S1 R) as (c2 & M & Sc). congruence.
Qed.
Lemma rrun_sim : forall os os' b b', Forall2 (@same_op V) os os' -> inv b -> inv b' -> sim b b' ->
  Forall (@plain_op V) os -> Forall (@plain_op V) os' ->
  exists c c', rrun V circ ho b os = Some c /\ rrun V circ ho b' os' = Some c' /\ inv c /\ sim c c'.
Proof.
  intros os os' b b' H. revert b b'. induction H as [|o o' os os' So H IH]; intros b b' I I' S P P'; cbn [rrun].
  - exists b, b'. auto.
  - inversion P; inversion P'; subst.
    destruct (rstep_sim b b' o o') as (c & c' & R & R' & Ic & Ic' & Sc); auto. rewrite R, R'. auto.
Qed.

(** ** What has been entered *)
Definition shows b (content : nat -> V + formula V) : Prop := forall v,
  match content v with inl x => b_form b v = None /\ b_val b v = x | inr F => b_form b v = Some F end.
Lemma existsb_memb : forall v l, existsb (Nat.eqb v) l = memb v l.
Proof. intros. destruct (memb v l) eqn:E.
  - apply memb_spec in E. apply existsb_exists. exists v. split; auto. apply Nat.eqb_refl.
  - destruct (existsb (Nat.eqb v) l) eqn:X; auto. apply existsb_exists in X. destruct X as (y & I & Q).
    apply Nat.eqb_eq in Q. subst. apply memb_false in E. contradiction. Qed.
Lemma shows_step : forall b b' o c, inv b -> plain_op o -> shows b c -> rstep V circ ho b o = Some b' ->
  shows b' (fun v => edited o v (c v)).
Proof.
  intros b b' o c I P S R. destruct o as [v x|v F|p t|p t l]; cbn [rstep] in R.
  - destruct (set_value_inv V circ ho HO b v x I) as (b1 & E & _ & Ef & Ev & _). rewrite R in E. injection E as <-.
    intros u. cbn [edited]. rewrite Ef, Ev. unfold upd. rewrite (Nat.eqb_sym v u). destruct (Nat.eqb u v); auto. apply S.
  - destruct (set_formula_inv V circ ho HO b v F I P) as (b1 & E & _ & Ef & Ev & _). rewrite R in E. injection E as <-.
    intros u. cbn [edited]. rewrite existsb_memb, Ef, Ev. specialize (S u). destruct (memb v (f_edges F)); cbn [negb].
    + rewrite andb_false_r. exact S.
    + rewrite andb_true_r. unfold upd. rewrite (Nat.eqb_sym v u). destruct (Nat.eqb u v); auto.
  - destruct (evaluate_all_inv V circ ho HO p t b I) as (b1 & E & _ & Ef & Ev & _). rewrite R in E. injection E as <-.
    intros u. specialize (S u). cbn [edited]. rewrite Ef. destruct (c u); auto. destruct S as [S1 S2]. split; auto.
    rewrite Ev; auto. unfold is_form. now rewrite S1.
  - destruct (evaluate_cells_inv V circ ho HO p t b l I) as (b1 & vs & E & _ & De & Ef & _ & Ev & _). rewrite R in E. injection E as <-.
    destruct (demand_ok V circ b l I) as (vs' & De' & A & _). rewrite De in De'. injection De' as <-.
    intros u. specialize (S u). cbn [edited]. rewrite Ef. destruct (c u); auto. destruct S as [S1 S2]. split; auto.
    rewrite Ev; auto. intros K. destruct (A u K) as [Fo _]. unfold is_form in Fo. rewrite S1 in Fo. discriminate.
Qed.
Lemma shows_run : forall os b b' c, inv b -> Forall (@plain_op V) os -> shows b c -> rrun V circ ho b os = Some b' ->
  shows b' (fun v => fold_left (fun c o => edited o v c) os (c v)).
Proof.
  induction os as [|o os IH]; intros b b' c I P S R; cbn [rrun] in R.
  - injection R as <-. exact S.
  - inversion P; subst. destruct (rstep_inv V circ ho HO b o I) as (b1 & E & I1); auto. rewrite E in R.
    apply (IH b1 b' (fun v => edited o v (c v))); auto. now apply (shows_step b b1 o c).
Qed.
Lemma shows_new : forall blank os b, Forall (@plain_op V) os -> rrun V circ ho (new_book V blank) os = Some b ->
  shows b (entered blank os).
Proof.
  intros blank os b P R. apply (shows_run os (new_book V blank) b (fun _ => inl blank)); auto.
  - apply new_inv.
  - intros v. split; reflexivity.
Qed.

(** ** Chosen cells and all cells *)
Lemma cells_like_all : forall p p' t b targets c a, inv b ->
  evaluate_cells V circ ho p t b targets = Some c -> evaluate_all V circ ho p' t b = Some a ->
  (forall g u, In g targets -> uses b g u -> b_val c u = b_val a u) /\
  (forall u, (forall g, In g targets -> ~ uses b g u) -> b_val c u = b_val b u /\ (In u (b_dirty b) -> In u (b_dirty c))).
Proof.
  intros p p' t b targets c a I R R'. pose proof I as ((W & Pl & Cl & Cn & Vf & Ca) & Vd).
  destruct (evaluate_cells_inv V circ ho HO p t b targets I) as (c1 & vs & E & Ic & De & Ef & Evol & Ev & Sv & Sc & Di).
  rewrite R in E. injection E as <-.
  destruct (evaluate_all_inv V circ ho HO p' t b I) as (a1 & E & Ia & Fa & Va & Sa & _). rewrite R' in E. injection E as <-.
  destruct (demand_ok V circ b targets I) as (vs' & De' & A & Us & Tg & B). rewrite De in De'. injection De' as <-.
  split.
  - set (U := fun u => is_form b u = false \/ In u vs \/ ~ In u (b_dirty b)).
    assert (Up : forall f u, U f -> reads b f u -> U u).
    { intros f u Uf Rf. unfold U. destruct (is_form b u) eqn:Fu; [|now left]. right.
      destruct (in_dec Nat.eq_dec u (b_dirty b)) as [D|D]; [left|now right].
      destruct Uf as [Nf|[If|Cf]].
      - destruct Rf as (F & E & _). unfold is_form in Nf. rewrite E in Nf. discriminate.
      - now apply (B f u).
      - apply is_form_spec in Fu. destruct Fu as (F & E). elim Cf. apply (Cl u f F); auto. }
    assert (Eq : forall v, U v -> b_val c v = b_val a v).
    { apply (unique c a t U).
      - apply Ic.
      - intros v. now rewrite Ef, Fa.
      - intros f u Uf Rf. apply (Up f u Uf). unfold reads in *. now rewrite <- Ef.
      - intros v _ Q. rewrite Ef in Q. rewrite Va by (unfold is_form; now rewrite Q).
        apply Ev. intros K. destruct (A v K) as [Fo _]. unfold is_form in Fo. rewrite Q in Fo. discriminate.
      - intros f Uf. right. split; [|apply Sa]. destruct Uf as [Nf|[If|Cf]]; auto.
        intros F E. rewrite Ef in E. unfold is_form in Nf. rewrite E in Nf. discriminate. }
    intros g u Ig Ur. apply Eq.
    assert (Ug : U g).
    { unfold U. destruct (is_form b g) eqn:Fg; [|now left]. right.
      destruct (in_dec Nat.eq_dec g (b_dirty b)); [left; auto|now right]. }
    clear Ig. unfold uses in Ur. induction Ur as [g|g w u Rg Rr IH]; auto. apply IH. now apply (Up g w).
  - intros u Nu. assert (N : ~ In u vs) by (intros K; destruct (Us u K) as (g & Ig & Ug); now apply (Nu g)).
    split; [now apply Ev|]. intros D. apply Di. left. auto.
Qed.

Lemma all_determined : forall t t' b b', wf b -> (forall f, settled circ t b f) -> (forall f, settled circ t' b' f) ->
  same_content b b' -> (forall v F, b_form b v = Some F -> f_volatile F = true -> t = t') ->
  forall v, b_val b v = b_val b' v.
Proof.
  intros t t' b b' W S S' (Ef & Ev) Vo v. apply (unique b b' t (fun _ => True)); auto.
  intros f _. right. split; auto. intros F E. destruct (S' f F E) as [A B]. split; auto. intros N. rewrite (B N).
  destruct (f_volatile F) eqn:Q; auto. rewrite <- Ef in E. now rewrite (Vo f F E Q).
Qed.
Lemma shows_same : forall b b' c, shows b c -> shows b' c -> same_content b b'.
Proof.
  intros b b' c S S'. split; intros v; specialize (S v); specialize (S' v); destruct (c v); try congruence.
  - destruct S, S'; congruence.
  - destruct S, S'. congruence.
Qed.

(** ** Volatile formulas *)
Lemma mark_vol : forall b srcs c, mark b srcs = Some c -> b_vol c = b_vol b.
Proof.
  intros b srcs c M. unfold mark in M. cbv zeta in M.
  match type of M with match ?X with _ => _ end = _ => destruct X end; [|discriminate]. now injection M as <-.
Qed.
Lemma vol_run : forall os b b', inv b -> Forall (@plain_op V) os -> rrun V circ ho b os = Some b' ->
  forall v, In v (b_vol b') -> In v (b_vol b) \/ once_volatile os v.
Proof.
  induction os as [|o os IH]; intros b b' I P R v Iv; cbn [rrun] in R; [injection R as <-; auto|].
  inversion P; subst. destruct (rstep_inv V circ ho HO b o I) as (b1 & E & I1); auto. rewrite E in R.
  destruct (IH b1 b' I1) with (v := v) as [K|(F & K & Vo)]; auto.
  2:{ right. exists F. split; [now right|auto]. }
  destruct o as [u x|u F|p t|p t l]; cbn [rstep] in E.
  - unfold set_value in E. apply mark_vol in E. rewrite E in K. auto.
  - unfold set_formula in E. destruct (memb u (f_edges F)); [injection E as <-; auto|]. apply mark_vol in E. rewrite E in K.
    cbn in K. destruct (f_volatile F) eqn:Vo.
    + apply in_app_or in K. destruct K as [K|[K|[]]]; auto. subst. right. exists F. split; [now left|auto].
    + apply filter_In in K. tauto.
  - destruct (evaluate_all_inv V circ ho HO p t b I) as (b2 & E2 & _ & _ & _ & _ & _ & Vv). rewrite E in E2. injection E2 as <-.
    rewrite Vv in K. auto.
  - destruct (evaluate_cells_inv V circ ho HO p t b l I) as (b2 & vs & E2 & _ & _ & _ & Vv & _). rewrite E in E2. injection E2 as <-.
    rewrite Vv in K. auto.
Qed.
End P.
