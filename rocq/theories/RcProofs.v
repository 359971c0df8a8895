(** Proofs about RcModel.v: marking, and one pass over plain formulas. *)
From Coq Require Import Permutation.
From Verif Require Import Base ListSort GraphSpec TarjanModel SchedModel SchedSpec SchedProofs2 SchedProofs5
  DirtyModel DirtyProofs RcModel RcSpec.

Section P.
Variable V : Type.
Variable circ : V.
Implicit Types b : book V.

Definition wf b : Prop := NoDup (b_ids b) /\ forall v F, b_form b v = Some F -> In v (b_ids b).

Lemma readers_in : forall b f u, wf b -> (In f (readers b u) <-> reads b f u).
Proof.
  intros b f u [_ W]. unfold readers, reads. rewrite filter_In. destruct (b_form b f) as [F|] eqn:E.
  - rewrite memb_spec. split; [intros [_ H]; eauto|]. intros (F' & Q & H). injection Q as <-. eauto.
  - split; [intros [_ H]; discriminate|intros (F & Q & _); discriminate].
Qed.
Lemma is_form_spec : forall b v, is_form b v = true <-> exists F, b_form b v = Some F.
Proof. intros. unfold is_form. destruct (b_form b v); split; intros H; eauto; try discriminate. destruct H; discriminate. Qed.
Lemma reach_trans : forall E x y z, reach E x y -> reach E y z -> reach E x z.
Proof. intros E x y z H. induction H; eauto using reach. Qed.
Lemma reach_end : forall E x y z, reach E x y -> E y z -> reach E x z.
Proof. intros. apply (reach_trans E x y z); auto. apply (r_step E y z z); auto. constructor. Qed.

(** [v] depends on one of the sources. *)
Definition down b (srcs : list nat) (v : nat) : Prop := exists s, In s srcs /\ uses b v s.
Lemma down_reads : forall b srcs u f, down b srcs u -> reads b f u -> down b srcs f.
Proof. intros b srcs u f (s & I & U) R. exists s. split; auto. apply (r_step _ f u s); auto. Qed.

Lemma fuel_todo : forall deps U, list_sum (map (fun v => length (deps v)) U) = todo deps U [].
Proof. intros. unfold todo. rewrite filter_all; auto. Qed.
Lemma propagate_some : forall next U st, (forall v, incl (next v) U) ->
  exists out, propagate (mark_fuel next U st) next [] st = Some out.
Proof.
  intros next U st C. destruct (propagate (mark_fuel next U st) next [] st) as [out|] eqn:P; [eauto|]. exfalso.
  revert P. unfold mark_fuel. rewrite fuel_todo. apply propagate_ends with (U := dedup (st ++ U)); [apply dedup_NoDup| | |lia].
  - intros x Hx; apply dedup_in, in_or_app; auto.
  - intros v _ x Hx; apply dedup_in, in_or_app; right; apply (C v), Hx.
Qed.

Lemma mark_ok : forall b srcs, wf b -> exists d, mark b srcs = Some (set_dirty b (b_dirty b ++ d)) /\
  forall v, In v d <-> down b srcs v.
Proof.
  intros b srcs W. unfold mark.
  assert (C : forall v, incl (readers b v) (b_ids b)) by (intros v x H; apply filter_In in H; tauto).
  destruct (propagate_some (readers b) (b_ids b) (mark_stack b srcs) C) as (vis & P). rewrite P.
  eexists. split; [reflexivity|]. intros v. rewrite dedup_in, in_app_iff, filter_In. split.
  - intros [[Hv _]|Hv]; [exists v; split; auto; constructor|].
    apply (propagate_sound _ _ (down b srcs) _ _ _ P); auto.
    + intros x [[]|Hx]. unfold mark_stack in Hx. apply in_flat_map in Hx. destruct Hx as (s & Hs & Hx).
      apply in_app_or in Hx. destruct Hx as [Hx|Hx].
      * destruct (is_form b s); [|destruct Hx]. destruct Hx as [<-|[]]. exists s; split; auto. constructor.
      * apply readers_in in Hx; auto. apply (down_reads b srcs s); auto. exists s; split; auto. constructor.
    + intros x d Hx Hd. apply readers_in in Hd; auto. apply (down_reads b srcs x); auto.
  - intros (s & Hs & U).
    assert (K : forall x y, reach (reads b) x y -> In y srcs -> In x vis \/ (In x srcs /\ negb (is_form b x) = true)).
    { intros x y H Hy. induction H as [y|x u y R H IH].
      - destruct (is_form b y) eqn:F; [left|right; split; auto].
        apply (propagate_more _ _ _ _ _ P). right. unfold mark_stack. apply in_flat_map. exists y; split; auto.
        rewrite F. left; reflexivity.
      - left. destruct (IH Hy) as [I|[I _]].
        + apply (propagate_closed _ _ _ _ _ P) with (v := u); [intros ? ? []|auto|now apply readers_in].
        + apply (propagate_more _ _ _ _ _ P). right. unfold mark_stack. apply in_flat_map. exists u; split; auto.
          apply in_or_app. right. now apply readers_in. }
    destruct (K v s U Hs); auto.
Qed.

(** ** Writing values *)
(** Everything but the values agrees. *)
Definition same_frame b b' : Prop :=
  b_ids b' = b_ids b /\ b_form b' = b_form b /\ b_dirty b' = b_dirty b /\ b_vol b' = b_vol b /\ b_topo b' = b_topo b /\ b_cache b' = b_cache b.
Lemma frame_refl : forall b, same_frame b b.
Proof. intros. repeat split. Qed.
Lemma frame_trans : forall a b c, same_frame a b -> same_frame b c -> same_frame a c.
Proof. unfold same_frame. intros a b c (A1 & A2 & A3 & A4 & A5 & A6) (B1 & B2 & B3 & B4 & B5 & B6). repeat split; congruence. Qed.
Lemma frame_set : forall b v x, same_frame b (set_val b v x).
Proof. intros. repeat split. Qed.
Lemma frame_eval : forall t b b' v, same_frame b b' ->
  (forall F u, b_form b v = Some F -> In u (f_reads F) -> b_val b' u = b_val b u) ->
  b_form b v <> None -> evalv t b' v = evalv t b v.
Proof.
  intros t b b' v (_ & E & _) H N. unfold evalv. rewrite E. destruct (b_form b v) as [F|] eqn:Q; [|congruence].
  f_equal. apply map_ext_in. intros u Hu. now apply (H F).
Qed.

Definition plain_book b : Prop := forall v F, b_form b v = Some F -> plain F.
(** The value the formula of [v] gives over the values of [b]. *)
Definition val_of (t : nat) b (v : nat) : V := top (evalv t b v).
Lemma evalv_plain : forall t b v, plain_book b -> evalv t b v = Scalar (val_of t b v).
Proof.
  intros t b v P. unfold val_of, evalv. destruct (b_form b v) as [F|] eqn:E; auto.
  destruct (P v F E (if f_volatile F then t else 0) (map (b_val b) (f_reads F))) as (x & Q). rewrite Q. reflexivity.
Qed.
Lemma frame_plain : forall b b', same_frame b b' -> plain_book b -> plain_book b'.
Proof. intros b b' (_ & E & _) P v F. rewrite E. apply P. Qed.

(** What running a layer has to do: each member gets its value over the old values, the
    rest stays. *)
Definition ran (t : nat) b (l : list nat) b' : Prop :=
  same_frame b b' /\ forall u, b_val b' u = if memb u l then val_of t b u else b_val b u.

(** No member of the layer reads another one. *)
Definition apart b (l : list nat) : Prop := forall v u, In v l -> In u l -> ~ reads b v u.

Lemma val_frame : forall t b b' v, same_frame b b' -> b_form b v <> None ->
  (forall u, reads b v u -> b_val b' u = b_val b u) -> val_of t b' v = val_of t b v.
Proof.
  intros. unfold val_of. f_equal. apply frame_eval; auto. intros F u E I. apply H1. exists F; auto.
Qed.

Lemma run_direct_ok : forall t l b, plain_book b -> (forall v, In v l -> b_form b v <> None) ->
  apart b l -> NoDup l -> exists b', run_direct t b l = Some b' /\ ran t b l b'.
Proof.
  intros t l. induction l as [|v l IH]; intros b P Fo A ND; cbn [run_direct].
  - exists b. split; auto. split; [apply frame_refl|]. intros; reflexivity.
  - rewrite (evalv_plain t b v P). cbn [apply_result]. inversion ND as [|? ? Nv ND']; subst.
    set (b1 := set_val b v (val_of t b v)). assert (F1 : same_frame b b1) by apply frame_set.
    destruct (IH b1) as (b' & R & Fr & Va).
    + eapply frame_plain; eauto.
    + intros u Hu. unfold b1; cbn. apply Fo; now right.
    + intros x y Hx Hy. apply (A x y); now right.
    + auto.
    + exists b'. split; [exact R|]. split; [apply (frame_trans _ _ _ F1 Fr)|]. intros u. rewrite Va.
      assert (Eq : memb u (v :: l) = if Nat.eqb u v then true else memb u l).
      { destruct (Nat.eqb_spec u v) as [->|Ne]; [apply memb_spec; now left|].
        destruct (memb u l) eqn:M; [apply memb_spec; right; now apply memb_spec|].
        apply memb_false. intros [K|K]; [congruence|]. apply memb_false in M. contradiction. }
      rewrite Eq. destruct (memb u l) eqn:M.
      * apply memb_spec in M. destruct (Nat.eqb_spec u v) as [->|Ne]; [contradiction|].
        apply val_frame; auto; [apply Fo; now right|]. intros w Rw. unfold b1; cbn. unfold upd.
        destruct (Nat.eqb_spec w v) as [->|]; auto. exfalso. apply (A u v); auto; [now right|now left].
      * unfold b1; cbn; unfold upd. destruct (Nat.eqb u v) eqn:Q; auto. apply Nat.eqb_eq in Q. now subst.
Qed.

Lemma frame_flush : forall buf b, same_frame b (flush b buf).
Proof.
  induction buf as [|w buf IH]; intros b; cbn; [apply frame_refl|].
  apply (frame_trans _ (set_val b (fst w) (snd w))); [apply frame_set|apply IH].
Qed.
Lemma flush_vals : forall buf b u, ~ In u (map fst buf) -> b_val (flush b buf) u = b_val b u.
Proof.
  induction buf as [|[v x] buf IH]; intros b u N; cbn; auto. cbn in N. change (b_val (flush (set_val b v x) buf) u = b_val b u).
  rewrite IH by tauto. cbn. unfold upd. destruct (Nat.eqb_spec u v); auto. subst; tauto.
Qed.
Lemma flush_in : forall buf b u x, NoDup (map fst buf) -> In (u, x) buf -> b_val (flush b buf) u = x.
Proof.
  induction buf as [|[v y] buf IH]; intros b u x ND I; [destruct I|]. cbn in ND. inversion ND; subst.
  change (b_val (flush (set_val b v y) buf) u = x).
  destruct I as [Q|I]; [injection Q as -> ->|now apply IH].
  rewrite flush_vals by auto. cbn. unfold upd. now rewrite Nat.eqb_refl.
Qed.
Lemma flush_app : forall a c b, flush b (a ++ c) = flush (flush b a) c.
Proof. intros. unfold flush. now rewrite fold_left_app. Qed.

(** [b0] the book before the layer, [done] the members already computed. *)
Lemma run_buffered_ok : forall t b0 all l b buf done, plain_book b0 -> (forall v, In v all -> b_form b0 v <> None) ->
  apart b0 all -> NoDup (done ++ l) -> incl (done ++ l) all ->
  same_frame b0 b -> NoDup (map fst buf) -> incl (map fst buf) done ->
  (forall u, b_val (flush b buf) u = if memb u done then val_of t b0 u else b_val b0 u) ->
  (forall u, ~ In u done -> b_val b u = b_val b0 u) ->
  exists b', run_buffered t b buf l = Some b' /\ ran t b0 (done ++ l) b'.
Proof.
  intros t b0 all l. induction l as [|v l IH]; intros b buf done P Fo A ND Inc Fr NB IB Va Vb; cbn [run_buffered].
  - rewrite app_nil_r in *. exists (flush b buf). split; auto. split; [|exact Va].
    eapply frame_trans; [exact Fr|apply frame_flush].
  - cbv zeta. set (b1 := if has_ranges b v then flush b buf else b). set (buf1 := if has_ranges b v then [] else buf).
    assert (F1 : same_frame b0 b1).
    { unfold b1. destruct (has_ranges b v); auto. eapply frame_trans; [exact Fr|apply frame_flush]. }
    assert (E1 : flush b1 buf1 = flush b buf) by (unfold b1, buf1; destruct (has_ranges b v); reflexivity).
    assert (IB1 : incl (map fst buf1) done) by (unfold buf1; destruct (has_ranges b v); [intros ? []|exact IB]).
    assert (NB1 : NoDup (map fst buf1)) by (unfold buf1; destruct (has_ranges b v); [constructor|exact NB]).
    assert (Vb1 : forall u, ~ In u done -> b_val b1 u = b_val b0 u).
    { intros u N. unfold b1. destruct (has_ranges b v); [|now apply Vb]. rewrite Va.
      replace (memb u done) with false; auto. symmetry. now apply memb_false. }
    assert (Iv : In v all) by (apply Inc, in_or_app; right; now left).
    assert (Nd : ~ In v done).
    { intros K. apply NoDup_remove_2 in ND. apply ND, in_or_app; now left. }
    rewrite (evalv_plain t b1 v (frame_plain _ _ F1 P)).
    assert (Ev : val_of t b1 v = val_of t b0 v).
    { apply val_frame; auto. intros u R. apply Vb1. intros K. apply (A v u); auto. apply Inc, in_or_app; now left. }
    rewrite Ev. specialize (IH b1 (buf1 ++ [(v, val_of t b0 v)]) (done ++ [v])).
    rewrite <- app_assoc in IH. cbn [app] in IH. apply IH; auto.
    + rewrite map_app. cbn. apply (Permutation_NoDup (l := v :: map fst buf1)); [apply Permutation_cons_append|].
      constructor; auto.
    + rewrite map_app. cbn. intros u Hu. apply in_app_or in Hu. apply in_or_app. destruct Hu; auto.
    + intros u. rewrite flush_app, E1. cbn. unfold upd. destruct (Nat.eqb_spec u v) as [->|Ne].
      * replace (memb v (done ++ [v])) with true; auto. symmetry. apply memb_spec, in_or_app; right; now left.
      * rewrite Va. replace (memb u (done ++ [v])) with (memb u done); auto.
        destruct (memb u done) eqn:M; symmetry; [apply memb_spec, in_or_app; left; now apply memb_spec|].
        apply memb_false. intros K. apply in_app_or in K. destruct K as [K|[K|[]]]; [|congruence].
        apply memb_false in M. contradiction.
    + intros u N. apply Vb1. intros K. apply N, in_or_app; now left.
Qed.

Lemma apply_all_flush : forall rs b, apply_all b (map (fun p => (fst p, Scalar (snd p))) rs) = Some (flush b rs).
Proof. induction rs as [|[v x] rs IH]; intros b; cbn; auto. apply IH. Qed.
Lemma run_group_ok : forall t g b, plain_book b -> NoDup g -> exists b', run_group t b g = Some b' /\ ran t b g b'.
Proof.
  intros t g b P ND. unfold run_group.
  assert (E : map (fun v => (v, evalv t b v)) g = map (fun p => (fst p, Scalar (snd p))) (map (fun v => (v, val_of t b v)) g)).
  { rewrite map_map. cbn. apply map_ext. intros v. now rewrite (evalv_plain t b v P). }
  rewrite E. set (rs := map (fun v => (v, val_of t b v)) g).
  assert (F0 : forall l : list (nat * V), filter (fun p => is_array (snd p)) (map (fun p => (fst p, Scalar (snd p))) l) = []).
  { induction l as [|p l IHl]; cbn; auto. }
  assert (F1 : forall l : list (nat * V), filter (fun p => negb (is_array (snd p))) (map (fun p => (fst p, Scalar (snd p))) l)
                 = map (fun p => (fst p, Scalar (snd p))) l).
  { induction l as [|p l IHl]; cbn; auto. now rewrite IHl. }
  rewrite F0, F1. cbn [app]. rewrite apply_all_flush. exists (flush b rs). split; auto. split; [apply frame_flush|].
  assert (M1 : map fst rs = g) by (unfold rs; rewrite map_map; cbn; apply map_id).
  intros u. destruct (memb u g) eqn:M.
  - apply memb_spec in M. apply flush_in; [now rewrite M1|]. unfold rs. apply in_map_iff. eauto.
  - apply flush_vals. rewrite M1. now apply memb_false.
Qed.
Lemma NoDup_filter' : forall (p : nat -> bool) l, NoDup l -> NoDup (filter p l).
Proof. intros. now apply NoDup_filter. Qed.
Lemma run_parallel_ok : forall t l b, plain_book b -> (forall v, In v l -> b_form b v <> None) ->
  apart b l -> NoDup l -> exists b', run_parallel t b l = Some b' /\ ran t b l b'.
Proof.
  intros t l b P Fo A ND. unfold run_parallel.
  destruct (run_group_ok t (filter (fun v => negb (has_ranges b v)) l) b P) as (b1 & R1 & F1 & V1); [now apply NoDup_filter|].
  rewrite R1. destruct (run_group_ok t (filter (has_ranges b) l) b1) as (b2 & R2 & F2 & V2);
    [eapply frame_plain; eauto|now apply NoDup_filter|].
  exists b2. split; auto. split; [eapply frame_trans; eauto|]. intros u. rewrite V2.
  destruct (memb u (filter (has_ranges b) l)) eqn:M2.
  - apply memb_spec, filter_In in M2. destruct M2 as [M2 H]. replace (memb u l) with true by (symmetry; now apply memb_spec).
    apply val_frame; auto. intros w R. rewrite V1.
    replace (memb w (filter (fun v => negb (has_ranges b v)) l)) with false; auto.
    symmetry. apply memb_false. intros K. apply filter_In in K. apply (A u w); tauto.
  - rewrite V1. destruct (memb u (filter (fun v => negb (has_ranges b v)) l)) eqn:M1.
    + apply memb_spec, filter_In in M1. replace (memb u l) with true; auto. symmetry. apply memb_spec; tauto.
    + replace (memb u l) with false; auto. symmetry. apply memb_false. intros K.
      apply memb_false in M1, M2. destruct (has_ranges b u) eqn:H; [apply M2|apply M1]; apply filter_In; rewrite ?H; auto.
Qed.

Lemma run_layer_ok : forall pool t l b, plain_book b -> (forall v, In v l -> b_form b v <> None) ->
  apart b l -> NoDup l -> exists b', run_layer pool t b l = Some b' /\ ran t b l b'.
Proof.
  intros pool t l b P Fo A ND. unfold run_layer.
  destruct (pool && (1 <? length l)); [now apply run_parallel_ok|].
  destruct (length l <? 8); [now apply run_direct_ok|].
  apply (run_buffered_ok t b l l b [] []); cbn; auto.
  - apply incl_refl.
  - apply frame_refl.
  - constructor.
  - apply incl_nil_l.
Qed.

Lemma run_cycle_ok : forall c b, same_frame b (run_cycle V circ b c) /\
  forall u, b_val (run_cycle V circ b c) u = if memb u c then circ else b_val b u.
Proof.
  induction c as [|v c IH]; intros b; [split; [apply frame_refl|reflexivity]|].
  change (run_cycle V circ b (v :: c)) with (run_cycle V circ (set_val b v circ) c).
  destruct (IH (set_val b v circ)) as [F Va]. split; [eapply frame_trans; [apply (frame_set b v circ)|exact F]|].
  intros u. rewrite Va. cbn [b_val set_val]. unfold upd.
  destruct (memb u c) eqn:M.
  - replace (memb u (v :: c)) with true; auto. symmetry. apply memb_spec. right. now apply memb_spec.
  - destruct (Nat.eqb_spec u v) as [->|Ne].
    + replace (memb v (v :: c)) with true; auto. symmetry. apply memb_spec. now left.
    + replace (memb u (v :: c)) with false; auto. symmetry. apply memb_false. intros [K|K]; [congruence|].
      apply memb_false in M. contradiction.
Qed.
End P.
