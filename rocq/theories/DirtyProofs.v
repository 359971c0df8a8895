(** Proofs about DirtyModel.v: one propagation. *)
From Verif Require Import Base Maps ListSort SchedModel SchedProofs2 EdgeModel EdgeSpec EdgeProofs EdgeProofs2
  IntervalModel IntervalProofs StripeModel StripeSpec StripeProofs DirtyModel DirtySpec.
From Coq Require Import ZifyN ZifyNat ZifyBool.

Lemma propagate_more : forall fuel deps vis st out,
  propagate fuel deps vis st = Some out -> forall v, In v vis \/ In v st -> In v out.
Proof.
  induction fuel as [|n IH]; intros deps vis [|x st] out H v Hv; cbn in H; try discriminate.
  - injection H as <-; destruct Hv as [Hv|[]]; exact Hv.
  - injection H as <-; destruct Hv as [Hv|[]]; exact Hv.
  - destruct (memb x vis) eqn:M.
    + apply (IH _ _ _ _ H). destruct Hv as [Hv|[<-|Hv]]; auto. left; apply memb_spec; exact M.
    + apply (IH _ _ _ _ H). destruct Hv as [Hv|[<-|Hv]]; cbn; auto. right; apply in_or_app; auto.
Qed.
Lemma propagate_closed : forall fuel deps vis st out,
  propagate fuel deps vis st = Some out ->
  (forall v d, In v vis -> In d (deps v) -> In d vis \/ In d st) ->
  forall v d, In v out -> In d (deps v) -> In d out.
Proof.
  induction fuel as [|n IH]; intros deps vis [|x st] out H C; cbn in H; try discriminate.
  - injection H as <-; intros v d Hv Hd; destruct (C v d Hv Hd) as [K|[]]; exact K.
  - injection H as <-; intros v d Hv Hd; destruct (C v d Hv Hd) as [K|[]]; exact K.
  - destruct (memb x vis) eqn:M.
    + apply (IH _ _ _ _ H). intros v d Hv Hd; destruct (C v d Hv Hd) as [K|[<-|K]]; auto.
      left; apply memb_spec; exact M.
    + apply (IH _ _ _ _ H). intros v d [<-|Hv] Hd; [right; apply in_or_app; auto|].
      destruct (C v d Hv Hd) as [K|[<-|K]]; cbn; auto. right; apply in_or_app; auto.
Qed.
Lemma propagate_sound : forall fuel deps (P : nat -> Prop) vis st out,
  propagate fuel deps vis st = Some out ->
  (forall v, In v vis \/ In v st -> P v) -> (forall v d, P v -> In d (deps v) -> P d) ->
  forall v, In v out -> P v.
Proof.
  induction fuel as [|n IH]; intros deps P vis [|x st] out H A C; cbn in H; try discriminate.
  - injection H as <-; intros v Hv; apply A; auto.
  - injection H as <-; intros v Hv; apply A; auto.
  - destruct (memb x vis) eqn:M.
    + apply (IH _ _ _ _ _ H); [|exact C]. intros v [Hv|Hv]; apply A; cbn; auto.
    + apply (IH _ _ _ _ _ H); [|exact C]. intros v [[<-|Hv]|Hv]; [apply A; cbn; auto|apply A; auto|].
      apply in_app_or in Hv; destruct Hv as [Hv|Hv]; [|apply A; cbn; auto].
      apply (C x); [apply A; cbn; auto|exact Hv].
Qed.
Lemma propagate_NoDup : forall fuel deps vis st out,
  propagate fuel deps vis st = Some out -> NoDup vis -> NoDup out.
Proof.
  induction fuel as [|n IH]; intros deps vis [|x st] out H N0; cbn in H; try discriminate;
    try (injection H as <-; exact N0).
  destruct (memb x vis) eqn:M; apply (IH _ _ _ _ H); [exact N0|].
  constructor; [|exact N0]. apply memb_false; exact M.
Qed.

(** ** The loop ends *)
Definition todo (deps : nat -> list nat) (U vis : list nat) : nat :=
  list_sum (map (fun v => length (deps v)) (filter (fun v => negb (memb v vis)) U)).
Lemma todo_visit : forall deps U vis x, NoDup U -> In x U -> memb x vis = false ->
  todo deps U vis = length (deps x) + todo deps U (x :: vis).
Proof.
  intros deps U vis x ND Hx M. unfold todo.
  induction ND as [|y U Hy ND IH]; [destruct Hx|].
  cbn [filter map]. destruct (Nat.eq_dec y x) as [->|Ne].
  - rewrite M; cbn [negb]. assert (M2 : memb x (x :: vis) = true) by (apply memb_spec; left; reflexivity).
    rewrite M2; cbn [negb]. cbn [map list_sum fold_right]. f_equal.
    replace (filter (fun v => negb (memb v (x :: vis))) U) with (filter (fun v => negb (memb v vis)) U); [reflexivity|].
    apply filter_ext_in. intros z Hz. f_equal.
    destruct (memb z vis) eqn:Z.
    + symmetry; apply memb_spec; right; apply memb_spec; exact Z.
    + symmetry; apply memb_false; intros [<-|K]; [contradiction|].
      apply memb_false in Z; contradiction.
  - destruct Hx as [->|Hx]; [congruence|]. specialize (IH Hx).
    assert (E : memb y (x :: vis) = memb y vis).
    { destruct (memb y vis) eqn:Z.
      - apply memb_spec; right; apply memb_spec; exact Z.
      - apply memb_false; intros [K|K]; [congruence|]. apply memb_false in Z; contradiction. }
    rewrite E. destruct (negb (memb y vis)); [|exact IH].
    cbn [map list_sum fold_right]. unfold list_sum in IH. rewrite IH. lia.
Qed.
Lemma propagate_ends : forall fuel deps U vis st,
  NoDup U -> incl st U -> (forall v, In v U -> incl (deps v) U) ->
  length st + todo deps U vis <= fuel -> propagate fuel deps vis st <> None.
Proof.
  induction fuel as [|n IH]; intros deps U vis [|x st] ND I C L; cbn [propagate]; try discriminate.
  - cbn [length] in L; lia.
  - cbn [length] in L. destruct (memb x vis) eqn:M.
    + apply (IH _ U); auto; [|lia]. intros z Hz; apply I; right; exact Hz.
    + assert (Hx : In x U) by (apply I; left; reflexivity).
      apply (IH _ U); auto.
      * intros z Hz; apply in_app_or in Hz; destruct Hz as [Hz|Hz]; [apply (C x Hx), Hz | apply I; right; exact Hz].
      * rewrite app_length. rewrite (todo_visit deps U vis x ND Hx M) in L. lia.
Qed.

(** All dependents a graph can answer. *)
Definition universe (g : graph) : list nat :=
  reds (base (g_store g)) ++ flat_map snd (adds_in (delta (g_store g))) ++ map N.to_nat (map snd (stripes (g_index g))).

Lemma slice_incl : forall o e mn v x, In x (slice o e mn v) -> In x e.
Proof.
  intros o e mn v x H. unfold slice in H.
  destruct (length o <=? 1); [destruct H|]. destruct (v <? mn); [destruct H|].
  cbv zeta in H. destruct (length o - 1 <=? v - mn); [destruct H|].
  assert (H2 : In x (skipn (nth (v - mn) o 0) e)).
  { rewrite <- (firstn_skipn (nth (S (v - mn)) o 0 - nth (v - mn) o 0) (skipn (nth (v - mn) o 0) e)).
    apply in_or_app; left; exact H. }
  rewrite <- (firstn_skipn (nth (v - mn) o 0) e). apply in_or_app; right; exact H2.
Qed.

Lemma eget_incl : forall m v x, In x (eget m v) -> In x (flat_map snd m).
Proof.
  intros m v x H. unfold eget in H. destruct (mget Nat.eqb m v) as [l|] eqn:G; [|destruct H].
  apply (mget_In Nat.eqb nat_eqb_spec) in G. apply in_flat_map; exists (v, l); auto.
Qed.
Lemma in_merged_universe : forall s v x, In x (in_edges_merged s v) -> In x (reds (base s) ++ flat_map snd (adds_in (delta s))).
Proof.
  intros s v x H. unfold in_edges_merged in H. apply in_or_app. destruct (ops (delta s) =? 0).
  - left; apply (slice_incl _ _ _ _ _ H).
  - unfold merged_in_view in H. apply merge_in in H. destruct H as [[H _]|H].
    + left; apply (slice_incl _ _ _ _ _ H).
    + right; apply (eget_incl _ _ _ H).
Qed.
Lemma edge_deps_eq : forall g v, edge_deps g v = in_edges_merged (g_store g) v.
Proof.
  intros g v; unfold edge_deps, in_edges_ref, in_edges_merged. destruct (ops (delta (g_store g)) =? 0); reflexivity.
Qed.
Lemma rect_deps_universe : forall g s r0 c0 r1 c1 x, In x (rect_deps g s r0 c0 r1 c1) -> In x (universe g).
Proof.
  intros g s r0 c0 r1 c1 x H. unfold rect_deps in H. apply in_map_iff in H. destruct H as (d & <- & H).
  rewrite collect_in in H. destruct H as [(k & _ & H) _].
  unfold universe. apply in_or_app; right; apply in_or_app; right.
  apply in_map. apply in_map_iff; exists (k, d); auto.
Qed.
Lemma range_deps_universe : forall g v x, In x (range_deps g v) -> In x (universe g).
Proof.
  intros g v x H. unfold range_deps in H. destruct (g_pos g v) as [[s [r c]]|]; [|destruct H].
  apply rect_deps_universe in H; exact H.
Qed.
Lemma dependents_universe : forall g v, incl (dependents g v) (universe g).
Proof.
  intros g v x H. unfold dependents in H. apply in_app_or in H; destruct H as [H|H].
  - rewrite edge_deps_eq in H. apply in_merged_universe in H. unfold universe. rewrite app_assoc. apply in_or_app; auto.
  - apply (range_deps_universe g v); exact H.
Qed.
Lemma propagate_mono : forall fuel deps vis st out,
  propagate fuel deps vis st = Some out -> forall fuel', fuel <= fuel' -> propagate fuel' deps vis st = Some out.
Proof.
  induction fuel as [|n IH]; intros deps vis [|x st] out H fuel' L; cbn in H; try discriminate.
  - destruct fuel'; exact H.
  - destruct fuel'; exact H.
  - destruct fuel' as [|m]; [lia|]. cbn. destruct (memb x vis); apply IH; (exact H || lia).
Qed.
Lemma enough_fuel : forall deps (U st : list nat), (forall v, incl (deps v) U) ->
  exists n out, forall fuel, n <= fuel -> propagate fuel deps [] st = Some out.
Proof.
  intros deps U st C. exists (length st + todo deps (dedup (st ++ U)) []).
  destruct (propagate (length st + todo deps (dedup (st ++ U)) []) deps [] st) as [out|] eqn:P.
  - exists out; intros fuel L; apply (propagate_mono _ _ _ _ _ P), L.
  - exfalso. revert P. apply (propagate_ends _ deps (dedup (st ++ U))); [apply dedup_NoDup| | |lia].
    + intros x Hx; apply dedup_in, in_or_app; auto.
    + intros v _ x Hx; apply dedup_in, in_or_app; right; apply (C v), Hx.
Qed.

(** ** What a graph answers *)
(** The dependents are the readers. *)
Definition tracks (g : graph) (R : reads) : Prop :=
  (forall v f, In f (dependents g v) <-> R f v) /\ (forall v n, In n (g_names g v) -> R n v).

Lemma built_tracks : forall g es rs, built g es rs -> tracks g (reads_of es rs (g_pos g)).
Proof.
  intros g es rs B. destruct (bu_legal _ _ _ B) as [L1 L2].
  destruct (store_exact es L1 L2) as (_ & A & _).
  split.
  - intros v f. unfold dependents. rewrite in_app_iff, edge_deps_eq, (bu_store _ _ _ B), A.
    unfold reads_of, range_deps, rect_deps. rewrite (bu_index _ _ _ B).
    destruct (g_pos g v) as [[sheet [row col]]|] eqn:P.
    + destruct (bu_places _ _ _ B _ _ _ _ P) as [F1 F2].
      destruct (collect_exact (g_blocks g) rs sheet row col row col (bu_shapes _ _ _ B)
                  (N.le_refl _) (N.le_refl _) F1 F2) as [_ K].
      split; (intros [H|H]; [left; exact H|right]).
      * apply in_map_iff in H; destruct H as (d & <- & H). rewrite K in H.
        destruct H as (r & row' & col' & Hr & Ha & Hb & Hc).
        assert (row' = row) by lia; assert (col' = col) by lia; subst.
        exists r, sheet, row, col. rewrite N2Nat.id; auto.
      * destruct H as (r & sheet' & row' & col' & Hr & E & Hc). injection E as <- <- <-.
        apply in_map_iff; exists (N.of_nat f); split; [apply Nat2N.id|]. rewrite K.
        exists r, row, col; split; [exact Hr|]; split; [lia|]; split; [lia|exact Hc].
    + split; (intros [H|H]; [left; exact H|]); [destruct H|].
      destruct H as (r & sheet' & row' & col' & Hr & E & Hc); discriminate.
  - intros v n H; left; apply (bu_names _ _ _ B), H.
Qed.

Definition start_stack (g : graph) (srcs : list nat) : list nat :=
  flat_map (fun s => (if g_formula g s then [s] else []) ++ edge_deps g s ++ g_names g s ++ range_deps g s) srcs.

Lemma mark_now_exact : forall g R, tracks g R -> forall srcs, exists n aff,
  NoDup aff /\ (forall v, In v aff <-> reach R srcs v) /\ forall fuel, n <= fuel -> forall st,
  mark_now fuel g srcs st = Some (aff, DState (dirty st ++ aff) (ddepth st) (dpending st)).
Proof.
  intros g R [T N0] srcs.
  destruct (enough_fuel (dependents g) (universe g) (start_stack g srcs) (dependents_universe g)) as (n & out & Hn).
  exists n, (dedup (filter (fun s => negb (g_formula g s)) srcs ++ out)).
  split; [apply dedup_NoDup|]. split;
    [|intros fuel L st; unfold mark_now; fold (start_stack g srcs); rewrite (Hn fuel L); reflexivity].
  pose proof (Hn n (le_n n)) as P. intros v. rewrite dedup_in, in_app_iff, filter_In.
  assert (Hstack : forall x, In x (start_stack g srcs) -> reach R srcs x).
  { intros x Hx. unfold start_stack in Hx. apply in_flat_map in Hx. destruct Hx as (s & Hs & Hx).
    rewrite !in_app_iff in Hx. destruct Hx as [Hx|[Hx|[Hx|Hx]]].
    - destruct (g_formula g s); [|destruct Hx]. destruct Hx as [<-|[]]. apply reach_src, Hs.
    - apply (reach_read R srcs s); [apply reach_src, Hs|]. apply T. apply in_or_app; auto.
    - apply (reach_read R srcs s); [apply reach_src, Hs|]. apply N0, Hx.
    - apply (reach_read R srcs s); [apply reach_src, Hs|]. apply T. apply in_or_app; auto. }
  split.
  - intros [[Hv _]|Hv]; [apply reach_src, Hv|].
    apply (propagate_sound _ _ (reach R srcs) _ _ _ P); [| |exact Hv].
    + intros x [[]|Hx]; apply Hstack, Hx.
    + intros x d Hx Hd; apply (reach_read R srcs x); [exact Hx|]. apply T, Hd.
  - intros H. induction H as [v Hv | u f Hu IH Hr].
    + destruct (g_formula g v) eqn:F; [right|left; split; [exact Hv|reflexivity]].
      apply (propagate_more _ _ _ _ _ P). right. unfold start_stack. apply in_flat_map. exists v; split; [exact Hv|].
      rewrite F. left; reflexivity.
    + right. destruct IH as [[Hs _]|Hs].
      * apply (propagate_more _ _ _ _ _ P). right. unfold start_stack. apply in_flat_map. exists u; split; [exact Hs|].
        apply T in Hr. unfold dependents in Hr. rewrite !in_app_iff. apply in_app_or in Hr. tauto.
      * apply (propagate_closed _ _ _ _ _ P) with (v := u); [intros ? ? []|exact Hs|]. apply T, Hr.
Qed.

(** ** Histories *)
Lemma reach_app : forall R a b v, reach R (a ++ b) v <-> reach R a v \/ reach R b v.
Proof.
  intros R a b v; split.
  - intros H; induction H as [v H|u f H [IH|IH] K].
    + apply in_app_or in H; destruct H; [left|right]; apply reach_src; assumption.
    + left; apply (reach_read R a u); assumption.
    + right; apply (reach_read R b u); assumption.
  - intros [H|H]; induction H as [v H|u f H IH K];
      try (apply reach_src, in_or_app; auto; fail); apply (reach_read R _ u); assumption.
Qed.
Lemma reach_ext : forall R a b, (forall x, In x a <-> In x b) -> forall v, reach R a v <-> reach R b v.
Proof.
  intros R a b E v; split; intros H; induction H as [v H|u f H IH K];
    try (apply reach_src, E, H); apply (reach_read R _ u); assumption.
Qed.
Lemma reach_nil : forall R v, ~ reach R [] v.
Proof. intros R v H; induction H as [v []|u f H IH K]; exact IH. Qed.

(** Any way of dividing the sources into batches marks the same. *)
Lemma batches_equal : forall (bs : list (reads * list nat)) R all,
  (forall x, In x all <-> exists b, In b bs /\ In x (snd b)) ->
  (forall b f v, In b bs -> ~ In f all -> (fst b f v <-> R f v)) ->
  forall v, (exists b, In b bs /\ reach (fst b) (snd b) v) <-> reach R all v.
Proof.
  intros bs R all A S0 v; split.
  - intros (b & Hb & H). induction H as [v H|u f H IH K].
    + apply reach_src, A; exists b; auto.
    + destruct (in_dec Nat.eq_dec f all) as [I|I]; [apply reach_src, I|].
      apply (reach_read R all u); [exact IH|]. apply (S0 b f u Hb I), K.
  - intros H. induction H as [v H|u f H (b & Hb & IH) K].
    + apply A in H; destruct H as (b & Hb & H); exists b; split; [exact Hb|]; apply reach_src, H.
    + destruct (in_dec Nat.eq_dec f all) as [I|I].
      * apply A in I; destruct I as (b' & Hb' & I); exists b'; split; [exact Hb'|]; apply reach_src, I.
      * exists b; split; [exact Hb|]. apply (reach_read _ _ u); [exact IH|]. apply (S0 b f u Hb I), K.
Qed.

(** The batches a run has marked, and those still pending. *)
Record accounts (init : dstate) (st : dstate) (marked : list nat) (Rs : list reads) (bs : list (reads * list nat)) : Prop := Acc {
  ac_dirty : forall v, In v (dirty st) <-> In v (dirty init) \/ exists b, In b bs /\ reach (fst b) (snd b) v;
  ac_marked : forall x, In x marked <-> In x (dpending st) \/ exists b, In b bs /\ In x (snd b);
  ac_rel : forall b, In b bs -> In (fst b) Rs;
  ac_depth : ddepth st = 0 -> dpending st = [] }.

Lemma acc_mark : forall init st marked Rs bs aff R srcs d p marked' ,
  accounts init st marked Rs bs -> In R Rs ->
  (forall v, In v aff <-> reach R srcs v) ->
  (forall x, In x marked' <-> In x p \/ In x srcs \/ exists b, In b bs /\ In x (snd b)) ->
  (d = 0 -> p = []) ->
  accounts init (DState (dirty st ++ aff) d p) marked' Rs ((R, srcs) :: bs).
Proof.
  intros init st marked Rs bs aff R srcs d p marked' [A B C D] HR Haff Hm Hd. constructor; cbn [dirty ddepth dpending].
  - intros v. rewrite in_app_iff, A, Haff. split.
    + intros [[H|(b & Hb & H)]|H]; [left; exact H|right; exists b; split; [right|]; assumption|].
      right; exists (R, srcs); split; [left; reflexivity|exact H].
    + intros [H|(b & [<-|Hb] & H)]; [auto|right; exact H|left; right; exists b; auto].
  - intros x. rewrite Hm. split.
    + intros [H|[H|(b & Hb & H)]]; [auto|right; exists (R, srcs); cbn; auto|right; exists b; cbn; auto].
    + intros [H|(b & [<-|Hb] & H)]; [auto|right; left; exact H|right; right; exists b; auto].
  - intros b [<-|Hb]; [exact HR|apply C, Hb].
  - exact Hd.
Qed.

Lemma acc_weaken : forall init st a b Rs bs, (forall x, In x a <-> In x b) ->
  accounts init st a Rs bs -> accounts init st b Rs bs.
Proof.
  intros init st a b Rs bs E [A B C D]; constructor; auto. intros x; rewrite <- E; apply B.
Qed.

Lemma dstep_accounts : forall g o R, tracks g R ->
  forall init st pre Rs bs, accounts init st pre Rs bs -> In R Rs ->
  (forall s, In s pre -> g_live g s = true) ->
  exists n st' bs', (forall fuel, n <= fuel -> dstep fuel (g, o) st = Some st')
    /\ accounts init st' (pre ++ sources_of [(g, o)]) Rs bs'
    /\ ddepth st' = open_after [(g, o)] (ddepth st).
Proof.
  intros g o R T init st pre Rs bs A HR L.
  unfold sources_of, open_after; cbn [flat_map fold_left snd]. rewrite app_nil_r.
  destruct o as [srcs| |].
  - destruct (mark_now_exact g R T srcs) as (n & aff & _ & Haff & Hn).
    unfold dstep, mark_dirty_many; cbn [fst snd]. destruct (ddepth st) as [|d] eqn:Dd.
    + exists n, (DState (dirty st ++ aff) (ddepth st) (dpending st)), ((R, srcs) :: bs).
      split; [intros fuel Hf; cbn [Nat.ltb Nat.leb]; rewrite (Hn fuel Hf st); reflexivity|]. split; [|exact Dd].
      apply (acc_mark init st pre Rs bs); auto.
      * intros x. rewrite in_app_iff, (ac_marked _ _ _ _ _ A). tauto.
      * intros _; apply (ac_depth _ _ _ _ _ A), Dd.
    + exists 0, (DState (dirty st) (S d) (dpending st ++ srcs)), bs.
      split; [reflexivity|]. split; [|reflexivity].
      destruct A as [A B C D]. constructor; cbn [dirty ddepth dpending]; auto.
      * intros x. rewrite !in_app_iff, B. tauto.
      * discriminate.
  - exists 0, (begin_deferred st), bs. split; [reflexivity|]. split; [|reflexivity].
    rewrite app_nil_r. destruct A as [A B C D]; constructor; cbn; auto. discriminate.
  - rewrite app_nil_r. unfold dstep, end_deferred; cbn [fst snd].
    destruct (0 <? pred (ddepth st)) eqn:Dd.
    + exists 0, (DState (dirty st) (pred (ddepth st)) (dpending st)), bs. split; [reflexivity|].
      split; [|reflexivity]. destruct A as [A B C D]; constructor; cbn; auto.
      intros E; rewrite E in Dd; discriminate.
    + assert (Z : pred (ddepth st) = 0) by (apply Nat.ltb_ge in Dd; lia).
      destruct (dpending st) as [|p ps] eqn:P.
      * exists 0, (DState (dirty st) (pred (ddepth st)) []), bs. split; [reflexivity|].
        split; [|reflexivity]. destruct A as [A B C D]; constructor; cbn; auto. rewrite P in B; exact B.
      * assert (E : filter (g_live g) (p :: ps) = p :: ps).
        { assert (H : forall l, (forall x, In x l -> g_live g x = true) -> filter (g_live g) l = l).
          { induction l as [|y l IH]; intros Hl; [reflexivity|]. cbn [filter].
            rewrite (Hl y (or_introl eq_refl)). f_equal; apply IH; intros x Hx; apply Hl; right; exact Hx. }
          apply H; intros x Hx; apply L, (ac_marked _ _ _ _ _ A). left; rewrite P; exact Hx. }
        destruct (mark_now_exact g R T (p :: ps)) as (n & aff & _ & Haff & Hn).
        exists n, (DState (dirty st ++ aff) (pred (ddepth st)) []), ((R, p :: ps) :: bs).
        split; [|split; [|reflexivity]].
        -- intros fuel Hf. rewrite E. unfold mark_dirty_many; cbn [ddepth]. rewrite Dd.
           rewrite (Hn fuel Hf). reflexivity.
        -- apply (acc_mark init st pre Rs bs); auto.
           intros x. rewrite (ac_marked _ _ _ _ _ A), P. cbn [In]. tauto.
Qed.

Lemma drun_accounts : forall xs Rs, Forall2 (fun x R => tracks (fst x) R) xs Rs ->
  forall init st pre Rs0 bs, accounts init st pre Rs0 bs -> incl Rs Rs0 ->
  (forall x s, In x xs -> In s (pre ++ sources_of xs) -> g_live (fst x) s = true) ->
  exists n st' bs', (forall fuel, n <= fuel -> drun fuel xs st = Some st')
    /\ accounts init st' (pre ++ sources_of xs) Rs0 bs'
    /\ ddepth st' = open_after xs (ddepth st).
Proof.
  intros xs Rs F; induction F as [|[g o] R xs Rs T F IH]; intros init st pre Rs0 bs A I L.
  - exists 0, st, bs. cbn. rewrite app_nil_r. auto.
  - cbn [fst snd] in T.
    destruct (dstep_accounts g o R T init st pre Rs0 bs A) as (n & st1 & bs1 & E1 & A1 & D1).
    { apply I; left; reflexivity. }
    { intros s Hs; apply (L (g, o)); [left; reflexivity|]; apply in_or_app; auto. }
    assert (Es : sources_of ((g, o) :: xs) = sources_of [(g, o)] ++ sources_of xs).
    { unfold sources_of; cbn [flat_map]; rewrite app_nil_r; reflexivity. }
    rewrite Es, app_assoc.
    destruct (IH init st1 (pre ++ sources_of [(g, o)]) Rs0 bs1 A1) as (m & st2 & bs2 & E2 & A2 & D2).
    { intros z Hz; apply I; right; exact Hz. }
    { intros x s Hx Hs; apply L; [right; exact Hx|]. rewrite Es, app_assoc; exact Hs. }
    exists (n + m), st2, bs2. split; [|split; [exact A2|]].
    + intros fuel Hf. cbn [drun]. rewrite (E1 fuel) by lia. apply E2; lia.
    + rewrite D2, D1. reflexivity.
Qed.

Theorem drun_exact : forall xs Rs R st,
  Forall2 (fun x R => tracks (fst x) R) xs Rs ->
  own_reads_only (R :: Rs) (sources_of xs) ->
  (forall x s, In x xs -> In s (sources_of xs) -> g_live (fst x) s = true) ->
  ddepth st = 0 -> dpending st = [] -> open_after xs 0 = 0 ->
  exists n st', (forall fuel, n <= fuel -> drun fuel xs st = Some st') /\ ddepth st' = 0 /\ dpending st' = [] /\
    forall v, In v (dirty st') <-> In v (dirty st) \/ reach R (sources_of xs) v.
Proof.
  intros xs Rs R st F O L Dz Pz Oz.
  destruct (drun_accounts xs Rs F st st [] Rs []) as (n & st' & bs & E & A & D).
  - constructor; [| |intros b []|intros _; exact Pz].
    + intros v; split; [auto|]. intros [H|(b & [] & _)]; exact H.
    + intros x; rewrite Pz; split; [intros []|]. intros [[]|(b & [] & _)].
  - apply incl_refl.
  - exact L.
  - rewrite Dz, Oz in D. cbn [app] in A. exists n, st'. split; [exact E|]. split; [exact D|].
    pose proof (ac_depth _ _ _ _ _ A D) as P. split; [exact P|].
    intros v. rewrite (ac_dirty _ _ _ _ _ A).
    rewrite (batches_equal bs R (sources_of xs)); [reflexivity| |].
    + intros x. rewrite (ac_marked _ _ _ _ _ A), P. cbn [In]. tauto.
    + intros b f w Hb Hf. apply O; [right; apply (ac_rel _ _ _ _ _ A), Hb|left; reflexivity|exact Hf].
Qed.

Lemma marks_sources : forall xs, sources_of (marks_of xs) = sources_of xs.
Proof.
  induction xs as [|[g o] xs IH]; [reflexivity|].
  unfold sources_of, marks_of in *; cbn [filter snd]. destruct o; cbn [flat_map snd app]; rewrite ?IH; auto.
Qed.
Lemma marks_open : forall xs n, open_after (marks_of xs) n = n.
Proof.
  induction xs as [|[g o] xs IH]; intros n; [reflexivity|].
  unfold open_after, marks_of in *; cbn [filter snd]. destruct o; cbn [fold_left snd]; apply IH.
Qed.
Lemma marks_tracks : forall xs Rs, Forall2 (fun x R => tracks (fst x) R) xs Rs ->
  exists Rs', Forall2 (fun x R => tracks (fst x) R) (marks_of xs) Rs' /\ incl Rs' Rs.
Proof.
  intros xs Rs F; induction F as [|[g o] R xs Rs T F (Rs' & F' & I')].
  - exists []; split; [constructor|apply incl_refl].
  - unfold marks_of; cbn [filter snd]. destruct o as [s| |].
    + exists (R :: Rs'); split; [constructor; assumption|]. intros x [<-|Hx]; cbn; auto.
    + exists Rs'; split; [exact F'|]. intros x Hx; right; apply I', Hx.
    + exists Rs'; split; [exact F'|]. intros x Hx; right; apply I', Hx.
Qed.

(** Deferring is not observable. *)
Theorem deferred_equal : forall xs Rs R st,
  Forall2 (fun x R => tracks (fst x) R) xs Rs ->
  own_reads_only (R :: Rs) (sources_of xs) ->
  (forall x s, In x xs -> In s (sources_of xs) -> g_live (fst x) s = true) ->
  ddepth st = 0 -> dpending st = [] -> open_after xs 0 = 0 ->
  exists n st1 st2, forall fuel, n <= fuel ->
    drun fuel xs st = Some st1 /\ drun fuel (marks_of xs) st = Some st2 /\
    forall v, In v (dirty st1) <-> In v (dirty st2).
Proof.
  intros xs Rs R st F O L Dz Pz Oz.
  destruct (drun_exact xs Rs R st F O L Dz Pz Oz) as (n1 & st1 & E1 & _ & _ & H1).
  destruct (marks_tracks xs Rs F) as (Rs' & F' & I').
  destruct (drun_exact (marks_of xs) Rs' R st F') as (n2 & st2 & E2 & _ & _ & H2); auto.
  - rewrite marks_sources. intros Ra Rb f v Ha Hb. apply O.
    + destruct Ha as [<-|Ha]; [left; reflexivity|right; apply I', Ha].
    + destruct Hb as [<-|Hb]; [left; reflexivity|right; apply I', Hb].
  - rewrite marks_sources. intros x s Hx. apply L. unfold marks_of in Hx; apply filter_In in Hx; apply Hx.
  - apply marks_open.
  - exists (n1 + n2), st1, st2. intros fuel Hf. split; [apply E1; lia|]. split; [apply E2; lia|].
    intros v. rewrite H1, H2, marks_sources. reflexivity.
Qed.
