(** Whole schedules. *)
From Coq Require Import Permutation Sorted.
From Verif Require Import Base GraphSpec SchedSpec TarjanModel ListSort LiveGraphProofs SchedModel SchedProofs SchedProofs2 SchedProofs3 SchedProofs4.

Lemma cnt_invert : forall (edges : list (nat * nat)) u v,
  cnt (map fst (filter (fun e => snd e =? u) edges)) v = cnt (map snd (filter (fun e => fst e =? v) edges)) u.
Proof.
  intros edges u v. induction edges as [|[a b] es IH]; auto. cbn [filter fst snd].
  destruct (Nat.eqb_spec b u), (Nat.eqb_spec a v); subst; cbn [map fst snd].
  - rewrite !count_occ_cons_eq by auto. now f_equal.
  - now rewrite count_occ_cons_neq by auto.
  - now rewrite (count_occ_cons_neq _ (map snd _)) by auto.
  - auto.
Qed.
Lemma filter_all : forall A (p : A -> bool) l, (forall x, In x l -> p x = true) -> filter p l = l.
Proof. intros A p l H. induction l as [|a l IH]; auto. cbn. rewrite H by now left. f_equal. apply IH. intros; apply H; now right. Qed.
Lemma filter_none : forall A (p : A -> bool) l, filter p l = [] -> forall x, In x l -> p x = false.
Proof.
  intros A p l H x Hx. destruct (p x) eqn:E; auto. assert (In x (filter p l)) by (apply filter_In; auto). rewrite H in H0. destruct H0.
Qed.

Section Main.
Variables deps vdeps dependents : nat -> list nat.
Variable ho : list nat -> list nat.
Hypothesis Ho : forall l, Permutation (ho l) l.
Variable vertices : list nat.
Notation E := (needs (fun v => deps v ++ vdeps v) vertices).
Hypothesis noself : forall v, In v vertices -> In v (vdeps v) -> In v (deps v).
Variable sccs : list (list nat).
Hypothesis HC : components E (fun x => In x vertices) sccs.
Let cycs := filter (is_cycle deps) sccs.
Let acyc := filter (fun C => negb (is_cycle deps C)) sccs.
Let singles := concat acyc.
Notation N := (length cycs + length singles).

Lemma all_in : forall x, In x (concat cycs ++ singles) <-> In x vertices.
Proof.
  intros x. unfold cycs, singles, acyc. rewrite in_app_iff.
  rewrite (in_cycles deps vdeps vertices noself sccs HC), (in_acyclic deps vdeps vertices noself sccs HC).
  split; [tauto|]. intros Hx. pose proof HC as (H1 & _). apply H1, in_concat in Hx. destruct Hx as (C & IC & Ix).
  assert (Px : In x vertices) by (apply HC, in_concat; eauto).
  rewrite <- (is_cycle_spec deps vdeps vertices noself sccs HC C x IC Ix). destruct (is_cycle deps C); auto.
Qed.
Lemma all_nd : NoDup (concat cycs ++ singles).
Proof.
  pose proof HC as (_ & H2 & _). apply NoDup_app_iff. split; [now apply NoDup_concat_filter|]. split; [now apply NoDup_concat_filter|].
  intros x Hx Hy. unfold cycs, singles, acyc in *.
  apply (in_cycles deps vdeps vertices noself sccs HC) in Hx. apply (in_acyclic deps vdeps vertices noself sccs HC) in Hy. tauto.
Qed.

Lemma cidx_same : forall C x y, In C sccs -> In x C -> In y C -> cidx sccs x = cidx sccs y.
Proof.
  intros C x y IC Ix Iy. pose proof HC as (_ & H2 & _). apply in_split in IC. destruct IC as (p & q & Es).
  rewrite Es in *. now rewrite !cidx_at.
Qed.
Lemma nmem_cycle : forall n, n < length cycs -> nmem cycs singles n = nth n cycs [] /\ In (nth n cycs []) sccs /\ In (nth n cycs []) cycs.
Proof.
  intros n Hn. unfold nmem. replace (n <? length cycs) with true by (symmetry; apply Nat.ltb_lt; lia).
  split; auto. assert (In (nth n cycs []) cycs) by now apply nth_In. split; auto. unfold cycs in H. now apply filter_In in H.
Qed.
Lemma nmem_single : forall n, length cycs <= n -> nmem cycs singles n = [nth (n - length cycs) singles 0].
Proof. intros n Hn. unfold nmem. replace (n <? length cycs) with false; auto. symmetry. apply Nat.ltb_ge. lia. Qed.

Lemma rank_rep : forall n v, In v (nmem cycs singles n) -> cidx sccs (hd 0 (nmem cycs singles n)) = cidx sccs v.
Proof.
  intros n v Hv. destruct (Nat.lt_ge_cases n (length cycs)) as [H|H].
  - destruct (nmem_cycle n H) as (Em & IC & _). rewrite Em in *. apply (cidx_same (nth n cycs [])); auto.
    destruct (nth n cycs []); [destruct Hv|now left].
  - rewrite nmem_single in * by auto. destruct Hv as [<-|[]]. reflexivity.
Qed.
Lemma single_acyclic : forall n x, length cycs <= n -> n < N -> In x (nmem cycs singles n) -> In x vertices /\ ~ on_cycle E x.
Proof.
  intros n x H Hn Hx. rewrite nmem_single in Hx by auto. destruct Hx as [<-|[]].
  apply (in_acyclic deps vdeps vertices noself sccs HC). apply nth_In. unfold singles, acyc in *. lia.
Qed.
Lemma same_node : forall n m v d, n < N -> m < N -> In v (nmem cycs singles n) -> In d (nmem cycs singles m) -> E v d -> strong E v d ->
  n = m /\ n < length cycs.
Proof.
  intros n m v d Hn Hm Hv Hd e St. destruct (Nat.lt_ge_cases n (length cycs)) as [H|H].
  - split; auto. destruct (nmem_cycle n H) as (Em & _ & IC). rewrite Em in Hv.
    apply (nmem_unique cycs singles all_nd n m d); auto. rewrite Em.
    apply (cycle_class deps vdeps vertices noself sccs HC _ v d IC Hv). exact St.
  - exfalso. destruct (single_acyclic n v H Hn Hv) as [_ Nc]. apply Nc. exists d. split; auto. apply St.
Qed.

Let edges := cond_edges deps ho cycs singles vdeps.
Let D x := map snd (filter (fun e => fst e =? x) edges).

Lemma edges_in : forall n m, In (n, m) edges <->
  exists v d, n < N /\ m < N /\ In v (nmem cycs singles n) /\ In d (nmem cycs singles m) /\ In d (deps v ++ vdeps v) /\ m <> n.
Proof.
  intros n m. unfold edges, cond_edges. rewrite in_flat_map. split.
  - intros (v & _ & H). destruct (node_of cycs singles v) as [n'|] eqn:En; [|destruct H]. apply in_flat_map in H.
    destruct H as (d & Hd & H). destruct (node_of cycs singles d) as [m'|] eqn:Em; [|destruct H].
    destruct (Nat.eqb_spec m' n'); [destruct H|]. destruct H as [[= -> ->]|[]].
    apply node_of_spec in En, Em; try apply all_nd. exists v, d. tauto.
  - intros (v & d & Hn & Hm & Iv & Id & Hd & Ne). exists v. split.
    + eapply Permutation_in; [apply Permutation_sym, Ho|]. apply nmem_all. eauto.
    + rewrite (proj2 (node_of_spec cycs singles all_nd v n)) by auto. apply in_flat_map. exists d. split; auto.
      rewrite (proj2 (node_of_spec cycs singles all_nd d m)) by auto. apply Nat.eqb_neq in Ne. rewrite Ne. now left.
Qed.
Lemma D_in : forall n m, In m (D n) <-> In (n, m) edges.
Proof.
  intros n m. unfold D. rewrite in_map_iff. split.
  - intros ([a b] & Eb & H). apply filter_In in H. cbn in *. destruct H as [H E']. apply Nat.eqb_eq in E'. now subst.
  - intros H. exists (n, m). split; auto. apply filter_In. split; auto. cbn. apply Nat.eqb_refl.
Qed.

Lemma cond_ok : exists us ls, build_condensation_units deps ho cycs acyc vdeps = Ok (us, ls) /\
  good_schedule E vertices (Schedule us cycs ls).
Proof.
  unfold build_condensation_units. change (concat acyc) with singles. cbv zeta. fold edges.
  destruct (kahn_top (seq 0 N) (seq_NoDup N 0) D) with (R := fun x => map fst (filter (fun e => snd e =? x) edges))
    (rank := fun n => cidx sccs (hd 0 (nmem cycs singles n))) (known := fun x => x <? N) (sat := false)
    (cur := filter (fun x => length (filter (fun e => fst e =? x) edges) =? 0) (seq 0 N))
    (deg := fun x => length (filter (fun e => fst e =? x) edges)) as (ws & K & P & A & _).
  - intros v u _ H. apply D_in, edges_in in H. destruct H as (_ & _ & _ & H & _). apply in_seq. lia.
  - intros u v _ _. apply cnt_invert.
  - intros v u _ H. apply D_in, edges_in in H. destruct H as (x & y & Hn & Hm & Ix & Iy & Hd & Ne).
    rewrite (rank_rep v x Ix), (rank_rep u y Iy).
    assert (Px : In x vertices) by (apply all_in; apply nmem_all; eauto).
    assert (Py : In y vertices) by (apply all_in; apply nmem_all; eauto).
    assert (e : E x y) by (split; auto).
    destruct (comp_rank _ _ _ HC x y Px e) as [H|H]; auto. exfalso. apply Ne. symmetry. now apply (same_node v u x y).
  - intros v. rewrite in_seq, Nat.ltb_lt. lia.
  - apply NoDup_filter, seq_NoDup.
  - intros v. rewrite filter_In, Nat.eqb_eq. unfold D. now rewrite map_length.
  - intros v _. unfold D. now rewrite map_length.
  - rewrite seq_length in K. rewrite K. cbn [rbind]. rewrite (Permutation_length P), seq_length, Nat.eqb_refl.
    destruct (all_units_rel cycs singles ws 0 [] [] eq_refl) as (uss & Eu & F).
    destruct (all_units cycs singles 0 ws) as [us ls]. exists us, ls. split; auto. cbn [fst snd app] in Eu, F. rewrite app_nil_r in F. subst us.
    set (s := Schedule (concat uss) cycs ls).
    assert (Um : forall u, unit_members s u = um cycs ls u) by (intros []; reflexivity).
    assert (Wn : forall n, In n (concat ws) -> n < N).
    { intros n Hn. eapply Permutation_in in Hn; [|exact P]. apply in_seq in Hn. lia. }
    assert (PF : forall ws uss, Forall2 (wave_rel cycs singles ls) ws uss ->
       Permutation (concat (map (um cycs ls) (concat uss))) (concat (map (nmem cycs singles) (concat ws)))).
    { clear. intros ws uss F. induction F as [|w us ws uss [R _] F IH]; auto. cbn [concat]. rewrite !map_app, !concat_app. now apply Permutation_app. }
    assert (Each : forall u, In u (concat uss) -> (exists n, u = UCycle n /\ n < length cycs) \/
       (exists k, u = ULayer k /\ k < length ls /\ forall x, In x (nth k ls []) -> In x vertices /\ ~ on_cycle E x)).
    { intros u Hu. apply in_concat in Hu. destruct Hu as (U & IU & Iu). apply in_split in IU. destruct IU as (up & uq & ->).
      apply Forall2_app_inv_r in F. destruct F as (wp & wr & F1 & F2 & ->). inversion F2 as [|w ? wq ? RU F3]; subst.
      destruct RU as [_ RU]. destruct (RU u Iu) as [(n & -> & _ & Hn)|(k & -> & Hk & Hx)]; [left; eauto|right].
      exists k. split; auto. split; auto. intros x Ix. destruct (Hx x Ix) as (n & In_ & Ln & ->).
      apply (single_acyclic n); auto.
      - apply Wn. rewrite concat_app. apply in_or_app. right. cbn. apply in_or_app. now left.
      - rewrite nmem_single by auto. now left. }
    assert (PW : Permutation (walk s) (concat (map (nmem cycs singles) (seq 0 N)))).
    { unfold walk. cbn [units s]. rewrite (map_ext _ _ Um). rewrite (PF _ _ F). now apply concat_map_perm. }
    assert (PA : Permutation (concat (map (nmem cycs singles) (seq 0 N))) (concat cycs ++ singles)).
    { rewrite seq_app, map_app, concat_app. apply Permutation_app.
      - rewrite (map_ext_in _ (fun i => nth i cycs [])). { now rewrite nth_seq_id. }
        intros n Hn. apply in_seq in Hn. apply nmem_cycle. lia.
      - cbn [Nat.add]. rewrite (map_ext_in _ (fun i => [nth (i - length cycs) singles 0])).
        + rewrite <- (Nat.add_0_r (length cycs)) at 1. 
          assert (G : forall l k o, map (fun i => [nth (i - k) l 0]) (seq (k + o) (length l - o)) = map (fun x => [x]) (skipn o l)).
          { clear. intros l k. induction l as [|a l IH]; intros o.
            - cbn. now rewrite skipn_nil.
            - destruct o as [|o].
              + cbn [length Nat.sub skipn map seq]. rewrite Nat.add_0_r, Nat.sub_diag. cbn [nth]. f_equal.
                specialize (IH 0). rewrite Nat.sub_0_r, Nat.add_0_r in IH. cbn [skipn] in IH. rewrite <- IH.
                rewrite <- seq_shift, map_map. apply map_ext_in. intros i Hi. apply in_seq in Hi.
                replace (S i - k) with (S (i - k)) by lia. reflexivity.
              + cbn [length Nat.sub skipn]. rewrite <- (IH o). replace (k + S o) with (S (k + o)) by lia. rewrite <- seq_shift, map_map.
                apply map_ext_in. intros i Hi. apply in_seq in Hi. replace (S i - k) with (S (i - k)) by lia. reflexivity. }
          specialize (G singles (length cycs) 0). rewrite Nat.sub_0_r in G. rewrite Nat.add_0_r in *. rewrite G. cbn [skipn].
          clear. induction singles; cbn; auto.
        + intros n Hn. apply in_seq in Hn. apply nmem_single. lia. }
    split; [|split; [|split; [|split; [|split; [|split]]]]].
    + intros i Hi. destruct (Each _ Hi) as [(n & [=] & _)|(k & [= ->] & Hk & _)]. exact Hk.
    + intros i Hi. destruct (Each _ Hi) as [(n & [= ->] & Hn)|(k & [=] & _)]. exact Hn.
    + eapply Permutation_NoDup; [apply Permutation_sym; rewrite PW; exact PA|apply all_nd].
    + intros x. rewrite <- all_in. split; intros H; [eapply Permutation_in; [rewrite <- PA; exact PW|exact H]|eapply Permutation_in; [apply Permutation_sym; rewrite PW; exact PA|exact H]].
    + intros i x Hi Hx. destruct (Each _ Hi) as [(n & [=] & _)|(k & [= <-] & _ & H)]. now apply H.
    + intros i x y Hi Hx. destruct (Each _ Hi) as [(n & [= <-] & Hn)|(k & [=] & _)].
      apply (cycle_class deps vdeps vertices noself sccs HC (nth i cycs [])); auto. now apply nmem_cycle.
    + intros pre u post x y Hs Hx e. cbn [units s] in Hs. apply concat_split in Hs.
      destruct Hs as (up & U & uq & cp & cq & -> & -> & -> & _).
      apply Forall2_app_inv_r in F. destruct F as (wp & wr & F1 & F2 & ->). inversion F2 as [|w ? wq ? RU F3]; subst.
      rewrite Um in Hx. assert (Iu : In u (cp ++ u :: cq)) by (apply in_or_app; right; now left).
      assert (Inw : forall n, In n w -> n < N). { intros n Hn. apply Wn. rewrite concat_app. apply in_or_app. right. cbn. apply in_or_app. now left. }
      assert (exists n, In n w /\ In x (nmem cycs singles n)) as (n & In_ & Ix).
      { apply concat_map_in. eapply Permutation_in; [apply RU|]. apply concat_map_in. exists u. auto. }
      assert (Py : In y (concat cycs ++ singles)). { apply all_in. apply e. }
      apply nmem_all in Py. destruct Py as (m & Hm & Iy).
      destruct (Nat.eq_dec m n) as [->|Ne].
      * right. assert (St : strong E x y /\ n < length cycs).
        { destruct (Nat.lt_ge_cases n (length cycs)) as [L|L].
          - split; auto. destruct (nmem_cycle n L) as (Em & _ & IC). rewrite Em in Ix, Iy.
            apply (cycle_class deps vdeps vertices noself sccs HC _ x y IC Ix). exact Iy.
          - exfalso. destruct (single_acyclic n x L Hm Ix) as [_ Nc]. apply Nc. rewrite nmem_single in * by auto.
            destruct Ix as [<-|[]], Iy as [<-|[]]. exists (nth (n - length cycs) singles 0). split; auto. constructor. }
        destruct St as [St L]. destruct RU as [_ RU]. destruct (RU u Iu) as [(k & -> & Ik & Lk)|(k & -> & Hk & Hk')].
        -- assert (k = n). { apply (nmem_unique cycs singles all_nd k n x); auto. rewrite (proj1 (nmem_cycle k Lk)). exact Hx. }
           subst k. split; [|split; eauto]. cbn. now rewrite <- (proj1 (nmem_cycle n L)).
        -- exfalso. destruct (Hk' x Hx) as (j & Ij & Lj & ->). assert (j = n); [|lia].
           apply (nmem_unique cycs singles all_nd j n (nth (j - length cycs) singles 0)); auto. rewrite nmem_single by auto. now left.
      * left. assert (Im : In m (concat wp)).
        { eapply A; [reflexivity|exact In_|]. apply D_in, edges_in. exists x, y. repeat split; auto. apply e. }
        rewrite map_app, concat_app. apply in_or_app. left. rewrite (map_ext _ _ Um).
        eapply Permutation_in; [apply Permutation_sym, PF; exact F1|]. apply concat_map_in. eauto.
Qed.

(** No cyclic component at all. *)
Hypothesis Cnil : cycs = [].
Lemma acyc_all : acyc = sccs.
Proof. unfold acyc. apply filter_all. intros C IC. now rewrite (filter_none _ _ _ Cnil C IC). Qed.
Lemma acyclic_all : forall x, In x vertices -> ~ on_cycle E x.
Proof.
  intros x Hx. assert (H : In x singles). { apply all_in in Hx. rewrite Cnil in Hx. exact Hx. }
  now apply (in_acyclic deps vdeps vertices noself sccs HC) in H.
Qed.
Lemma singles_in : forall x, In x (concat acyc) <-> In x vertices.
Proof. intros x. rewrite <- all_in, Cnil. reflexivity. Qed.
Lemma singles_nd : NoDup (concat acyc).
Proof. pose proof all_nd as H. rewrite Cnil in H. exact H. Qed.

Lemma fast_virtual_ok : exists ls, build_layers_with_virtual deps ho acyc vdeps = Ok ls /\ good_schedule E vertices (from_parts ls []).
Proof.
  destruct (build_layers_virtual_ok deps ho vdeps acyc (cidx sccs) Ho singles_nd) as (ws & B & P & A).
  { intros v u Hv Hu Hd. apply (acyclic_rank deps vdeps vertices sccs HC); [|apply acyclic_all|]; try apply singles_in; auto.
    repeat split; auto; now apply singles_in. }
  exists (map sort_nat ws). split; auto.
  apply (layers_good E vertices _ _ ws singles_nd singles_in acyclic_all) with (2 := P) (3 := A).
  intros x y Hx (_ & Hy & Hd). apply filter_In. split; auto. apply memb_spec. now apply singles_in.
Qed.
Lemma fast_ok : (forall v, vdeps v = []) -> mirrored deps dependents vertices ->
  exists ls, build_layers deps dependents ho acyc = Ok ls /\ good_schedule E vertices (from_parts ls []).
Proof.
  intros V0 Mi. destruct (build_layers_ok deps dependents ho acyc (cidx sccs) Ho singles_nd) as (ws & B & P & A).
  { intros u v Hu Hv. apply Mi; now apply singles_in. }
  { intros v u Hv Hu Hd. apply (acyclic_rank deps vdeps vertices sccs HC); [|apply acyclic_all|]; try apply singles_in; auto.
    split; [|split]; try now apply singles_in. rewrite V0, app_nil_r. exact Hd. }
  exists (map sort_nat ws). split; auto.
  apply (layers_good E vertices _ _ ws singles_nd singles_in acyclic_all) with (2 := P) (3 := A).
  intros x y Hx (_ & Hy & Hd). rewrite V0, app_nil_r in Hd. apply filter_In. split; auto. apply memb_spec. now apply singles_in.
Qed.
End Main.

Theorem create_schedule_ok : forall deps dependents ho vertices, (forall l, Permutation (ho l) l) ->
  mirrored deps dependents vertices ->
  exists s, create_schedule deps dependents ho vertices = Ok s /\ good_schedule (needs deps vertices) vertices s.
Proof.
  intros deps dependents ho vertices Ho Mi. unfold create_schedule.
  destruct (tarjan_scc_ok deps vertices (fun _ => [])) as (sccs & T & HC). rewrite T. cbn [rbind separate_cycles].
  assert (NE : forall x y, needs (fun v => deps v ++ []) vertices x y <-> needs deps vertices x y).
  { intros. unfold needs. now rewrite app_nil_r. }
  assert (GE : forall s, good_schedule (needs (fun v => deps v ++ []) vertices) vertices s -> good_schedule (needs deps vertices) vertices s).
  { intros s (G1 & G2 & G3 & G4 & G5 & G6 & G7).
    assert (OC : forall x, on_cycle (needs (fun v => deps v ++ []) vertices) x <-> on_cycle (needs deps vertices) x).
    { intros x. unfold on_cycle. split; intros (y & e & R); exists y; split; try (now apply NE); now apply (reach_ext _ _ NE). }
    assert (OS : forall x y, strong (needs (fun v => deps v ++ []) vertices) x y <-> strong (needs deps vertices) x y).
    { intros x y. unfold strong. now rewrite !(reach_ext _ _ NE). }
    split; auto. split; auto. split; auto. split; auto. split; [|split].
    - intros. rewrite <- OC. eauto.
    - intros. rewrite <- OC, <- OS. eauto.
    - intros pre u post x y Hs Hx e. apply NE in e. destruct (G7 pre u post x y Hs Hx e) as [|(A & B & C)]; auto. right. rewrite <- OS. auto. }
  assert (ns : forall v, In v vertices -> In v ((fun _ => []) v) -> In v (deps v)) by (intros v _ []).
  destruct (filter (is_cycle deps) sccs) as [|c cs] eqn:Ec.
  - destruct (fast_ok deps (fun _ => []) dependents ho Ho vertices ns sccs HC Ec (fun _ => eq_refl) Mi) as (ls & B & G).
    rewrite B. cbn [rbind]. eexists; split; [reflexivity|auto].
  - destruct (cond_ok deps (fun _ => []) (fun _ => []) ho Ho vertices ns sccs HC) as (us & ls & B & G).
    rewrite Ec in B, G. rewrite B. cbn [rbind fst snd]. eexists; split; [reflexivity|auto].
Qed.

Theorem create_schedule_virtual_ok : forall deps ho vertices vdeps, (forall l, Permutation (ho l) l) ->
  (forall v, In v vertices -> In v (vdeps v) -> In v (deps v)) ->
  exists s, create_schedule_with_virtual deps ho vertices vdeps = Ok s /\
    good_schedule (needs (fun v => deps v ++ vdeps v) vertices) vertices s.
Proof.
  intros deps ho vertices vdeps Ho ns. unfold create_schedule_with_virtual.
  destruct (tarjan_scc_ok deps vertices vdeps) as (sccs & T & HC). rewrite T. cbn [rbind separate_cycles].
  destruct (filter (is_cycle deps) sccs) as [|c cs] eqn:Ec.
  - destruct (fast_virtual_ok deps vdeps (fun _ => []) ho Ho vertices ns sccs HC Ec) as (ls & B & G).
    rewrite B. cbn [rbind]. eexists; split; [reflexivity|auto].
  - destruct (cond_ok deps vdeps (fun _ => []) ho Ho vertices ns sccs HC) as (us & ls & B & G).
    rewrite Ec in B, G. rewrite B. cbn [rbind fst snd]. eexists; split; [reflexivity|auto].
Qed.
