(** The code simulates the textbook history. *)
From Verif Require Import Base ListSort UndoModel UndoSpec UndoProofs UndoProofs2.
From Coq Require Import ZifyN ZifyNat ZifyBool.

Lemma last_gid_app : forall a b, last_gid (a ++ b) = match last_gid b with Some x => Some x | None => last_gid a end.
Proof. induction a as [|[e g] a IH]; intros b; cbn; [now destruct (last_gid b)|]. rewrite IH. destruct (last_gid b); auto. Qed.
Lemma last_gid_all : forall g b, b <> [] -> (forall p, In p b -> snd p = Some g) -> last_gid b = Some g.
Proof.
  intros g. induction b as [|[e o] b IH]; intros Nn A; [congruence|]. cbn. destruct b as [|q b].
  - cbn. apply (A (e, o)). now left.
  - rewrite IH; [auto|discriminate|]. intros p I. apply A. now right.
Qed.
Lemma last_gid_none : forall b, (forall p, In p b -> snd p = None) -> last_gid b = None.
Proof. induction b as [|[e o] b IH]; intros A; cbn; auto. rewrite IH; [apply (A (e, o)); now left|]. intros p I. apply A. now right. Qed.
Lemma indices_app : forall g a b i, indices_of g i (a ++ b) = indices_of g i a ++ indices_of g (i + length a) b.
Proof.
  intros g. induction a as [|[e o] a IH]; intros b i; cbn; [now rewrite Nat.add_0_r|]. rewrite IH, <- Nat.add_succ_comm. destruct (same_gid g o); reflexivity.
Qed.
Lemma indices_none : forall g a i, (forall p, In p a -> snd p <> Some g) -> indices_of g i a = [].
Proof.
  intros g. induction a as [|[e o] a IH]; intros i A; cbn; auto. destruct (same_gid g o) eqn:E.
  - exfalso. apply (A (e, o)); [now left|]. destruct o; [|discriminate]. cbn in *. apply N.eqb_eq in E. congruence.
  - apply IH. intros p I. apply A. now right.
Qed.
Lemma indices_all : forall g a i, (forall p, In p a -> snd p = Some g) -> indices_of g i a = seq i (length a).
Proof.
  intros g. induction a as [|[e o] a IH]; intros i A; cbn; auto. assert (E : o = Some g) by (apply (A (e, o)); now left).
  subst o. cbn. rewrite N.eqb_refl. f_equal. apply IH. intros p I. apply A. now right.
Qed.

Definition grouped (l0 b : list (event * option N)) : Prop :=
  b <> [] /\ exists g, (forall p, In p b -> snd p = Some g) /\ (forall p, In p l0 -> snd p <> Some g).
Definition ungrouped (l0 b : list (event * option N)) : Prop :=
  length b = 1 /\ forall p, In p (l0 ++ b) -> snd p = None.
Lemma indices_grouped : forall l0 b, grouped l0 b -> last_group_indices (l0 ++ b) = seq (length l0) (length b).
Proof.
  intros l0 b (Nn & g & A & B). unfold last_group_indices. rewrite last_gid_app, (last_gid_all g b Nn A), indices_app, (indices_none g l0), indices_all; auto.
  destruct b; [congruence|]. reflexivity.
Qed.
Lemma indices_ungrouped : forall l0 b, ungrouped l0 b -> last_group_indices (l0 ++ b) = seq (length l0) (length b).
Proof.
  intros l0 b (L & A). unfold last_group_indices. rewrite last_gid_none; auto. unfold last_single. rewrite app_length, L, Nat.add_1_r. reflexivity.
Qed.

Lemma max_seq : forall n a, list_max (seq a (S n)) = a + n.
Proof. induction n as [|n IH]; intros a; [cbn; lia|]. cbn [seq list_max fold_right]. specialize (IH (S a)). unfold list_max in IH. cbn [seq fold_right] in *. lia. Qed.
Lemma min_seq : forall n a i, a <= i -> fold_right Nat.min i (seq a n) <= i /\ (0 < n -> fold_right Nat.min i (seq a n) = a).
Proof.
  induction n as [|n IH]; intros a i L; cbn [seq fold_right]; [lia|]. destruct n as [|n].
  - cbn. lia.
  - assert (a + 1 <= fold_right Nat.min i (seq (S a) (S n)) \/ i <= a).
    { destruct (Nat.le_gt_cases (S a) i) as [Q|Q]; [left|lia]. destruct (IH (S a) i Q) as [_ B]. rewrite B; lia. }
    destruct (Nat.le_gt_cases (S a) i) as [Q|Q].
    + destruct (IH (S a) i Q) as [_ B]. rewrite B by lia. lia.
    + assert (a = i) by lia. subst. assert (Z : forall m b j, j <= b -> fold_right Nat.min j (seq b m) = j).
      { induction m; intros; cbn; auto. rewrite IHm; lia. }
      rewrite Z by lia. lia.
Qed.
Lemma batch_seq : forall b l0, batch_of (l0 ++ b) (seq (length l0) (length b)) = map fst b.
Proof.
  induction b as [|p b IH]; intros l0; auto. cbn [length seq]. unfold batch_of in *. cbn [map]. f_equal.
  - now rewrite app_nth2, Nat.sub_diag by lia.
  - specialize (IH (l0 ++ [p])). rewrite app_length, <- app_assoc in IH. cbn in IH. rewrite Nat.add_1_r in IH. exact IH.
Qed.

Lemma undo_tail : forall k s l0 b, events (log s) = l0 ++ b -> b <> [] -> last_group_indices (l0 ++ b) = seq (length l0) (length b) ->
  undo k s = Some {| gr := fold_right (inv_graph k) (gr s) (map fst b);
                staged := fold_right inv_staged (staged s) (map fst b);
                delta := fold_right inv_delta (delta s) (map fst b);
                comp := comp s; base := base s;
                log := {| events := l0; depth := depth (log s); gstack := gstack (log s); nextg := nextg (log s); cap := cap (log s) |};
                undone := map fst b :: undone s |}.
Proof.
  intros k s l0 b E Nn I. unfold undo. rewrite E, I. destruct b as [|p b]; [congruence|].
  assert (M : fold_right Nat.min (length l0) (seq (length l0) (length (p :: b))) = length l0) by (apply min_seq; cbn; lia).
  assert (X : list_max (seq (length l0) (length (p :: b))) = length l0 + length b) by (cbn [length]; apply max_seq).
  assert (Y : batch_of (l0 ++ p :: b) (seq (length l0) (length (p :: b))) = map fst (p :: b)) by apply batch_seq.
  destruct (seq (length l0) (length (p :: b))) as [|i0 is] eqn:Sq; [discriminate|]. assert (i0 = length l0) by (cbn in Sq; congruence). subst i0.
  rewrite X, Y, M, app_length. cbn [length]. replace (Nat.eqb _ _) with true by (symmetry; apply Nat.eqb_eq; lia).
  unfold truncate. rewrite E, firstn_app, Nat.sub_diag, firstn_all. cbn [firstn]. rewrite app_nil_r. reflexivity.
Qed.

(** *** The simulation relation. *)
Fixpoint past_ok (k : cfg) (l : list (event * option N)) (ps : list (bool * contents)) (K : fine) : Prop :=
  match ps with
  | [] => l = []
  | (kind, C) :: ps' => exists l0 b K0, l = l0 ++ b /\ (if kind then grouped l0 b else ungrouped l0 b) /\
      expl k (map fst b) K0 K /\ eqf (showK K0) C /\ quietK k K0 /\ past_ok k l0 ps' K0
  end.
Fixpoint future_ok (k : cfg) (us : list (list event)) (fs : list contents) (K : fine) : Prop :=
  match us, fs with
  | [], [] => True
  | b :: us', C :: fs' => exists K1, b <> [] /\ expl k b K K1 /\ eqf (showK K1) C /\ quietK k K1 /\ future_ok k us' fs' K1
  | _, _ => False
  end.
Definition R (k : cfg) (h : book) (s : st) : Prop :=
  sound k s /\ quietK k (fine_of s) /\
  cap (log s) = None /\ depth (log s) = 0 /\ gstack (log s) = [] /\
  (forall p g, In p (events (log s)) -> snd p = Some g -> (g < nextg (log s))%N) /\
  eqf (show s) (now h) /\ past_ok k (events (log s)) (past h) (fine_of s) /\ future_ok k (undone s) (future h) (fine_of s).

Lemma showK_ext : forall K K', eqf K K' -> eqf (showK K) (showK K').
Proof. intros K K' H c. unfold showK. now rewrite H. Qed.
Lemma past_ok_ext : forall k ps l K K', eqf K K' -> past_ok k l ps K -> past_ok k l ps K'.
Proof.
  intros k [|[kind C] ps] l K K' H; cbn; auto. intros (l0 & b & K0 & A & B & D & E). exists l0, b, K0. split; auto. split; auto. split; auto.
  eapply expl_ext; [apply eqf_refl|exact H|exact D].
Qed.
Lemma future_ok_ext : forall k us fs K K', eqf K K' -> future_ok k us fs K -> future_ok k us fs K'.
Proof.
  intros k [|b us] [|C fs] K K' H; cbn; auto. intros (K1 & A0 & A & B). exists K1. split; auto. split; auto. eapply expl_ext; [exact H|apply eqf_refl|exact A].
Qed.

Lemma grouped_last : forall l0 b, b <> [] -> (exists g, (forall p, In p b -> snd p = Some g) /\ (forall p, In p l0 -> snd p <> Some g)) -> grouped l0 b.
Proof. intros. split; auto. Qed.

Lemma past_nonempty : forall k l ps K, past_ok k l ps K -> ps <> [] -> l <> [].
Proof.
  intros k l [|[kind C] ps] K H N; [congruence|]. cbn in H. destruct H as (l0 & b & K0 & -> & G & _). destruct kind; destruct G as [G _].
  - intros Q. apply app_eq_nil in Q. now destruct Q.
  - intros Q. apply app_eq_nil in Q. destruct Q as [_ ->]. discriminate.
Qed.
Lemma past_singles : forall k ps l K, past_ok k l ps K -> (forall p, In p ps -> fst p = false) -> forall p, In p l -> snd p = None.
Proof.
  intros k [|[kind C] ps] l K H A p I; cbn in H; [subst; easy|]. destruct H as (l0 & b & K0 & -> & G & _).
  assert (kind = false) by (apply (A (kind, C)); now left). subst. apply G. exact I.
Qed.

Lemma R_undo : forall k h s, R k h s -> exists s', undo k s = Some s' /\ R k (turn IUndo h) s'.
Proof.
  intros k h s (S & Qt & C & D & G & L & Sh & P & F). destruct h as [ps nw fs]. cbn [past now future] in *. cbn [turn past].
  destruct ps as [|[kind K] ps].
  - cbn in P. exists s. split; [unfold undo; now rewrite P|]. unfold R. cbn [past now future]. repeat (split; [assumption|]). exact F.
  - cbn in P. destruct P as (l0 & b & K0 & E & Gr & X & SK & QK & P).
    assert (Nb : b <> []) by (destruct kind; destruct Gr as [Z _]; auto; intros ->; discriminate).
    assert (I : last_group_indices (l0 ++ b) = seq (length l0) (length b)) by (destruct kind; [apply indices_grouped|apply indices_ungrouped]; auto).
    rewrite (undo_tail k s l0 b E Nb I). eexists. split; [reflexivity|].
    destruct (inv_batch k (map fst b) s K0 S X) as [S' H]. destruct (inv_fold k (map fst b) s) as (F1 & F2 & F3 & F4 & F5 & F6 & F7).
    set (s1 := fold_right (inv_all k) s (map fst b)) in *.
    match goal with |- R _ _ ?x => set (s2 := x) end.
    assert (FE : fine_of s2 = fine_of s1) by (apply fine_fields; cbn; congruence).
    unfold R. cbn [past now future]. split.
    { destruct S' as [W Nn]. split; [cbn; rewrite <- F1; exact W|]. intros c f Q. apply Nn. rewrite F1. exact Q. }
    rewrite FE. split. { intros Eg c. rewrite H. now apply QK. }
    repeat (split; [assumption|]). split.
    { intros p g Ip. cbn in Ip. apply (L p g). rewrite E. apply in_or_app. now left. }
    split. { intros c. rewrite show_fine, FE. rewrite (showK_ext _ _ H c). apply SK. }
    split. { eapply past_ok_ext; [apply eqf_sym; exact H|exact P]. }
    cbn. exists (fine_of s). split. { destruct b; [congruence|discriminate]. } split.
    { eapply expl_ext; [apply eqf_sym; exact H|apply eqf_refl|exact X]. }
    split. { intros c. rewrite <- show_fine. apply Sh. } split; auto.
Qed.

(** Recording a group of events on an idle log. *)
Definition group_log (l : clog) (es : list event) : clog :=
  {| events := events l ++ map (fun e => (e, Some (nextg l))) (EStart :: es ++ [EEnd]); depth := 0; gstack := []; nextg := N.succ (nextg l); cap := None |}.

Lemma begin_idle : forall l, cap l = None -> depth l = 0 -> gstack l = [] ->
  begin_compound l = {| events := events l ++ [(EStart, Some (nextg l))]; depth := 1; gstack := [nextg l]; nextg := N.succ (nextg l); cap := None |}.
Proof. intros l C D G. unfold begin_compound, record, enforce_cap. rewrite D. cbn. rewrite C, G. reflexivity. Qed.
Lemma end_one : forall l g, cap l = None -> depth l = 1 -> gstack l = [g] ->
  end_compound l = {| events := events l ++ [(EEnd, Some g)]; depth := 0; gstack := []; nextg := nextg l; cap := None |}.
Proof. intros l g C D G. unfold end_compound, record, enforce_cap. rewrite D. cbn. rewrite C, G. reflexivity. Qed.
Lemma fold_record : forall es l, cap l = None -> extends l (fold_left (fun l e => record e l) es l) es.
Proof.
  induction es as [|e es IH]; intros l C; [apply extends_nil|]. cbn [fold_left]. pose proof (record_nocap e l C) as X.
  apply (extends_trans _ _ _ [e] es X). apply IH. destruct X as (_ & _ & _ & _ & Q). congruence.
Qed.
Lemma group_redo : forall l es, cap l = None -> depth l = 0 -> gstack l = [] ->
  end_compound (fold_left (fun l e => record e l) es (begin_compound l)) = group_log l es.
Proof.
  intros l es C D G. rewrite begin_idle; auto. set (l1 := {| events := _ |}). assert (C1 : cap l1 = None) by reflexivity.
  destruct (fold_record es l1 C1) as (A & B & E & F & H). cbn in A, B, E, F, H.
  rewrite (end_one _ (nextg l)); auto. unfold group_log. rewrite A, F. cbn [map]. rewrite map_app. cbn. rewrite <- !app_assoc. reflexivity.
Qed.
Lemma group_act : forall l l' es, cap l = None -> depth l = 0 -> gstack l = [] -> extends (begin_compound l) l' es -> end_compound l' = group_log l es.
Proof.
  intros l l' es C D G X. rewrite begin_idle in X by auto. destruct X as (A & B & E & F & H). cbn in A, B, E, F, H.
  rewrite (end_one _ (nextg l)); auto. unfold group_log. rewrite A, F. cbn [map]. rewrite map_app. cbn. rewrite <- !app_assoc. reflexivity.
Qed.

Lemma group_events : forall l es, map fst (map (fun e => (e, Some (nextg l))) (EStart :: es ++ [EEnd])) = EStart :: es ++ [EEnd].
Proof. intros. apply map_fst_tag. Qed.
Lemma group_expl : forall k es K K', expl k es K K' -> expl k (EStart :: es ++ [EEnd]) K K'.
Proof. intros. cbn. split; auto. eapply expl_app; [eassumption|]. cbn. split; auto. apply eqf_refl. Qed.
Lemma group_grouped : forall l es, (forall p g, In p (events l) -> snd p = Some g -> (g < nextg l)%N) ->
  grouped (events l) (map (fun e => (e, Some (nextg l))) (EStart :: es ++ [EEnd])).
Proof.
  intros l es L. split; [discriminate|]. exists (nextg l). split.
  - intros p I. apply in_map_iff in I. destruct I as (e & <- & _). reflexivity.
  - intros p I Q. specialize (L _ _ I Q). lia.
Qed.
Lemma group_lt : forall l es, (forall p g, In p (events l) -> snd p = Some g -> (g < nextg l)%N) ->
  forall p g, In p (events (group_log l es)) -> snd p = Some g -> (g < nextg (group_log l es))%N.
Proof.
  intros l es L p g I Q. unfold group_log in *. cbn [events nextg] in *. apply in_app_or in I. destruct I as [I|I].
  - specialize (L _ _ I Q). lia.
  - apply in_map_iff in I. destruct I as (e & <- & _). cbn in Q. inversion Q. lia.
Qed.

Lemma R_redo : forall k h s, R k h s -> R k (turn IRedo h) (redo k s).
Proof.
  intros k h s HR. pose proof HR as HR'. destruct HR as (S & Qt & C & D & G & L & Sh & P & F). destruct h as [ps nw fs]. cbn [past now future] in *. cbn [turn past future].
  unfold redo. destruct (undone s) as [|b us] eqn:Eu; destruct fs as [|Kf fs]; cbn in F; try (exfalso; exact F).
  - exact HR'.
  - destruct F as (K1 & Nb & X & SK & QK & F).
    destruct (fwd_batch k b s (fine_of s) K1 S (eqf_refl _ _) X) as [S' H]. destruct (fwd_fold k b s) as (F1 & F2 & F3 & F4 & F5 & F6 & F7).
    set (s1 := fold_left (fwd_all k) b s) in *.
    match goal with |- R _ _ ?x => set (s2 := x) end.
    assert (FE : fine_of s2 = fine_of s1) by (apply fine_fields; cbn; congruence).
    assert (LE : log s2 = group_log (log s) b) by (unfold s2; cbn [log]; now apply group_redo).
    unfold R. cbn [past now future]. split.
    { destruct S' as [W Nn]. split; [cbn; rewrite <- F1; exact W|]. intros c f Q. apply Nn. rewrite F1. exact Q. }
    rewrite LE, FE. split. { intros Eg c. rewrite H. now apply QK. }
    split; [reflexivity|]. split; [reflexivity|]. split; [reflexivity|]. split; [now apply group_lt|].
    split. { intros c. rewrite show_fine, FE. rewrite (showK_ext _ _ H c). apply SK. }
    split.
    { cbn [past_ok]. exists (events (log s)), (map (fun e => (e, Some (nextg (log s)))) (EStart :: b ++ [EEnd])), (fine_of s).
      split; [reflexivity|]. split; [now apply group_grouped|]. split.
      { rewrite group_events. apply group_expl. eapply expl_ext; [apply eqf_refl|apply eqf_sym; exact H|exact X]. }
      split. { intros c. rewrite <- show_fine. apply Sh. } split; auto. }
    cbn [undone]. eapply future_ok_ext; [apply eqf_sym; exact H|exact F].
Qed.

Lemma run_app : forall k a b s, run k (a ++ b) s = match run k a s with Some s' => run k b s' | None => None end.
Proof. intros k. induction a as [|o a IH]; intros b s; cbn; auto. destruct (step k o s); auto. Qed.

Lemma fine_log : forall l s, fine_of (set_log l s) = fine_of s. Proof. reflexivity. Qed.
Lemma show_log : forall l s, show (set_log l s) = show s. Proof. reflexivity. Qed.

Lemma R_act : forall k h s es, R k h s -> fair k (Act es) h s -> exists s', run k (ops_of (Act es)) s = Some s' /\ R k (turn (Act es) h) s'.
Proof.
  intros k h s es (S & Qt & C & D & G & L & Sh & P & F) [Fu Fe]. destruct h as [ps nw fs]. cbn [past now future] in *. subst fs.
  set (s1 := set_log (begin_compound (log s)) s).
  assert (C1 : cap (log s1) = None) by (cbn; rewrite begin_idle; auto).
  destruct (edits_ok k es s1) as (s2 & ev & A1 & A2 & A3 & A4 & A5 & A6 & A7); auto.
  { eapply fair_edits_ext; [|exact Fe]. apply eqf_sym. exact Sh. }
  exists (set_log (end_compound (log s2)) s2). split.
  { cbn [ops_of run step]. rewrite run_app. cbn [step]. fold s1. rewrite A1. reflexivity. }
  cbn in A2. rewrite (group_act (log s) (log s2) ev); auto.
  unfold R. cbn [past now future turn]. split; [exact A4|]. rewrite fine_log. split; [exact A7|].
  cbn [log set_log]. split; [reflexivity|]. split; [reflexivity|]. split; [reflexivity|]. split; [now apply group_lt|].
  split. { rewrite show_log. eapply eqf_trans; [exact A6|]. apply writes_ext. exact Sh. }
  split.
  { cbn [past_ok]. exists (events (log s)), (map (fun e => (e, Some (nextg (log s)))) (EStart :: ev ++ [EEnd])), (fine_of s).
    split; [reflexivity|]. split; [now apply group_grouped|]. split. { rewrite group_events. apply group_expl. exact A5. }
    split. { intros c. rewrite <- show_fine. apply Sh. } split; auto. }
  cbn [undone set_log]. rewrite A3. change (undone s1) with (undone s). destruct (undone s); [exact I|]. cbn in F. contradiction.
Qed.

Lemma R_single : forall k h s e, R k h s -> fair k (Single e) h s -> exists s', run k (ops_of (Single e)) s = Some s' /\ R k (turn (Single e) h) s'.
Proof.
  intros k h s e (S & Qt & C & D & G & L & Sh & P & F) (Fu & Fs & Ft & Fe). destruct h as [ps nw fs]. cbn [past now future] in *. subst fs.
  destruct (edit_ok k e s S C) as (ev & A1 & A2 & A3 & A4 & A5 & A6 & A7); auto.
  { eapply fair_edit_ext; [|exact Fe]. apply eqf_sym. exact Sh. }
  destruct (A6 Ft) as (x & ->). destruct A1 as (B1 & B2 & B3 & B4 & B5). rewrite G in B1. cbn in B1.
  assert (Z : forall p, In p (events (log s) ++ [(x, @None N)]) -> snd p = None).
  { intros p I. apply in_app_or in I. destruct I as [I|[<-|[]]]; auto. eapply past_singles; eauto. }
  exists (apply_edit k e s). split; [cbn [ops_of run]; now rewrite step_edit|].
  unfold R. cbn [past now future turn]. rewrite B1, B2, B3, B4, B5. repeat (split; [assumption|]).
  split. { intros p g I Q. specialize (Z _ I). congruence. }
  split. { eapply eqf_trans; [exact A5|]. apply write_ext. exact Sh. }
  split.
  { cbn [past_ok]. exists (events (log s)), [(x, None)], (fine_of s). split; [reflexivity|]. split; [split; auto|]. split; [exact A4|].
    split. { intros c. rewrite <- show_fine. apply Sh. } split; auto. }
  rewrite A2. destruct (undone s); [exact I|]. cbn in F. contradiction.
Qed.

Lemma build_idle : forall order s, (forall c, staged s c = None) -> build order s = s.
Proof. intros order s H. unfold build. induction order as [|c order IH]; cbn; auto. rewrite H. exact IH. Qed.

Lemma R_eval : forall k h s order vals, R k h s -> fair k (IEval order vals) h s -> R k h (evaluate order vals s).
Proof.
  intros k h s order vals (S & Qt & C & D & G & L & Sh & P & F) T. cbn in T.
  unfold evaluate. rewrite (build_idle order s T). cbn zeta. match goal with |- R _ _ ?x => set (s2 := x) end.
  assert (H : eqf (fine_of s2) (fine_of s)).
  { intros c. unfold fine_of, item_at. cbn. destruct (form (gr s) c) eqn:E; auto. unfold read. cbn. rewrite E. reflexivity. }
  unfold R. split; [exact S|]. split. { intros Eg c. rewrite H. now apply Qt. }
  cbn [log s2 undone]. repeat (split; [assumption|]).
  split. { intros c. rewrite show_fine, (showK_ext _ _ H c), <- show_fine. apply Sh. }
  split; [eapply past_ok_ext|eapply future_ok_ext]; try (apply eqf_sym; exact H); auto.
Qed.

Lemma R_item : forall k h s it, R k h s -> fair k it h s -> exists s', run k (ops_of it) s = Some s' /\ R k (turn it h) s'.
Proof.
  intros k h s it HR F. destruct it as [es|e| | |order vals].
  - now apply R_act.
  - now apply R_single.
  - destruct (R_undo k h s HR) as (s' & U & HR'). exists s'. cbn [ops_of run step]. rewrite U. auto.
  - exists (redo k s). split; [reflexivity|]. now apply R_redo.
  - exists (evaluate order vals s). split; [reflexivity|]. now apply R_eval.
Qed.

Lemma R_run : forall k its h s, R k h s -> fair_run k its h s -> exists s', run k (program its) s = Some s' /\ R k (turns its h) s'.
Proof.
  intros k. induction its as [|it its IH]; intros h s HR F; [exists s; split; auto|].
  destruct F as [F1 F2]. destruct (R_item k h s it HR F1) as (s1 & A & HR1). specialize (F2 s1 A).
  destruct (IH _ _ HR1 F2) as (s' & B & HR'). exists s'. split; auto. unfold program. cbn [map concat]. rewrite run_app, A. exact B.
Qed.

Lemma R_loaded : forall k b, R k (opened b) (loaded b).
Proof.
  intros k b. unfold R. split; [split|].
  - split; discriminate.
  - intros c f Q. discriminate.
  - split; [intros Eg c; reflexivity|]. repeat (split; [reflexivity|]). split; [intros p g []|]. split; [intros c; reflexivity|]. split; [reflexivity|exact I].
Qed.

Lemma textbook : forall k b its, fair_run k its (opened b) (loaded b) ->
  exists s, run k (program its) (loaded b) = Some s /\ forall c, show s c = now (turns its (opened b)) c.
Proof.
  intros k b its F. destruct (R_run k its _ _ (R_loaded k b) F) as (s & A & HR). exists s. split; auto. apply HR.
Qed.
