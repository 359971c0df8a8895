(** Kahn's waves (SchedModel.kahn). *)
From Coq Require Import Permutation.
From Verif Require Import Base TarjanModel ListSort SchedModel.

Notation cnt l x := (count_occ Nat.eq_dec l x).

Lemma fupd_same : forall A (f : nat -> A) x a, fupd f x a x = a.
Proof. intros. unfold fupd. now rewrite Nat.eqb_refl. Qed.
Lemma fupd_other : forall A (f : nat -> A) x a y, y <> x -> fupd f x a y = f y.
Proof. intros. unfold fupd. apply Nat.eqb_neq in H. now rewrite H. Qed.

Lemma dec_ok : forall sat known vs deg next, (forall v, known v = true -> cnt vs v <= deg v) ->
  exists deg' new, dec sat known vs deg next = Ok (deg', next ++ new) /\
    (forall v, known v = true -> deg' v = deg v - cnt vs v) /\
    NoDup new /\ (forall v, In v new <-> known v = true /\ 0 < cnt vs v /\ cnt vs v = deg v).
Proof.
  intros sat known. induction vs as [|v vs IH]; intros deg next H; cbn [dec].
  - exists deg, []. rewrite app_nil_r. split; auto. split; [intros; cbn; lia|]. split; [constructor|].
    intros; cbn; split; [tauto|lia].
  - destruct (known v) eqn:K.
    + destruct (deg v) as [|d] eqn:D.
      { specialize (H v K). rewrite D in H. cbn in H. destruct (Nat.eq_dec v v); [lia|congruence]. }
      destruct (IH (fupd deg v d) (if d =? 0 then next ++ [v] else next)) as (deg' & new & E & H1 & H2 & H3).
      { intros w Kw. specialize (H w Kw). destruct (Nat.eq_dec v w) as [->|N].
        - rewrite count_occ_cons_eq in H by auto. rewrite fupd_same. lia.
        - rewrite count_occ_cons_neq in H by auto. rewrite fupd_other by auto. lia. }
      rewrite E. exists deg', (if d =? 0 then v :: new else new). split; [|split; [|split]].
      * destruct (d =? 0); auto. now rewrite <- app_assoc.
      * intros w Kw. rewrite (H1 w Kw). destruct (Nat.eq_dec v w) as [->|N].
        -- rewrite count_occ_cons_eq by auto. rewrite fupd_same. lia.
        -- rewrite count_occ_cons_neq by auto. rewrite fupd_other by auto. lia.
      * destruct (Nat.eqb_spec d 0); auto. constructor; auto. rewrite H3. rewrite fupd_same. lia.
      * intros w. assert (Hw : In w new <-> known w = true /\ 0 < cnt vs w /\ cnt vs w = fupd deg v d w) by apply H3.
        destruct (Nat.eq_dec v w) as [->|N].
        -- rewrite count_occ_cons_eq by auto. rewrite fupd_same in Hw.
           specialize (H w K). rewrite count_occ_cons_eq in H by auto.
           destruct (Nat.eqb_spec d 0); cbn [In]; rewrite Hw; intuition lia.
        -- rewrite count_occ_cons_neq by auto. rewrite fupd_other in Hw by auto.
           destruct (Nat.eqb_spec d 0); cbn [In]; rewrite Hw; intuition congruence.
    + destruct (IH deg next) as (deg' & new & E & H1 & H2 & H3).
      { intros w Kw. specialize (H w Kw). destruct (Nat.eq_dec v w) as [->|N]; [congruence|].
        rewrite count_occ_cons_neq in H by auto. lia. }
      rewrite E. exists deg', new. split; auto. split; [|split; auto].
      * intros w Kw. rewrite (H1 w Kw). destruct (Nat.eq_dec v w) as [->|N]; [congruence|]. now rewrite count_occ_cons_neq by auto.
      * intros w. rewrite H3. destruct (Nat.eq_dec v w) as [->|N]; [intuition congruence|]. now rewrite count_occ_cons_neq by auto.
Qed.

Section Kahn.
Variable L : list nat.
Hypothesis LND : NoDup L.
Variable D : nat -> list nat.
Hypothesis DL : forall v u, In v L -> In u (D v) -> In u L.
Variable R : nat -> list nat.
Hypothesis RD : forall u v, In u L -> In v L -> cnt (R u) v = cnt (D v) u.
Variable rank : nat -> nat.
Hypothesis Drank : forall v u, In v L -> In u (D v) -> rank u < rank v.
Variable known : nat -> bool.
Hypothesis Kn : forall v, known v = true <-> In v L.

(** Unprocessed dependencies, with multiplicity. *)
Definition rem (v : nat) (Pr : list nat) : nat := length (filter (fun u => negb (memb u Pr)) (D v)).

Lemma rem_cons : forall v u Pr, ~ In u Pr -> rem v (u :: Pr) + cnt (D v) u = rem v Pr.
Proof.
  intros v u Pr N. unfold rem. induction (D v) as [|w l IH]; auto. cbn [filter].
  destruct (Nat.eq_dec w u) as [->|Nw].
  - rewrite count_occ_cons_eq by auto. replace (memb u (u :: Pr)) with true by (symmetry; apply memb_spec; now left).
    apply memb_false in N. rewrite N. cbn [negb length]. lia.
  - rewrite count_occ_cons_neq by auto. replace (memb w (u :: Pr)) with (memb w Pr).
    + destruct (memb w Pr); cbn [negb length]; lia.
    + unfold memb. cbn [existsb]. apply Nat.eqb_neq in Nw. now rewrite Nw.
Qed.
Lemma rem_zero : forall v Pr, rem v Pr = 0 <-> incl (D v) Pr.
Proof.
  intros v Pr. unfold rem. split.
  - intros H u Hu. destruct (in_dec_nat u Pr); auto. exfalso. apply length_zero_iff_nil in H.
    assert (In u (filter (fun u => negb (memb u Pr)) (D v))). { apply filter_In. split; auto. apply memb_false in n. now rewrite n. }
    rewrite H in H0. destruct H0.
  - intros H. destruct (filter (fun u => negb (memb u Pr)) (D v)) as [|x l] eqn:F; auto. exfalso.
    assert (I : In x (filter (fun u => negb (memb u Pr)) (D v))) by (rewrite F; now left).
    apply filter_In in I. destruct I as [I J]. apply H in I. apply memb_spec in I. rewrite I in J. discriminate.
Qed.
Lemma rem_mono : forall v u Pr, rem v (u :: Pr) <= rem v Pr.
Proof.
  intros. destruct (in_dec_nat u Pr) as [I|N]; [|pose proof (rem_cons v u Pr N); lia].
  unfold rem. apply Nat.eq_le_incl. f_equal. apply filter_ext. intros a. f_equal. unfold memb. cbn [existsb].
  destruct (Nat.eqb_spec a u); auto. subst. symmetry. now apply memb_spec.
Qed.
Lemma rem_app_mono : forall v ds Pr, rem v (ds ++ Pr) <= rem v Pr.
Proof. induction ds as [|u ds IH]; intros Pr; cbn; auto. pose proof (rem_mono v u (ds ++ Pr)). specialize (IH Pr). lia. Qed.

Lemma wave_ok : forall sat cur Pr deg next,
  NoDup cur -> (forall u, In u cur -> In u L /\ ~ In u Pr) ->
  (forall v, In v L -> deg v = rem v Pr) ->
  exists deg' new, wave sat known R cur deg next = Ok (deg', next ++ new) /\
    (forall v, In v L -> deg' v = rem v (rev cur ++ Pr)) /\
    NoDup new /\ (forall v, In v new <-> In v L /\ 0 < rem v Pr /\ rem v (rev cur ++ Pr) = 0).
Proof.
  intros sat. induction cur as [|u cur IH]; intros Pr deg next ND Hc Hd; cbn [wave].
  - exists deg, []. rewrite app_nil_r. cbn [rev app]. split; auto. split; auto. split; [constructor|]. intros; cbn; split; [tauto|lia].
  - inversion ND; subst. destruct (Hc u) as [uL uP]; [now left|].
    destruct (dec_ok sat known (R u) deg next) as (deg1 & new1 & E1 & A1 & A2 & A3).
    { intros v Kv. apply Kn in Kv. rewrite (RD u v uL Kv), (Hd v Kv). pose proof (rem_cons v u Pr uP). lia. }
    rewrite E1. cbn [rbind fst snd].
    destruct (IH (u :: Pr) deg1 (next ++ new1)) as (deg2 & new2 & E2 & B1 & B2 & B3).
    { auto. }
    { intros w Hw. destruct (Hc w) as [wL wP]; [now right|]. split; auto. intros [->|]; auto. }
    { intros v vL. rewrite A1 by now apply Kn. rewrite Hd, (RD u v) by auto. pose proof (rem_cons v u Pr uP). lia. }
    rewrite E2. exists deg2, (new1 ++ new2). split; [now rewrite app_assoc|]. cbn [rev]. rewrite <- app_assoc. cbn [app].
    assert (A3' : forall v, In v new1 <-> In v L /\ 0 < rem v Pr /\ rem v (u :: Pr) = 0).
    { intros v. rewrite A3, Kn. split.
      - intros (vL & P & Q). rewrite (RD u v) in * by auto. rewrite Hd in Q by auto. pose proof (rem_cons v u Pr uP). repeat split; auto; lia.
      - intros (vL & P & Q). rewrite (RD u v) by auto. rewrite Hd by auto. pose proof (rem_cons v u Pr uP). repeat split; auto; lia. }
    split; [exact B1|]. split.
    + apply NoDup_app_iff. split; auto. split; auto. intros v I J. apply A3' in I. apply B3 in J. lia.
    + intros v. rewrite in_app_iff, A3', B3. pose proof (rem_app_mono v (rev cur) (u :: Pr)). pose proof (rem_mono v u Pr).
      split; [intuition lia|]. intros (vL & P & Q). destruct (Nat.eq_dec (rem v (u :: Pr)) 0); [left|right]; repeat split; auto; lia.
Qed.

Definition after (Pr : list nat) (ws : list (list nat)) : Prop :=
  forall pre W post v u, ws = pre ++ W :: post -> In v W -> In u (D v) -> In u Pr \/ In u (concat pre).

Lemma kahn_ok : forall sat fuel cur Pr deg,
  NoDup (cur ++ Pr) -> (forall u, In u Pr -> In u L) ->
  (forall u, In u Pr -> rem u Pr = 0) ->
  (forall v, In v cur <-> In v L /\ ~ In v Pr /\ rem v Pr = 0) ->
  (forall v, In v L -> deg v = rem v Pr) -> length L - length Pr < fuel ->
  exists ws, kahn fuel sat known R cur deg = Ok ws /\ Permutation (concat ws ++ Pr) L /\ after Pr ws /\ (forall W, In W ws -> W <> []).
Proof.
  intros sat. induction fuel as [|fuel IH]; intros cur Pr deg ND HP HP0 Hc Hd Hf; [lia|].
  destruct cur as [|c cur'].
  - cbn [kahn]. exists []. split; auto. split; [|split].
    + cbn. apply NoDup_Permutation; auto. intros v. split; auto. intros vL.
      cbn [app] in ND. clear Hd Hf IH. 
      assert (G : forall k v, rank v < k -> In v L -> In v Pr).
      { induction k as [|k IHk]; intros w Hk wL; [lia|]. destruct (in_dec_nat w Pr) as [|N]; auto. exfalso.
        apply (proj2 (Hc w)). split; auto. split; auto. apply rem_zero. intros u Hu. apply IHk.
        - pose proof (Drank w u wL Hu). lia.
        - eapply DL; eauto. }
      apply (G (S (rank v))); auto.
    + intros [|] W post v u H; discriminate.
    + intros W [].
  - set (cur := c :: cur') in *. cbn [kahn].
    destruct (proj1 (NoDup_app_iff _ cur Pr) ND) as (NDc & NDp & Dis).
    destruct (wave_ok sat cur Pr deg []) as (deg' & new & E & B1 & B2 & B3); auto.
    { intros u Hu. split; [now apply Hc|]. now apply Dis. }
    unfold cur at 1. fold cur. rewrite E. cbn [rbind fst snd app].
    assert (Inc : forall x, In x (rev cur ++ Pr) <-> In x cur \/ In x Pr). { intros. rewrite in_app_iff, <- in_rev. tauto. }
    destruct (IH new (rev cur ++ Pr) deg') as (ws & E2 & C1 & C2 & C3); auto.
    { apply NoDup_app_iff. split; auto. split.
      - apply NoDup_app_iff. split; [now apply NoDup_rev|]. split; auto. intros x Hx. apply in_rev in Hx. now apply Dis.
      - intros x Hx Hy. apply B3 in Hx. apply Inc in Hy. destruct Hy as [Hy|Hy].
        + apply Hc in Hy. lia.
        + apply HP0 in Hy. lia. }
    { intros u Hu. apply Inc in Hu. destruct Hu as [Hu|Hu]; auto. now apply Hc. }
    { intros u Hu. apply Inc in Hu. assert (rem u Pr = 0) by (destruct Hu as [Hu|Hu]; [now apply Hc|auto]).
      pose proof (rem_app_mono u (rev cur) Pr). lia. }
    { intros v. rewrite B3. split.
      - intros (vL & P & Q). split; auto. split; auto. intros Hy. apply Inc in Hy. destruct Hy as [Hy|Hy]; [apply Hc in Hy|apply HP0 in Hy]; lia.
      - intros (vL & N & Q). split; auto. split; auto. destruct (Nat.eq_dec (rem v Pr) 0); [|lia]. exfalso. apply N. apply Inc. left. apply Hc.
        split; auto. split; auto. intros I. apply N. apply Inc. now right. }
    { rewrite app_length, rev_length. unfold cur. cbn [length].
      assert (length (cur ++ Pr) <= length L).
      { apply NoDup_incl_length; auto. intros x Hx. apply in_app_iff in Hx. destruct Hx as [Hx|Hx]; auto. now apply Hc. }
      rewrite app_length in H. unfold cur in H. cbn [length] in H. lia. }
    rewrite E2. cbn [rbind]. exists (cur :: ws). split; auto. split; [|split].
    + cbn [concat]. rewrite <- app_assoc. rewrite <- C1. rewrite (Permutation_app_comm cur), <- app_assoc.
      apply Permutation_app_head. rewrite Permutation_app_comm. apply Permutation_app_tail. apply Permutation_rev.
    + intros pre W post v u Hs Hv Hu. destruct pre as [|p pre]; cbn in Hs; injection Hs as <- Hs.
      * left. apply Hc in Hv. destruct Hv as (_ & _ & Hv). apply rem_zero in Hv. auto.
      * cbn [concat]. destruct (C2 pre W post v u Hs Hv Hu) as [H|H].
        -- apply Inc in H. destruct H; auto. right. apply in_or_app; auto.
        -- right. apply in_or_app; auto.
    + intros W [<-|HW]; auto. unfold cur. discriminate.
Qed.

Theorem kahn_top : forall sat cur deg,
  NoDup cur -> (forall v, In v cur <-> In v L /\ length (D v) = 0) ->
  (forall v, In v L -> deg v = length (D v)) ->
  exists ws, kahn (S (length L)) sat known R cur deg = Ok ws /\ Permutation (concat ws) L /\
    (forall pre W post v u, ws = pre ++ W :: post -> In v W -> In u (D v) -> In u (concat pre)) /\
    (forall W, In W ws -> W <> []).
Proof.
  intros sat cur deg ND Hc Hd.
  assert (R0 : forall v, rem v [] = length (D v)).
  { intros v. unfold rem. cbn. induction (D v); auto. cbn. now rewrite IHl. }
  destruct (kahn_ok sat (S (length L)) cur [] deg) as (ws & E & P & A & N).
  - now rewrite app_nil_r.
  - intros u [].
  - intros u [].
  - intros v. rewrite Hc, R0. cbn. tauto.
  - intros v vL. rewrite R0. auto.
  - cbn. lia.
  - exists ws. split; auto. rewrite app_nil_r in P. split; auto. split; auto.
    intros pre W post v u Hs Hv Hu. destruct (A pre W post v u Hs Hv Hu) as [[]|]; auto.
Qed.
End Kahn.
