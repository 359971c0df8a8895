(* Sheets: inserting and deleting rows, the whole calls. *)
From Coq Require Import List Bool NArith ZArith Lia.
From Coq Require Import ZifyN ZifyNat ZifyBool.
From Verif Require Import Base Maps OvModel OvSpec OvProofs OvProofs2 OvProofs3 OvProofs4 OvProofs5 AsModel AsSpec AsProofs AsProofs2 AsProofs3 AsProofs4.
Import ListNotations.
Open Scope N_scope.

Lemma head_sums2 : forall n t cur, match sums (cur + n) t with e :: _ => e | [] => cur + n + total t end = cur + n.
Proof. intros n [|m t] cur; cbn; lia. Qed.
Lemma del_plan_spec : forall k start stop lens i cur, positive lens -> start < stop -> stop <= cur + total lens \/ stop <= cur ->
  let plan := del_plan (cur + total lens) start stop i (sums cur lens) in
  (forall r, plan_at k plan r = if cur + r <? start then seg_at k i lens r else seg_at k i lens (r + (stop - N.max start cur))) /\
  total (plan_lens plan) = total lens - (stop - N.max start cur) /\
  (forall x, In x plan -> exists j' n' off len, nthN lens j' = Some n' /\ x = PSlice (i + j') off len /\ off + len <= n' /\ 0 < len).
Proof.
  intros k start stop. induction lens as [|n t IH]; intros i cur P LT HS.
  - cbn. split; [|split; [auto|intros x []]]. intros r. now destruct (_ <? _).
  - assert (N0 : 0 < n) by (apply P; now left). assert (P' : positive t) by (intros y IN; apply P; now right).
    cbn [sums del_plan total fold_right] in *. change (fold_right N.add 0 t) with (total t) in *. rewrite N.add_assoc, head_sums2.
    replace (cur + n - cur) with n by lia. replace (n =? 0) with false by lia.
    assert (HS' : stop <= cur + n + total t \/ stop <= cur + n) by lia.
    destruct (IH (i + 1) (cur + n) P' LT HS') as (A & B & C). cbv zeta in A, B, C. cbv zeta.
    set (rest := del_plan (cur + n + total t) start stop (i + 1) (sums (cur + n) t)) in *. clearbody rest.
    assert (CR : forall x, In x rest -> exists j' n' off len, nthN (n :: t) j' = Some n' /\ x = PSlice (i + j') off len /\ off + len <= n' /\ 0 < len).
    { intros x IN. destruct (C x IN) as (j' & n' & off & len & EN & -> & L1 & L2). exists (j' + 1), n', off, len. rewrite nthN_cons.
      replace (j' + 1 =? 0) with false by lia. replace (j' + 1 - 1) with j' by lia. split; auto. split; [f_equal; lia|]. auto. }
    destruct ((cur + n <=? start) || (stop <=? cur)) eqn:EC.
    + split; [|split].
      * intros r. cbn [plan_at item_len item_cell seg_at]. destruct (r <? n) eqn:E1.
        -- destruct (cur + r <? start) eqn:E2; [f_equal; lia|].
           replace (stop - N.max start cur) with 0 by lia. replace (r + 0) with r by lia. rewrite E1. f_equal; lia.
        -- rewrite A. replace (cur + n + (r - n)) with (cur + r) by lia. destruct (cur + r <? start) eqn:E2; auto.
           replace (r + (stop - N.max start cur) <? n) with false by lia. f_equal; lia.
      * cbn [plan_lens map total fold_right item_len]. change (fold_right N.add 0 (map item_len rest)) with (total (plan_lens rest)). rewrite B. lia.
      * intros x [<- | IN]; [|auto]. exists 0, n, 0, n. split; auto. split; [f_equal; lia|]. split; lia.
    + assert (S1 : start < cur + n) by lia. assert (S2 : cur < stop) by lia.
      replace (if cur <? start then if 0 <? N.min start (cur + n) - cur then [PSlice i 0 (N.min start (cur + n) - cur)] else [] else [])
        with (if cur <? start then [PSlice i 0 (start - cur)] else []).
      2: { destruct (cur <? start) eqn:E; auto. replace (N.min start (cur + n)) with start by lia. now replace (0 <? start - cur) with true by lia. }
      replace (if stop <? cur + n then if 0 <? cur + n - stop then [PSlice i (stop - cur) (cur + n - stop)] else [] else [])
        with (if stop <? cur + n then [PSlice i (stop - cur) (cur + n - stop)] else []).
      2: { destruct (stop <? cur + n) eqn:E; auto. now replace (0 <? cur + n - stop) with true by lia. }
      split; [|split].
      * intros r. rewrite !plan_at_app. cbn [seg_at]. destruct (cur <? start) eqn:E1; destruct (stop <? cur + n) eqn:E2;
          cbn [plan_lens map total fold_right item_len plan_at item_cell].
        -- destruct (r <? start - cur + 0) eqn:E3.
           ++ replace (r <? start - cur) with true by lia. replace (cur + r <? start) with true by lia. replace (r <? n) with true by lia. f_equal.
           ++ replace (cur + r <? start) with false by lia. destruct (r - (start - cur + 0) <? cur + n - stop + 0) eqn:E4.
              ** replace (r - (start - cur + 0) <? cur + n - stop) with true by lia. replace (r + (stop - N.max start cur) <? n) with true by lia. f_equal; lia.
              ** replace (r + (stop - N.max start cur) <? n) with false by lia. rewrite A.
                 replace (cur + n + (r - (start - cur + 0) - (cur + n - stop + 0)) <? start) with false by lia. f_equal; lia.
        -- destruct (r <? start - cur + 0) eqn:E3.
           ++ replace (r <? start - cur) with true by lia. replace (cur + r <? start) with true by lia. replace (r <? n) with true by lia. f_equal.
           ++ replace (cur + r <? start) with false by lia. replace (r - (start - cur + 0) <? 0) with false by lia.
              replace (r + (stop - N.max start cur) <? n) with false by lia. rewrite A.
              replace (cur + n + (r - (start - cur + 0) - 0) <? start) with false by lia. f_equal; lia.
        -- replace (r <? 0) with false by lia. replace (cur + r <? start) with false by lia. destruct (r - 0 <? cur + n - stop + 0) eqn:E4.
           ++ replace (r - 0 <? cur + n - stop) with true by lia. replace (r + (stop - N.max start cur) <? n) with true by lia. f_equal; lia.
           ++ replace (r + (stop - N.max start cur) <? n) with false by lia. rewrite A.
              replace (cur + n + (r - 0 - (cur + n - stop + 0)) <? start) with false by lia. f_equal; lia.
        -- replace (r <? 0) with false by lia. replace (cur + r <? start) with false by lia. replace (r - 0 <? 0) with false by lia.
           replace (r + (stop - N.max start cur) <? n) with false by lia. rewrite A.
           replace (cur + n + (r - 0 - 0) <? start) with false by lia. f_equal; lia.
      * rewrite !plan_lens_app, !total_app, B. destruct (cur <? start) eqn:E1; destruct (stop <? cur + n) eqn:E2; cbn; lia.
      * intros x IN. apply in_app_or in IN. destruct IN as [IN | IN].
        { destruct (cur <? start) eqn:E1; [|destruct IN]. destruct IN as [<- | []]. exists 0, n, 0, (start - cur). split; auto. split; [f_equal; lia|]. split; lia. }
        apply in_app_or in IN. destruct IN as [IN | IN]; [|auto].
        destruct (stop <? cur + n) eqn:E1; [|destruct IN]. destruct IN as [<- | []]. exists 0, n, (stop - cur), (cur + n - stop). split; auto. split; [f_equal; lia|]. split; lia.
Qed.

Section Plain.
Variable pl : bool.
Section Mem.
Variable mem : payload -> N.

(* ---- dense columns ---- *)
Definition run_of (k : col) (i : N) (l : list chunk) : Prop :=
  forall j ch, nthN l j = Some ch -> chunk_at k (i + j) = Some ch /\ ok_chunk pl ch.
Lemma run_of_tail : forall k i ch l, run_of k i (ch :: l) -> chunk_at k i = Some ch /\ ok_chunk pl ch /\ run_of k (i + 1) l.
Proof.
  intros k i ch l H. destruct (H 0 ch eq_refl) as [A B]. rewrite N.add_0_r in A. split; auto. split; auto. intros j c G.
  replace (i + 1 + j) with (i + (j + 1)) by lia. apply H. rewrite nthN_cons. replace (j + 1 =? 0) with false by lia. now replace (j + 1 - 1) with j by lia.
Qed.
Lemma realises_whole : forall k i ch, chunk_at k i = Some ch -> ok_chunk pl ch -> realises pl k (PSlice i 0 (c_len ch)) (Some ch).
Proof.
  intros k i ch CH OK. split; [|intros c X; injection X as <-; auto]. intros j H. cbn [item_cell]. now rewrite CH.
Qed.
Lemma realises_part : forall k i ch off len, chunk_at k i = Some ch -> ok_chunk pl ch -> off + len <= c_len ch ->
  exists ch', slice_chunk mem ch off len = Some ch' /\ realises pl k (PSlice i off len) (Some ch').
Proof.
  intros k i ch off len CH OK H. destruct (slice_chunk_spec pl mem ch off len OK H) as (ch' & E & OK' & CL & CE). exists ch'. split; auto.
  split; [|intros c X; injection X as <-; auto]. intros j J. cbn [item_cell opt_cell]. rewrite CH. cbn. now apply CE.
Qed.
Lemma realises_empty : forall k n, n <= U32_MAX -> realises pl k (PEmpty n) (Some (empty_chunk n)).
Proof.
  intros k n H. split.
  - intros j _. cbn. apply cell_empty.
  - intros ch X. injection X as <-. split; [now apply ok_empty|]. apply c_len_empty.
Qed.
Lemma ins_dense_spec : forall k si soff count l i cur, run_of k i l -> positive (map c_len l) -> count <= U32_MAX ->
  (forall j ch, i + j = si -> nthN l j = Some ch -> soff <= c_len ch) ->
  exists l', ins_dense mem i si soff count l = Some l' /\
    Forall2 (realises pl k) (ins_plan (cur + total (map c_len l)) si soff count i (sums cur (map c_len l))) (map Some l').
Proof.
  intros k si soff count. induction l as [|ch l IH]; intros i cur R P CB H; cbn [map sums ins_plan ins_dense].
  - exists []. split; auto. constructor.
  - destruct (run_of_tail _ _ _ _ R) as (CH & OK & R'). assert (N0 : 0 < c_len ch) by (apply P; now left).
    assert (P' : positive (map c_len l)) by (intros y IN; apply P; now right).
    destruct (IH (i + 1) (cur + c_len ch) R' P' CB) as (l' & -> & F).
    { intros j c E G. apply (H (j + 1)); [lia|]. rewrite nthN_cons. replace (j + 1 =? 0) with false by lia. now replace (j + 1 - 1) with j by lia. }
    cbn [bind total fold_right]. change (fold_right N.add 0 (map c_len l)) with (total (map c_len l)). rewrite N.add_assoc, head_sums.
    replace (c_len ch =? 0) with false by lia. destruct (i =? si) eqn:E; cbn [negb].
    + assert (SO : soff <= c_len ch) by (apply (H 0 ch); auto; lia). replace (N.min soff (c_len ch)) with soff by lia. cbv zeta.
      destruct (realises_part k i ch 0 soff CH OK ltac:(lia)) as (a & EA & RA).
      destruct (realises_part k i ch soff (c_len ch - soff) CH OK ltac:(lia)) as (b & EB & RB).
      rewrite EA, EB. replace (soff <? c_len ch) with (0 <? c_len ch - soff) by lia.
      pose proof (realises_empty k count CB) as RE.
      destruct (0 <? soff); destruct (0 <? c_len ch - soff); cbn [option_map bind app map]; eexists; split; try reflexivity; cbn [map app]; auto; repeat (constructor; auto).
    + exists (ch :: l'). split; auto. cbn [map]. constructor; auto. now apply realises_whole.
Qed.
Lemma del_dense_spec : forall k start stop l i cur, run_of k i l -> positive (map c_len l) -> start < stop ->
  exists l', del_dense mem start stop cur l = Some l' /\
    Forall2 (realises pl k) (del_plan (cur + total (map c_len l)) start stop i (sums cur (map c_len l))) (map Some l').
Proof.
  intros k start stop. induction l as [|ch l IH]; intros i cur R P LT; cbn [map sums del_plan del_dense].
  - exists []. split; auto. constructor.
  - destruct (run_of_tail _ _ _ _ R) as (CH & OK & R'). assert (N0 : 0 < c_len ch) by (apply P; now left).
    assert (P' : positive (map c_len l)) by (intros y IN; apply P; now right).
    destruct (IH (i + 1) (cur + c_len ch) R' P' LT) as (l' & EQ & F). rewrite EQ.
    cbn [bind total fold_right]. change (fold_right N.add 0 (map c_len l)) with (total (map c_len l)). rewrite N.add_assoc, head_sums2.
    replace (cur + c_len ch - cur) with (c_len ch) by lia. replace (c_len ch =? 0) with false by lia. cbv zeta.
    destruct ((cur + c_len ch <=? start) || (stop <=? cur)) eqn:EC.
    + exists (ch :: l'). split; auto. cbn [map]. constructor; auto. now apply realises_whole.
    + assert (S1 : start < cur + c_len ch) by lia. assert (S2 : cur < stop) by lia.
      destruct (realises_part k i ch 0 (N.max start cur - cur) CH OK ltac:(lia)) as (a & EA & RA).
      set (rl := cur + c_len ch - N.min stop (cur + c_len ch)).
      destruct (realises_part k i ch (c_len ch - rl) rl CH OK ltac:(lia)) as (b & EB & RB).
      rewrite EA, EB.
      replace (if cur <? start then if 0 <? N.min start (cur + c_len ch) - cur then [PSlice i 0 (N.min start (cur + c_len ch) - cur)] else [] else [])
        with (if 0 <? N.max start cur - cur then [PSlice i 0 (N.max start cur - cur)] else []).
      2: { destruct (cur <? start) eqn:E.
           - replace (0 <? N.max start cur - cur) with true by lia. replace (N.min start (cur + c_len ch)) with (N.max start cur) by lia.
             now replace (0 <? N.max start cur - cur) with true by lia.
           - now replace (0 <? N.max start cur - cur) with false by lia. }
      replace (if stop <? cur + c_len ch then if 0 <? cur + c_len ch - stop then [PSlice i (stop - cur) (cur + c_len ch - stop)] else [] else [])
        with (if 0 <? rl then [PSlice i (c_len ch - rl) rl] else []).
      2: { destruct (stop <? cur + c_len ch) eqn:E; unfold rl.
           - replace (N.min stop (cur + c_len ch)) with stop by lia. replace (0 <? cur + c_len ch - stop) with true by lia. do 2 f_equal; lia.
           - now replace (0 <? cur + c_len ch - N.min stop (cur + c_len ch)) with false by lia. }
      destruct (0 <? N.max start cur - cur); destruct (0 <? rl); cbn [option_map bind app map]; eexists; split; try reflexivity; cbn [map app]; auto; repeat (constructor; auto).
Qed.
Lemma aligned_run : forall s lens k, inv pl s lens -> dense_aligned s = true -> In k (s_cols s) -> run_of k 0 (k_dense k) /\ map c_len (k_dense k) = lens.
Proof.
  intros s lens k I DA IN. destruct (aligned_dense pl s lens k I DA IN) as (A & B & C). split; auto. intros j ch G.
  assert (CH : chunk_at k (0 + j) = Some ch).
  { unfold chunk_at. pose proof (nthN_some _ _ _ _ G). replace (0 + j) with j by lia. now replace (j <? lenN (k_dense k)) with true by lia. }
  split; auto. destruct I as (_ & _ & CO). destruct (CO k IN) as [_ CK]. destruct (CK _ _ CH) as (n & _ & OK & _). exact OK.
Qed.
Lemma layer_out : forall s lens r c, layout s lens -> s_rows s <= r -> layer s lens r c = blank.
Proof.
  intros s lens r c (A & B & P) H. unfold layer. destruct (nthN (s_cols s) c); auto. unfold at_row.
  assert (F : find_row 0 lens r = None) by (apply find_row_none; lia). now rewrite F.
Qed.
Lemma layer_seg : forall s lens r c, layer s lens r c = match nthN (s_cols s) c with Some k => seg_at k 0 lens r | None => blank end.
Proof. intros s lens r c. unfold layer. destruct (nthN (s_cols s) c); auto. unfold at_row. apply at_row_seg. Qed.
Lemma starts_ne : forall s lens, layout s lens -> 0 < s_rows s -> match s_starts s with [] => [0] | l => l end = s_starts s.
Proof. intros s lens (A & B & P) H. rewrite A. destruct lens; auto. cbn in B. lia. Qed.
Lemma sheet_eta : forall s, Sheet (s_cols s) (s_rows s) (s_starts s) (s_crows s) = s.
Proof. now intros []. Qed.
Lemma last_sums : forall lens cur d n, nthN lens (lenN lens - 1) = Some n -> last (sums cur lens) d = cur + total (firstn (N.to_nat (lenN lens - 1)) lens).
Proof.
  intros lens cur d n G. pose proof (nthN_some _ _ _ _ G) as L.
  assert (NT : nthN (sums cur lens) (lenN lens - 1) = Some (cur + total (firstn (N.to_nat (lenN lens - 1)) lens))) by (apply nthN_sums; lia).
  destruct (sums cur lens) as [|x t] eqn:ES; [apply (f_equal (@lenN N)) in ES; rewrite lenN_sums in ES; change (lenN (@nil N)) with 0 in ES; lia|].
  destruct (@exists_last _ (x :: t)) as (init & l & EQ); [discriminate|]. rewrite EQ in *. rewrite last_last.
  assert (LL : lenN lens = lenN init + 1).
  { apply (f_equal (@lenN N)) in ES. rewrite lenN_sums, lenN_app, lenN_cons in ES. change (lenN (@nil N)) with 0 in ES. lia. }
  rewrite nthN_app in NT. replace (lenN lens - 1 <? lenN init) with false in NT by lia. replace (lenN lens - 1 - lenN init) with 0 in NT by lia.
  cbn in NT. congruence.
Qed.
Definition rows_blank (g : grid) (rows : N) : Prop := forall r c, rows <= r -> g r c = blank.
Lemma insert_rows_spec : forall s lens b n, inv pl s lens -> n <= N.max (s_crows s) 1 -> s_rows s = 0 \/ s_cols s <> [] -> s_rows s + n <= U32_MAX ->
  exists s' lens', insert_rows mem s b n = Some s' /\ inv pl s' lens' /\ same (layer s' lens') (rows_in b n (layer s lens)) /\
    s_rows s' = s_rows s + n /\ lenN (s_cols s') = lenN (s_cols s) /\ s_crows s' = s_crows s.
Proof.
  intros s lens b n I HN HC U. pose proof I as (LY & (RB & BD) & CO). pose proof LY as (A & B & P). unfold insert_rows.
  destruct (n =? 0) eqn:E0.
  { exists s, lens. split; auto. split; auto. split; [|split; [lia|auto]]. intros r c. unfold rows_in. destruct (r <? b) eqn:E1; auto.
    replace (r <? b + n) with false by lia. f_equal; lia. }
  cbv zeta. destruct (s_rows s =? 0) eqn:E1.
  { assert (lens = []).
    { destruct lens as [|m t]; auto. exfalso. assert (0 < m) by (apply P; now left). cbn in B. lia. }
    subst lens. rewrite A. cbn [sums]. exists (Sheet (s_cols s) n [0] (s_crows s)), [n]. split; auto.
    assert (ALL : forall k i, In k (s_cols s) -> chunk_at k i = None).
    { intros k i IN. destruct (CO k IN) as [_ CK]. destruct (chunk_at k i) as [ch|] eqn:CH; auto. destruct (CK _ _ CH) as (m & EN & _).
      unfold nthN in EN. destruct (N.to_nat i); discriminate. }
    split; [|split; [|split; [cbn; lia|auto]]].
    - split; [split; [reflexivity|split; [cbn; lia|intros m [<- | []]; lia]]|]. cbn [s_rows s_crows s_cols]. split; [split; [lia|intros m [<- | []]; lia]|].
      intros k IN. destruct (CO k IN) as [D _]. split; [change (lenN (@nil N)) with 0 in D; lia|]. intros i ch CH.
      change (chunk_at k i = Some ch) in CH. rewrite (ALL k i IN) in CH. discriminate.
    - intros r c. transitivity blank.
      + unfold layer. cbn [s_cols]. destruct (nthN (s_cols s) c) as [k|] eqn:G; auto. unfold at_row.
        destruct (find_row 0 [n] r) as [[i off]|]; auto. rewrite (ALL k i); auto. now apply nth_error_In with (N.to_nat c).
      + symmetry. unfold rows_in. rewrite !(layer_out s []) by (auto; lia). destruct (r <? b); auto. now destruct (r <? b + n). }
  rewrite (starts_ne s lens LY) by lia. rewrite sheet_eta.
  set (at_ := N.min b (s_rows s)).
  assert (SP : exists si so m, (if at_ =? s_rows s then Some (lenN (s_starts s) - 1, s_rows s - last (s_starts s) 0)
     else match chunk_of_row s at_ with None => None | Some None => Some (0, 0) | Some (Some x) => Some x end) = Some (si, so) /\
     nthN lens si = Some m /\ so <= m /\ total (firstn (N.to_nat si) lens) + so = at_).
  { destruct (at_ =? s_rows s) eqn:E2.
    - assert (L0 : 0 < lenN lens) by (destruct lens; [cbn in B; lia|rewrite lenN_cons; lia]).
      destruct (nthN_lt _ lens (lenN lens - 1)) as [m EM]; [lia|]. rewrite A, lenN_sums, (last_sums lens 0 0 m EM).
      pose proof (total_firstn_S _ _ _ EM) as TS. rewrite firstn_total_all in TS by lia.
      exists (lenN lens - 1), (s_rows s - (0 + total (firstn (N.to_nat (lenN lens - 1)) lens))), m. split; auto. split; auto. split; lia.
    - destruct (reach_row pl s lens at_ I) as (i & off & F & C); [lia|]. rewrite C. apply find_row_some in F. destruct F as (_ & m & EM & O & T).
      replace (i - 0) with i in * by lia. exists i, off, m. split; auto. split; auto. split; [lia|auto]. }
  destruct SP as (si & so & m & -> & EM & SO & TO). cbn [bind].
  set (plan := ins_plan (s_rows s) si so n 0 (s_starts s)).
  assert (PE : plan = ins_plan (0 + total lens) (0 + si) so n 0 (sums 0 lens)) by (unfold plan; rewrite A, B; f_equal; lia).
  assert (PT : total (plan_lens plan) = s_rows s + n).
  { rewrite PE. destruct (ins_plan_spec (Col [] []) n so lens 0 0 si m P EM SO ltac:(lia)) as (_ & T & _). cbv zeta in T. rewrite T. lia. }
  assert (PI : Forall (item_ok lens) plan /\ forall x, In (PEmpty x) plan -> x = n).
  { destruct (ins_plan_spec (Col [] []) n so lens 0 0 si m P EM SO ltac:(lia)) as (_ & _ & X). cbv zeta in X. rewrite <- PE in X. split.
    - apply Forall_forall. intros x IN. destruct (X x IN) as [-> | (j & n' & off & len & EN & -> & L1 & L2)].
      + split; cbn; lia.
      + split; [cbn; lia|]. replace (0 + j) with j by lia. eauto.
    - intros x IN. destruct (X _ IN) as [Y | (j & n' & off & len & _ & Y & _)]; [congruence|discriminate]. }
  destruct PI as [PI PN].
  assert (FO : exists s', (if dense_aligned s then
       bind (mapM (fun k => option_map (fun l => Col l []) (ins_dense mem 0 si so n (k_dense k))) (s_cols s))
         (fun ks => Some (recompute (Sheet ks (s_rows s + n) (s_starts s) (s_crows s))))
       else rebuild mem s (s_rows s + n) plan) = Some s' /\ follows pl s plan s').
  { destruct (dense_aligned s) eqn:DA.
    - apply dense_follows with (lens := lens) (f := ins_dense mem 0 si so n); auto.
      { destruct HC as [HC | HC]; auto. lia. }
      intros k IN. destruct (aligned_run s lens k I DA IN) as [R EL].
      destruct (ins_dense_spec k si so n (k_dense k) 0 0 R) as (l' & E & F).
      + now rewrite EL.
      + lia.
      + intros j ch EJ G. replace j with si in G by lia. assert (X : nthN (map c_len (k_dense k)) si = Some (c_len ch)) by (rewrite nthN_map, G; reflexivity).
        rewrite EL, EM in X. injection X as <-. exact SO.
      + exists l'. split; auto. rewrite EL in F. rewrite PE. exact F.
    - apply rebuild_follows with lens; auto. }
  destruct FO as (s' & -> & FO). exists s', (plan_lens plan). split; auto.
  destruct (follows_spec pl s lens plan s' I PI FO) as [I' L'].
  { intros x IN. rewrite (PN x IN). exact HN. }
  { lia. }
  split; auto. split.
  - intros r c. rewrite L'. unfold rows_in. rewrite !layer_seg. destruct (nthN (s_cols s) c) as [k|] eqn:G.
    2: { destruct (r <? b); auto. now destruct (r <? b + n). }
    rewrite PE. destruct (ins_plan_spec k n so lens 0 0 si m P EM SO ltac:(lia)) as (Q & _ & _). cbv zeta in Q. rewrite Q, TO.
    destruct (N.le_gt_cases b (s_rows s)) as [LE | GT].
    + replace at_ with b by lia. reflexivity.
    + replace at_ with (s_rows s) by lia. destruct (r <? s_rows s) eqn:R1.
      * now replace (r <? b) with true by lia.
      * replace (seg_at k 0 lens r) with blank by (symmetry; apply seg_out; lia).
        assert (seg_at k 0 lens (r - n) = blank \/ r <? s_rows s + n = true) as Z.
        { destruct (r <? s_rows s + n) eqn:R2; auto. left. apply seg_out. lia. }
        destruct Z as [Z | Z]; rewrite Z.
        -- destruct (r <? s_rows s + n); destruct (r <? b); destruct (r <? b + n); auto.
        -- destruct (r <? b) eqn:R3; auto. destruct (r <? b + n) eqn:R4; auto. lia.
  - destruct FO as (_ & FR & FC & F2). split; [lia|]. split; [symmetry; eapply Forall2_len; eauto|auto].
Qed.
Lemma delete_rows_spec : forall s lens b n, inv pl s lens -> s_rows s = 0 \/ s_cols s <> [] ->
  exists s' lens', delete_rows mem s b n = Some s' /\ inv pl s' lens' /\ same (layer s' lens') (rows_out b n (layer s lens)) /\
    s_rows s' = (if b <? s_rows s then s_rows s - (N.min (b + n) (s_rows s) - b) else s_rows s) /\ lenN (s_cols s') = lenN (s_cols s) /\ s_crows s' = s_crows s.
Proof.
  intros s lens b n I HC. pose proof I as (LY & (RB & BD) & CO). pose proof LY as (A & B & P). unfold delete_rows.
  assert (NO : n = 0 \/ s_rows s <= b -> inv pl s lens /\ same (layer s lens) (rows_out b n (layer s lens)) /\
    s_rows s = (if b <? s_rows s then s_rows s - (N.min (b + n) (s_rows s) - b) else s_rows s) /\ lenN (s_cols s) = lenN (s_cols s) /\ s_crows s = s_crows s).
  { intros H. split; auto. split; [|split; [destruct (b <? s_rows s) eqn:E; lia|auto]]. intros r c. unfold rows_out. destruct (r <? b) eqn:E; auto.
    destruct H as [-> | H]; [f_equal; lia|]. rewrite !(layer_out s lens) by (auto; lia). reflexivity. }
  destruct ((n =? 0) || (s_rows s =? 0)) eqn:E0; [exists s, lens; split; auto; apply NO; lia|]. cbv zeta.
  destruct (s_rows s <=? b) eqn:E1; [exists s, lens; split; auto; apply NO; lia|].
  replace (N.min (b + n) (s_rows s) - b =? 0) with false by lia. clear NO.
  rewrite (starts_ne s lens LY) by lia. rewrite sheet_eta. set (stop := N.min (b + n) (s_rows s)).
  assert (LT : b < stop) by lia. assert (SB : stop <= 0 + total lens \/ stop <= 0) by lia.
  set (plan := del_plan (s_rows s) b stop 0 (s_starts s)).
  assert (PE : plan = del_plan (0 + total lens) b stop 0 (sums 0 lens)) by (unfold plan; rewrite A, B; f_equal; lia).
  assert (PS : forall k, (forall r, plan_at k plan r = if r <? b then seg_at k 0 lens r else seg_at k 0 lens (r + (stop - b))) /\
     total (plan_lens plan) = s_rows s - (stop - b) /\ Forall (item_ok lens) plan /\ forall x, ~ In (PEmpty x) plan).
  { intros k. destruct (del_plan_spec k b stop lens 0 0 P LT SB) as (X & Y & Z). cbv zeta in X, Y, Z. rewrite <- PE in X, Y, Z.
    replace (N.max b 0) with b in * by lia. split; [|split; [lia|split]].
    - intros r. rewrite X. now replace (0 + r) with r by lia.
    - apply Forall_forall. intros x IN. destruct (Z x IN) as (j & n' & off & len & EN & -> & L1 & L2).
      split; [cbn; lia|]. replace (0 + j) with j by lia. eauto.
    - intros x IN. destruct (Z _ IN) as (j & n' & off & len & _ & Q & _). discriminate. }
  destruct (PS (Col [] [])) as (_ & PT & PI & PN).
  assert (FO : exists s', (if dense_aligned s then
       bind (mapM (fun k => option_map (fun l => Col l []) (del_dense mem b stop 0 (k_dense k))) (s_cols s))
         (fun ks => Some (recompute (Sheet ks (s_rows s - (stop - b)) (s_starts s) (s_crows s))))
       else rebuild mem s (s_rows s - (stop - b)) plan) = Some s' /\ follows pl s plan s').
  { destruct (dense_aligned s) eqn:DA.
    - apply dense_follows with (lens := lens) (f := del_dense mem b stop 0); auto.
      { destruct HC as [HC | HC]; auto. lia. }
      intros k IN. destruct (aligned_run s lens k I DA IN) as [R EL].
      destruct (del_dense_spec k b stop (k_dense k) 0 0 R) as (l' & E & F).
      + now rewrite EL.
      + exact LT.
      + exists l'. split; auto. rewrite EL in F. rewrite PE. exact F.
    - apply rebuild_follows with lens; auto. }
  destruct FO as (s' & -> & FO). exists s', (plan_lens plan). split; auto.
  destruct (follows_spec pl s lens plan s' I PI FO) as [I' L'].
  { intros x IN. now apply PN in IN. }
  { lia. }
  split; auto. split.
  - intros r c. rewrite L'. unfold rows_out. rewrite !layer_seg. destruct (nthN (s_cols s) c) as [k|] eqn:G.
    2: { now destruct (r <? b). }
    destruct (PS k) as (Q & _). rewrite Q. destruct (r <? b) eqn:R1; auto.
    destruct (N.le_gt_cases (b + n) (s_rows s)) as [LE | GT].
    + now replace (r + (stop - b)) with (r + n) by lia.
    + rewrite !seg_out by lia. reflexivity.
  - destruct FO as (_ & FR & FC & F2). split; [replace (b <? s_rows s) with true by lia; lia|]. split; [symmetry; eapply Forall2_len; eauto|auto].
Qed.
End Mem.
End Plain.
