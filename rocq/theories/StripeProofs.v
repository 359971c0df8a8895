(** Proofs about StripeModel.v. *)
From Verif Require Import Base Maps IntervalModel IntervalProofs StripeModel StripeSpec.
From Coq Require Import ZifyN ZifyNat ZifyBool.
Ltac Zify.zify_post_hook ::= Z.div_mod_to_equations.

Lemma upto_in : forall a b x, In x (upto a b) <-> (a <= x <= b)%N.
Proof.
  intros a b x; unfold upto; rewrite in_map_iff; split.
  - intros (i & <- & Hi); apply in_seq in Hi; lia.
  - intros H; exists (N.to_nat (x - a)); rewrite in_seq; lia.
Qed.

Lemma skey_eqb_spec : forall a b, skey_eqb a b = true <-> a = b.
Proof.
  intros [[s t] i] [[s' t'] i']; unfold skey_eqb; cbn [fst snd].
  rewrite !Bool.andb_true_iff, !N.eqb_eq.
  split.
  - intros [[-> Ht] ->]; destruct t, t'; (reflexivity || discriminate).
  - intros H; injection H as -> -> ->; repeat split; destruct t'; reflexivity.
Qed.

Lemma col_keys_in : forall s a b k, In k (col_keys s a b) <-> exists c, k = (s, SCol, c) /\ (a <= c <= b)%N.
Proof.
  intros s a b k; unfold col_keys; rewrite in_map_iff; split.
  - intros (c & <- & Hc); rewrite upto_in in Hc; exists c; auto.
  - intros (c & -> & Hc); exists c; rewrite upto_in; auto.
Qed.
Lemma row_keys_in : forall s a b k, In k (row_keys s a b) <-> exists c, k = (s, SRow, c) /\ (a <= c <= b)%N.
Proof.
  intros s a b k; unfold row_keys; rewrite in_map_iff; split.
  - intros (c & <- & Hc); rewrite upto_in in Hc; exists c; auto.
  - intros (c & -> & Hc); exists c; rewrite upto_in; auto.
Qed.
Lemma block_keys_in : forall s r0 r1 c0 c1 k,
  In k (block_keys s r0 r1 c0 c1) <->
  exists br bc, k = (s, SBlock, block_index (br * BLOCK) (bc * BLOCK))
    /\ (r0 / BLOCK <= br <= r1 / BLOCK)%N /\ (c0 / BLOCK <= bc <= c1 / BLOCK)%N.
Proof.
  intros s r0 r1 c0 c1 k; unfold block_keys; rewrite in_flat_map; split.
  - intros (br & Hb & Hk); rewrite in_map_iff in Hk; destruct Hk as (bc & <- & Hc).
    rewrite upto_in in Hb, Hc; exists br, bc; auto.
  - intros (br & bc & -> & Hb & Hc); exists br; rewrite upto_in; split; [exact Hb|].
    apply in_map_iff; exists bc; rewrite upto_in; auto.
Qed.

(** The keys a query looks up. *)
Definition query_keys (blocks : bool) (sheet r0 c0 r1 c1 : N) : list skey :=
  col_keys sheet c0 c1 ++ row_keys sheet r0 r1 ++ (if blocks then block_keys sheet r0 r1 c0 c1 else []).

Lemma covers_key : forall blocks r sheet row col r0 c0 r1 c1,
  two_sided r -> covers r sheet row col -> (r0 <= row <= r1)%N -> (c0 <= col <= c1)%N ->
  exists k, In k (stripes_of blocks r) /\ In k (query_keys blocks sheet r0 c0 r1 c1).
Proof.
  intros blocks [s sr er sc ec] sheet row col r0 c0 r1 c1 T (Hs & A & B & C & D) Hr Hc.
  cbn in Hs, A, B, C, D; subst sheet. unfold two_sided in T; cbn in T. unfold below, above in *.
  unfold query_keys.
  assert (COL : forall a b, (a <= col <= b)%N ->
            exists k, In k (col_keys s a b) /\
              In k (col_keys s c0 c1 ++ row_keys s r0 r1 ++ (if blocks then block_keys s r0 r1 c0 c1 else []))).
  { intros a b H; exists (s, SCol, col); split; [|apply in_or_app; left]; rewrite col_keys_in; exists col; auto. }
  assert (ROW : forall a b, (a <= row <= b)%N ->
            exists k, In k (row_keys s a b) /\
              In k (col_keys s c0 c1 ++ row_keys s r0 r1 ++ (if blocks then block_keys s r0 r1 c0 c1 else []))).
  { intros a b H; exists (s, SRow, row); split; [|apply in_or_app; right; apply in_or_app; left];
      rewrite row_keys_in; exists row; auto. }
  destruct sr as [sr|], er as [er|], sc as [sc|], ec as [ec|];
    try (exfalso; destruct T as [[T1 T2]|[T1 T2]]; congruence);
    try specialize (A _ eq_refl); try specialize (B _ eq_refl);
    try specialize (C _ eq_refl); try specialize (D _ eq_refl);
    unfold stripes_of; cbn [r_sr r_er r_sc r_ec rng_sheet is_none is_some andb orb negb or_else];
    try (apply COL; lia); try (apply ROW; lia).
  destruct (blocks && (1 <? er - sr + 1)%N && (1 <? ec - sc + 1)%N) eqn:E.
  - apply Bool.andb_true_iff in E; destruct E as [E _]; apply Bool.andb_true_iff in E; destruct E as [-> _].
    exists (s, SBlock, block_index (row / BLOCK * BLOCK) (col / BLOCK * BLOCK)); split.
    + rewrite block_keys_in; exists (row / BLOCK)%N, (col / BLOCK)%N; unfold BLOCK; repeat split; lia.
    + apply in_or_app; right; apply in_or_app; right.
      rewrite block_keys_in; exists (row / BLOCK)%N, (col / BLOCK)%N; unfold BLOCK; repeat split; lia.
  - destruct (ec - sc + 1 <? er - sr + 1)%N; [apply COL | apply ROW]; lia.
Qed.

Lemma overlaps_covers : forall r sheet r0 c0 r1 c1,
  forward r -> (r0 <= r1)%N -> (c0 <= c1)%N -> fits r1 -> fits c1 ->
  (overlaps r sheet r0 c0 r1 c1 = true <->
   exists row col, (r0 <= row <= r1)%N /\ (c0 <= col <= c1)%N /\ covers r sheet row col).
Proof.
  intros [s sr er sc ec] sheet r0 c0 r1 c1 [F1 F2] Hr Hc Fr Fc.
  unfold ordered, fits in *; cbn in F1, F2.
  unfold overlaps, covers, below, above; cbn [r_sr r_er r_sc r_ec rng_sheet].
  rewrite !Bool.andb_true_iff, N.eqb_eq, !N.leb_le. unfold U32_MAX; split.
  - intros ((((-> & A) & B) & C) & D).
    exists (N.max (or_else sr 0) r0), (N.max (or_else sc 0) c0).
    destruct sr as [sr|], er as [er|]; cbn [or_else] in *;
      destruct sc as [sc|], ec as [ec|]; cbn [or_else] in *;
      try specialize (F1 _ _ eq_refl eq_refl); try specialize (F2 _ _ eq_refl eq_refl);
      repeat split; try lia; intros ? H; inversion H; subst; lia.
  - intros (row & col & R & C & -> & A & B & D & E).
    destruct sr as [sr|], er as [er|], sc as [sc|], ec as [ec|]; cbn [or_else];
      try specialize (A _ eq_refl); try specialize (B _ eq_refl);
      try specialize (D _ eq_refl); try specialize (E _ eq_refl); repeat split; lia.
Qed.

(** ** Histories *)
Definition rinv (blocks : bool) (x : rindex) : Prop :=
  forall d rs k, mget N.eqb (ranges_of x) d = Some rs -> In k (flat_map (stripes_of blocks) rs) ->
                 In (k, d) (stripes x).
Definition rsim (f : N -> list rng) (x : rindex) : Prop :=
  forall d, match mget N.eqb (ranges_of x) d with Some rs => f d = rs | None => f d = [] end.

Lemma rstep_inv : forall blocks o x, rinv blocks x -> rinv blocks (rstep blocks o x).
Proof.
  intros blocks [d rs|d] x I; cbn [rstep].
  - destruct rs as [|r rs]; [exact I|]. cbn [add_ranges]. intros d' rs' k G K.
    cbn [ranges_of stripes] in *. apply in_or_app.
    destruct (N.eq_dec d d') as [<-|Ne].
    + rewrite (mget_put_same N.eqb N_eqb_spec) in G. injection G as <-.
      left; apply in_map_iff; exists k; auto.
    + rewrite (mget_put_other N.eqb N_eqb_spec) in G by exact Ne. right; apply (I d' rs'); assumption.
  - unfold remove_ranges. destruct (mget N.eqb (ranges_of x) d) as [rs|] eqn:E; [|exact I].
    intros d' rs' k G K; cbn [ranges_of stripes] in *.
    destruct (N.eq_dec d d') as [<-|Ne].
    + rewrite mget_del_same in G; discriminate.
    + rewrite (mget_del_other N.eqb N_eqb_spec) in G by exact Ne.
      apply filter_In; split; [apply (I d' rs'); assumption|].
      cbn [fst snd]. destruct (N.eqb_spec d' d); [congruence | reflexivity].
Qed.

Lemma rstep_sim : forall blocks o f x, rsim f x -> rsim (rspec_step o f) (rstep blocks o x).
Proof.
  intros blocks [d rs|d] f x I; cbn [rstep rspec_step].
  - destruct rs as [|r rs]; [exact I|]. intros d'; cbn [add_ranges ranges_of].
    destruct (N.eqb_spec d' d) as [->|Ne].
    + rewrite (mget_put_same N.eqb N_eqb_spec); reflexivity.
    + rewrite (mget_put_other N.eqb N_eqb_spec) by congruence. apply I.
  - intros d'. unfold remove_ranges.
    destruct (mget N.eqb (ranges_of x) d) as [rs|] eqn:E; cbn [ranges_of].
    + destruct (N.eqb_spec d' d) as [->|Ne].
      * rewrite mget_del_same; reflexivity.
      * rewrite (mget_del_other N.eqb N_eqb_spec) by congruence. apply I.
    + destruct (N.eqb_spec d' d) as [->|Ne]; [rewrite E; reflexivity | apply I].
Qed.

Lemma rrun_inv : forall blocks os x f,
  rinv blocks x -> rsim f x ->
  rinv blocks (rrun blocks os x) /\ rsim (fold_left (fun f o => rspec_step o f) os f) (rrun blocks os x).
Proof.
  intros blocks os; induction os as [|o os IH]; intros x f I J; [split; assumption|].
  unfold rrun; cbn [fold_left]. apply IH; [apply rstep_inv | apply rstep_sim]; assumption.
Qed.

Lemma rnew_inv : forall blocks, rinv blocks rindex_new /\ rsim (fun _ => []) rindex_new.
Proof. intros blocks; split; [intros d rs k H; discriminate | intros d; reflexivity]. Qed.

Lemma collect_in : forall blocks sheet r0 c0 r1 c1 x d,
  In d (collect blocks sheet r0 c0 r1 c1 x) <->
  (exists k, In k (query_keys blocks sheet r0 c0 r1 c1) /\ In (k, d) (stripes x)) /\
  exists rs r, mget N.eqb (ranges_of x) d = Some rs /\ In r rs /\ overlaps r sheet r0 c0 r1 c1 = true.
Proof.
  intros blocks sheet r0 c0 r1 c1 x d. unfold collect; cbv zeta. fold (query_keys blocks sheet r0 c0 r1 c1).
  rewrite filter_In, nodup_In, in_flat_map. split.
  - intros [(k & Hk & Hd) P]; split.
    + rewrite in_map_iff in Hd; destruct Hd as ([k' d'] & Hd' & Hf). cbn in Hd'; subst d'.
      apply filter_In in Hf; destruct Hf as [Hi He]; cbn in He; apply skey_eqb_spec in He; subst k'.
      exists k; auto.
    + destruct (mget N.eqb (ranges_of x) d) as [rs|]; [|discriminate].
      apply existsb_exists in P; destruct P as (r & Hr & Ho); exists rs, r; auto.
  - intros [(k & Hk & Hd) (rs & r & G & Hr & Ho)]; split.
    + exists k; split; [exact Hk|]. apply in_map_iff; exists (k, d); split; [reflexivity|].
      apply filter_In; split; [exact Hd|]; apply skey_eqb_spec; reflexivity.
    + rewrite G; apply existsb_exists; exists r; auto.
Qed.

(** Exactness for every history of formulas being given ranges and losing them. *)
Theorem collect_exact : forall blocks os sheet r0 c0 r1 c1,
  (forall d r, In r (rspec os d) -> two_sided r /\ forward r) ->
  (r0 <= r1)%N -> (c0 <= c1)%N -> fits r1 -> fits c1 ->
  NoDup (collect blocks sheet r0 c0 r1 c1 (rrun blocks os rindex_new)) /\
  forall d, In d (collect blocks sheet r0 c0 r1 c1 (rrun blocks os rindex_new)) <->
    exists r row col, In r (rspec os d) /\ (r0 <= row <= r1)%N /\ (c0 <= col <= c1)%N /\ covers r sheet row col.
Proof.
  intros blocks os sheet r0 c0 r1 c1 W Hr Hc Fr Fc. split; [apply NoDup_filter, NoDup_nodup|].
  destruct (rnew_inv blocks) as [I0 J0]. destruct (rrun_inv blocks os _ _ I0 J0) as [I J].
  fold (rspec os) in J. intros d. rewrite collect_in. specialize (J d).
  split.
  - intros [_ (rs & r & G & Hi & Ho)]. rewrite G in J. subst rs.
    destruct (W d r Hi) as [_ F]. rewrite overlaps_covers in Ho by assumption.
    destruct Ho as (row & col & A & B & C); exists r, row, col; auto.
  - intros (r & row & col & Hi & A & B & C).
    destruct (W d r Hi) as [T F].
    destruct (mget N.eqb (ranges_of (rrun blocks os rindex_new)) d) as [rs|] eqn:G; [|rewrite J in Hi; destruct Hi].
    rewrite J in Hi. split.
    + destruct (covers_key blocks r sheet row col r0 c0 r1 c1 T C A B) as (k & K1 & K2).
      exists k; split; [exact K2|]. apply (I d rs k G). apply in_flat_map; exists r; auto.
    + exists rs, r; split; [reflexivity|]; split; [exact Hi|].
      apply overlaps_covers; try assumption. exists row, col; auto.
Qed.

(** Nothing is reported without reason, whatever the shape. *)
Theorem collect_sound : forall blocks os sheet row col d,
  fits row -> fits col -> (forall r, In r (rspec os d) -> forward r) ->
  In d (collect blocks sheet row col row col (rrun blocks os rindex_new)) ->
  exists r, In r (rspec os d) /\ covers r sheet row col.
Proof.
  intros blocks os sheet row col d Fr Fc W H.
  destruct (rnew_inv blocks) as [I0 J0]. destruct (rrun_inv blocks os _ _ I0 J0) as [I J].
  fold (rspec os) in J. specialize (J d). rewrite collect_in in H.
  destruct H as [_ (rs & r & G & Hi & Ho)]. rewrite G in J. subst rs.
  rewrite overlaps_covers in Ho; [|apply W; exact Hi|lia|lia|exact Fr|exact Fc].
  destruct Ho as (row' & col' & A & B & C).
  assert (row' = row) by lia; assert (col' = col) by lia; subst. exists r; auto.
Qed.

(** ** Bulk loading *)
(** The shapes the bulk loader's keys can carry. *)
Definition one_line (r : rng) : Prop :=
  (r_sr r <> None /\ r_er r <> None /\ r_sc r <> None /\ r_ec r <> None)
  \/ (r_sr r = None /\ r_er r = None /\ r_sc r <> None /\ r_sc r = r_ec r)
  \/ (r_sc r = None /\ r_ec r = None /\ r_sr r <> None /\ r_sr r = r_er r).

Lemma bulk_one : forall r, one_line r -> forward r -> range_of_key (key_of_range r) = Some r.
Proof.
  intros [s sr er sc ec] L [F1 F2]. unfold one_line, ordered in *; cbn in L, F1, F2.
  destruct L as [(A & B & C & D)|[(A & B & C & D)|(A & B & C & D)]].
  - destruct sr as [sr|], er as [er|], sc as [sc|], ec as [ec|]; try congruence.
    specialize (F1 _ _ eq_refl eq_refl); specialize (F2 _ _ eq_refl eq_refl).
    unfold key_of_range; cbn [r_sr r_er r_sc r_ec rng_sheet range_of_key]. unfold from_parts, in_order.
    apply N.leb_le in F1, F2; rewrite F1, F2; reflexivity.
  - subst; destruct ec as [c|]; [|congruence].
    unfold key_of_range; cbn [r_sr r_er r_sc r_ec rng_sheet]. rewrite N.eqb_refl; cbn [range_of_key].
    unfold from_parts, in_order; rewrite N.leb_refl; cbn [andb].
    replace (c + 1 - 1)%N with c by lia; reflexivity.
  - subst; destruct er as [c|]; [|congruence].
    unfold key_of_range; cbn [r_sr r_er r_sc r_ec rng_sheet]. rewrite N.eqb_refl; cbn [range_of_key].
    unfold from_parts, in_order; rewrite N.leb_refl; cbn [andb].
    replace (c + 1 - 1)%N with c by lia; reflexivity.
Qed.

Theorem bulk_same : forall rs, Forall (fun r => one_line r /\ forward r) rs -> bulk_ranges rs = rs.
Proof.
  intros rs H; induction H as [|r rs [L F] H IH]; [reflexivity|].
  unfold bulk_ranges; cbn [flat_map]. rewrite (bulk_one r L F). cbn [app]. f_equal; exact IH.
Qed.

(** A block of whole columns loaded in bulk is found only from the first row. *)
Theorem bulk_columns_missed : forall blocks s a b d row col,
  (a < b)%N -> (0 < row)%N ->
  ~ In d (collect blocks s row col row col
            (rrun blocks [RAdd d (bulk_ranges [Rng s None None (Some a) (Some b)])] rindex_new)).
Proof.
  intros blocks s a b d row col Hab Hrow H. rewrite collect_in in H.
  destruct H as [(k & Hk & Hd) _].
  assert (E : bulk_ranges [Rng s None None (Some a) (Some b)] = [Rng s None None None None]).
  { unfold bulk_ranges, key_of_range; cbn [flat_map r_sr r_er r_sc r_ec rng_sheet].
    destruct (N.eqb_spec a b); [lia|reflexivity]. }
  rewrite E in Hd. unfold rrun in Hd; cbn [fold_left rstep add_ranges stripes] in Hd.
  assert (K : stripes_of blocks (Rng s None None None None) = row_keys s 0 0).
  { unfold stripes_of; cbn. destruct blocks; reflexivity. }
  cbn [flat_map] in Hd. rewrite K in Hd. rewrite !app_nil_r in Hd. apply in_map_iff in Hd.
  destruct Hd as (k' & Ek & Hk'). injection Ek as <-.
  rewrite row_keys_in in Hk'. destruct Hk' as (c & -> & Hc).
  unfold query_keys in Hk. apply in_app_or in Hk; destruct Hk as [Hk|Hk].
  - rewrite col_keys_in in Hk; destruct Hk as (c' & E' & _); discriminate.
  - apply in_app_or in Hk; destruct Hk as [Hk|Hk].
    + rewrite row_keys_in in Hk; destruct Hk as (c' & E' & B); injection E' as ->; lia.
    + destruct blocks; [|destruct Hk].
      rewrite block_keys_in in Hk; destruct Hk as (br & bc & E' & _); discriminate.
Qed.
