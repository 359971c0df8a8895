(** TOCOL, TOROW, CHOOSEROWS, CHOOSECOLS and SEQUENCE. *)
From Coq Require Import QArith Qabs Permutation Sorted ZifyNat ZifyBool Lqa.
From Verif Require Import Base Maps LookupModel LookupSpec AyModel AySpec AyProofs1 AyProofs2 AyProofs3 AyProofs4 AyProofs5.
Close Scope Q_scope.

(** ** TOCOL and TOROW *)
Lemma include_spec : forall mode v, (0 <= mode <= 3)%Z -> (include_cell mode v = true <-> ~ left_out mode v).
Proof.
  intros mode v H. assert (M : (mode = 0 \/ mode = 1 \/ mode = 2 \/ mode = 3)%Z) by lia. unfold left_out.
  destruct M as [->|[->|[->| ->]]]; destruct v; cbn; split; intros X; try reflexivity; try discriminate;
    try (intros [[[A|A] B]|[[A|A] [? B]]]; (discriminate || (exfalso; congruence) || lia)); exfalso; apply X; 
    first [left; split; [lia|reflexivity]|right; split; [lia|eauto]].
Qed.
Lemma include_stored : forall mode v, include_cell mode (stored v) = include_cell mode v.
Proof. intros mode []; reflexivity. Qed.

Lemma flat_map_filter : forall A B (f : B -> bool) (g : A -> list B) l,
  flat_map (fun x => filter f (g x)) l = filter f (flat_map g l).
Proof. intros. induction l as [|x l IH]; cbn; auto. now rewrite filter_app, IH. Qed.
Lemma flat_map_concat : forall A B (g : A -> list B) l, flat_map g l = concat (map g l).
Proof. intros. induction l as [|x l IH]; cbn; congruence. Qed.

Lemma flat_eq : forall n m t f (by_col : bool), rect n m t -> t <> [] ->
  (if by_col
   then flat_map (fun c => filter f (map (fun row => nth c row LEmpty) t)) (seq 0 m)
   else flat_map (fun row => filter f (map (fun c => nth c row LEmpty) (seq 0 m))) t) =
  filter f (reading by_col t).
Proof.
  intros n m t f by_col [L W] NE. assert (Hd : length (hd [] t) = m) by (destruct t; [congruence|]; apply W; now left).
  destruct by_col; unfold reading; rewrite flat_map_filter, flat_map_concat; f_equal; f_equal.
  - rewrite Hd. unfold flip. apply map_ext. intros c. apply list_ext with (d := LEmpty).
    + now rewrite !map_length, seq_length.
    + intros i Hi. rewrite map_length in Hi. rewrite nth_map_seq by auto. unfold cell.
      now rewrite nth_map' with (d' := []) by auto.
  - rewrite <- (map_id t) at 2. apply map_ext_in. intros row Hr. rewrite <- (W row Hr). apply map_nth_seq.
Qed.

(** The table of an argument before it is stored. *)
Definition raw (a : calc) : table := match a with Range w => rows_of w | Scalar v => [[v]] end.
Lemma raw_stored : forall a, map (map stored) (raw a) = cells a.
Proof. intros [v|w]; cbn; auto. apply map_stored, plain_rows_of. Qed.

Lemma raw_rect : forall a, solid a = true -> exists n m, rect n m (raw a) /\ 0 < n.
Proof.
  intros [v|w] S; cbn in *.
  - exists 1, 1. split; [|lia]. split; auto. intros row [<-|[]]. reflexivity.
  - apply negb_true_iff, nonempty in S. exists (v_rows w), (v_cols w). split; [apply rows_of_rect|tauto].
Qed.

Lemma filter_stored : forall mode l, filter (include_cell mode) (map stored l) = map stored (filter (include_cell mode) l).
Proof.
  intros. rewrite map_filter. f_equal. apply filter_ext. intros. apply include_stored.
Qed.
Lemma reading_stored : forall n m by_col t, rect n m t -> reading by_col (map (map stored) t) = map stored (reading by_col t).
Proof.
  intros n m by_col t R. unfold reading. destruct by_col; [|now rewrite concat_map].
  rewrite map_length.
  assert (H : length (hd [] (map (map stored) t)) = length (hd [] t)) by (destruct t; cbn; auto; now rewrite map_length).
  rewrite H, concat_map. f_equal. unfold flip. rewrite map_map. apply map_ext. intros c. rewrite map_map. apply map_ext.
  intros r. unfold cell. change (@nil lval) with (map stored []) at 1. rewrite map_nth.
  change LEmpty with (stored LEmpty) at 1. now rewrite map_nth.
Qed.

Lemma flatten_eq : forall a mode bc, solid a = true -> (0 <= mode <= 3)%Z ->
  flatten_array a mode bc =
  match filter (include_cell mode) (reading bc (raw a)) with [] => Err K_CALC | l => Ok l end.
Proof.
  intros a mode bc S M. unfold flatten_array. destruct (negb _) eqn:X; [lia|]. fold (raw a).
  destruct (raw_rect a S) as (n & m & R & Hn). assert (NE : raw a <> []) by (destruct R as [L _]; intros E; rewrite E in L; cbn in L; lia).
  rewrite (max_len m) by (auto; apply R). cbv zeta. rewrite (flat_eq n m) by auto. change (match a with Range w => rows_of w | Scalar v => [[v]] end) with (raw a). destruct (filter (include_cell mode) (reading bc (raw a))); reflexivity.
Qed.

Lemma vector_shows : forall l, l <> [] -> shows (Ok (collapse_if_scalar (map (fun v => [v]) l))) (map (fun v => [v]) (map stored l)) /\
  shows (Ok (collapse_if_scalar [l])) [map stored l].
Proof.
  intros l NE. assert (0 < length l) by (destruct l; [congruence|cbn; lia]). split; eexists; split; try reflexivity.
  - rewrite (cells_collapse (length l) 1); try lia; [now rewrite !map_map|]. split; [now rewrite map_length|].
    intros row H1. apply in_map_iff in H1. destruct H1 as (v & <- & _). reflexivity.
  - rewrite (cells_collapse 1 (length l)); auto; try lia. split; auto. intros row [<-|[]]. reflexivity.
Qed.

Lemma tocol_ok : forall a mode bc, solid a = true -> (0 <= mode <= 3)%Z ->
  let l := filter (include_cell mode) (reading bc (cells a)) in
  (l = [] -> is_error (f_tocol a mode bc) K_CALC /\ is_error (f_torow a mode bc) K_CALC) /\
  (l <> [] -> shows (f_tocol a mode bc) (map (fun v => [v]) l) /\ shows (f_torow a mode bc) [l]).
Proof.
  intros a mode bc S M. cbv zeta.
  destruct (raw_rect a S) as (n & m & R & _). rewrite <- raw_stored, (reading_stored n m), filter_stored by auto.
  unfold f_tocol, f_torow. rewrite flatten_eq by auto.
  destruct (filter (include_cell mode) (reading bc (raw a))) as [|x l].
  - cbn. split; [intros _; split; reflexivity|congruence].
  - split; [discriminate|]. intros _. apply (vector_shows (x :: l)). discriminate.
Qed.
Lemma tocol_mode : forall a mode bc, ~ (0 <= mode <= 3)%Z -> is_error (f_tocol a mode bc) K_VALUE /\ is_error (f_torow a mode bc) K_VALUE.
Proof.
  intros a mode bc M. unfold f_tocol, f_torow, flatten_array. destruct (negb _) eqn:X; [split; reflexivity|lia].
Qed.

(** ** CHOOSEROWS and CHOOSECOLS *)
Lemma names_adj : forall n raw, let adj := (if 0 <? raw then raw - 1 else Z.of_nat n + raw)%Z in
  (raw <> 0 -> 0 <= adj < Z.of_nat n -> names n raw (Z.to_nat adj))%Z.
Proof. intros n raw. cbv zeta. unfold names. destruct (0 <? raw)%Z eqn:E; lia. Qed.
Lemma pick_ok : forall n args idx, Forall2 (picks n) args idx -> pick n args = Ok idx.
Proof.
  intros n args idx H. induction H as [|v i args idx [Nv Hv] H IH]; auto. cbn [pick].
  set (raw0 := int_arg 0 (Some v)) in *.
  assert (X : (if (raw0 =? 0)%Z then Err K_VALUE
          else if (((if 0 <? raw0 then raw0 - 1 else Z.of_nat n + raw0) <? 0) || (Z.of_nat n <=? (if 0 <? raw0 then raw0 - 1 else Z.of_nat n + raw0)))%Z
               then Err K_VALUE
               else rbind (pick n args) (fun l => Ok (Z.to_nat (if (0 <? raw0)%Z then raw0 - 1 else Z.of_nat n + raw0)%Z :: l))) = Ok (i :: idx)).
  { unfold names in Hv. destruct (raw0 =? 0)%Z eqn:E; [lia|]. destruct (0 <? raw0)%Z eqn:F.
    - destruct (_ || _)%bool eqn:G; [lia|]. rewrite IH. cbn [rbind]. do 2 f_equal. clearbody raw0. lia.
    - destruct (_ || _)%bool eqn:G; [lia|]. rewrite IH. cbn [rbind]. do 2 f_equal. clearbody raw0. lia. }
  destruct Nv as [(z & ->)|(x & ->)]; exact X.
Qed.
Lemma pick_bad : forall n pre idx v rest, Forall2 (picks n) pre idx -> (forall i, ~ picks n v i) -> 
  pick n (pre ++ v :: rest) = Err (match v with LErr e => e | _ => K_VALUE end).
Proof.
  intros n pre idx v rest H Bad. induction H as [|u i pre idx [Nv Hv] H IH]; cbn [app pick].
  - set (raw0 := int_arg 0 (Some v)) in *.
    assert (X : number v -> (if (raw0 =? 0)%Z then Err K_VALUE
          else if (((if 0 <? raw0 then raw0 - 1 else Z.of_nat n + raw0) <? 0) || (Z.of_nat n <=? (if 0 <? raw0 then raw0 - 1 else Z.of_nat n + raw0)))%Z
               then Err K_VALUE
               else rbind (pick n rest) (fun l => Ok (Z.to_nat (if (0 <? raw0)%Z then raw0 - 1 else Z.of_nat n + raw0)%Z :: l))) = Err K_VALUE).
    { intros Nv. destruct (raw0 =? 0)%Z eqn:E; auto.
      set (adj := (if 0 <? raw0 then raw0 - 1 else Z.of_nat n + raw0)%Z).
      destruct ((adj <? 0) || (Z.of_nat n <=? adj))%Z eqn:G; auto. exfalso. apply (Bad (Z.to_nat adj)). split; auto.
      pose proof (names_adj n raw0) as Q. cbv zeta in Q. fold adj in Q. apply Q; clear -E G; clearbody adj raw0; lia. }
    unfold number in X. destruct v; auto; apply X; eauto.
  - set (raw0 := int_arg 0 (Some u)) in *.
    assert (X : (if (raw0 =? 0)%Z then Err K_VALUE
          else if (((if 0 <? raw0 then raw0 - 1 else Z.of_nat n + raw0) <? 0) || (Z.of_nat n <=? (if 0 <? raw0 then raw0 - 1 else Z.of_nat n + raw0)))%Z
               then Err K_VALUE
               else rbind (pick n (pre ++ v :: rest)) (fun l => Ok (Z.to_nat (if (0 <? raw0)%Z then raw0 - 1 else Z.of_nat n + raw0)%Z :: l))) = Err (match v with LErr e => e | _ => K_VALUE end)).
    { unfold names in Hv. destruct (raw0 =? 0)%Z eqn:E; [lia|]. destruct (0 <? raw0)%Z eqn:F;
      (destruct (_ || _)%bool eqn:G; [lia|]; rewrite IH; reflexivity). }
    destruct Nv as [(z & ->)|(x & ->)]; exact X.
Qed.
Lemma picks_bound : forall n args idx i, Forall2 (picks n) args idx -> In i idx -> i < n.
Proof. intros n args idx i H. induction H as [|v j args idx [_ P] H IH]; intros Hi; [destruct Hi|]. destruct Hi as [<-|Hi]; auto. apply P. Qed.
Lemma picks_length : forall n args idx, Forall2 (picks n) args idx -> length idx = length args.
Proof. intros n args idx H. induction H; cbn; auto. Qed.

Lemma chooserows_ok : forall w args idx, is_empty w = false -> args <> [] -> Forall2 (picks (v_rows w)) args idx ->
  shows (f_chooserows w args) (reordered (rows_of w) idx).
Proof.
  intros w args idx E NE H. unfold f_chooserows. destruct args as [|a args]; [congruence|]. fold (is_empty w). rewrite E.
  rewrite (pick_ok _ _ _ H). apply nonempty in E.
  pose proof (fun i => picks_bound _ _ _ i H) as B. pose proof (picks_length _ _ _ H) as L.
  replace (map (row_of w) idx) with (reordered (rows_of w) idx).
  2:{ unfold reordered. apply map_ext_in. intros i Hi. now rewrite nth_rows_of by auto. }
  apply (shows_collapse (length idx) (v_cols w)); try tauto.
  - eapply reordered_rect'; eauto. apply rows_of_rect.
  - eapply plain_incl; [apply plain_rows_of|]. eapply reordered_in; eauto. apply rows_of_rect.
  - cbn in L. lia.
Qed.
Lemma choosecols_ok : forall w args idx, is_empty w = false -> args <> [] -> Forall2 (picks (v_cols w)) args idx ->
  shows (f_choosecols w args) (map (fun row => map (fun i => nth i row LEmpty) idx) (rows_of w)).
Proof.
  intros w args idx E NE H. unfold f_choosecols. destruct args as [|a args]; [congruence|]. fold (is_empty w). rewrite E.
  rewrite (pick_ok _ _ _ H). apply nonempty in E.
  pose proof (picks_length _ _ _ H) as L.
  replace (map (fun r => map (get_cell w r) idx) (seq 0 (v_rows w))) with (map (fun row => map (fun i => nth i row LEmpty) idx) (rows_of w)).
  2:{ unfold rows_of. rewrite map_map. apply map_ext. intros r. apply map_ext. intros c. apply nth_row_of. }
  apply (shows_collapse (v_rows w) (length idx)); try tauto.
  - split; [now rewrite map_length, rows_of_length|]. intros row Hr. apply in_map_iff in Hr. destruct Hr as (x & <- & _). now rewrite map_length.
  - apply plain_of. intros row v Hr Hv. apply in_map_iff in Hr. destruct Hr as (x & <- & Hx).
    apply in_map_iff in Hv. destruct Hv as (i & <- & _). unfold rows_of in Hx. apply in_map_iff in Hx. destruct Hx as (r & <- & _).
    exists w, r, i. apply nth_row_of.
  - cbn in L. lia.
Qed.
Lemma choose_bad : forall w pre idx v rest, is_empty w = false ->
  (Forall2 (picks (v_rows w)) pre idx -> (forall i, ~ picks (v_rows w) v i) ->
   is_error (f_chooserows w (pre ++ v :: rest)) (match v with LErr e => e | _ => K_VALUE end)) /\
  (Forall2 (picks (v_cols w)) pre idx -> (forall i, ~ picks (v_cols w) v i) ->
   is_error (f_choosecols w (pre ++ v :: rest)) (match v with LErr e => e | _ => K_VALUE end)).
Proof.
  intros w pre idx v rest E. unfold f_chooserows, f_choosecols, is_error. fold (is_empty w). rewrite E.
  split; intros H Bad; rewrite (pick_bad _ _ _ _ rest H Bad); destruct pre; reflexivity.
Qed.

(** ** SEQUENCE *)
Lemma inject_Z_plus' : forall n, (inject_Z (Z.of_nat (S n)) == inject_Z (Z.of_nat n) + 1)%Q.
Proof. intros. rewrite Nat2Z.inj_succ. unfold Z.succ. rewrite inject_Z_plus. reflexivity. Qed.
Lemma seq_row_spec : forall n cur step, length (fst (seq_row n cur step)) = n /\
  (snd (seq_row n cur step) == cur + inject_Z (Z.of_nat n) * step)%Q /\
  forall j, j < n -> exists q, (q == cur + inject_Z (Z.of_nat j) * step)%Q /\ nth j (fst (seq_row n cur step)) LEmpty = seq_value q.
Proof.
  induction n as [|n IH]; intros cur step; cbn [seq_row].
  - cbn. split; auto. split; [ring|]. intros. lia.
  - destruct (IH (cur + step)%Q step) as (L & S & V). destruct (seq_row n (cur + step)%Q step) as [l q]. cbn in *.
    split; [lia|]. split.
    + rewrite S. rewrite (inject_Z_plus' n). ring.
    + intros [|j] Hj.
      * exists cur. split; [cbn; ring|reflexivity].
      * destruct (V j ltac:(lia)) as (p & Ep & Np). exists p. split; auto. rewrite Ep, (inject_Z_plus' j). ring.
Qed.

Lemma seq_rows_spec : forall m n cur step, rect m n (seq_rows m n cur step) /\
  forall i j, i < m -> j < n -> exists q,
    (q == cur + inject_Z (Z.of_nat (i * n + j)) * step)%Q /\ cell (seq_rows m n cur step) i j = seq_value q.
Proof.
  induction m as [|m IH]; intros n cur step; cbn [seq_rows].
  - split; [split; auto; intros row []|]. intros. lia.
  - destruct (seq_row_spec n cur step) as (L & Sq & V). destruct (seq_row n cur step) as [l q]. cbn in L, Sq, V.
    destruct (IH n q step) as ([L' W'] & C). split.
    + split; cbn; [lia|]. intros row [<-|H]; auto.
    + intros [|i] j Hi Hj.
      * destruct (V j Hj) as (p & Ep & Np). exists p. auto.
      * destruct (C i j ltac:(lia) Hj) as (p & Ep & Np). exists p. split; [|exact Np].
        rewrite Ep, Sq. replace (S i * n + j) with (n + (i * n + j)) by lia.
        rewrite (Nat2Z.inj_add n), inject_Z_plus. ring.
Qed.

Lemma seq_value_near : forall q, exists x, numv (stored (seq_value q)) = Some x /\ (Qabs (q - x) < TOL)%Q.
Proof.
  intros q. assert (Z : (Qabs (q - q) < TOL)%Q) by (setoid_replace (q - q)%Q with 0%Q by ring; reflexivity).
  unfold seq_value. cbv zeta. set (t := Z.quot (Qnum q) (Zpos (Qden q))).
  destruct (negb (Qle_bool TOL (Qabs (q - inject_Z t)))) eqn:E; cbn [andb].
  - apply negb_true_iff in E. assert (L : (Qabs (q - inject_Z t) < TOL)%Q).
    { apply Qnot_le_lt. intros X. apply Qle_bool_iff in X. congruence. }
    destruct (negb _).
    + exists (inject_Z t). split; [reflexivity|exact L].
    + exists q. split; [reflexivity|exact Z].
  - exists q. split; [reflexivity|exact Z].
Qed.
Lemma quot_near : forall q z, (q == inject_Z z)%Q -> Z.quot (Qnum q) (Zpos (Qden q)) = z.
Proof.
  intros [a b] z H. unfold Qeq in H. cbn in *. rewrite Z.mul_1_r in H. subst a. apply Z.quot_mul. lia.
Qed.
Lemma seq_value_exact : forall q, (exists z, q == inject_Z z)%Q \/ (TOL <= Qabs (q - inject_Z (Z.quot (Qnum q) (Zpos (Qden q)))))%Q ->
  exists x, numv (stored (seq_value q)) = Some x /\ (x == q)%Q.
Proof.
  intros q H. unfold seq_value. cbv zeta. destruct H as [(z & H)|H].
  - rewrite (quot_near q z H). destruct (_ && _); cbn; eexists; split; eauto; [now symmetry|reflexivity].
  - apply Qle_bool_iff in H. rewrite H. cbn. eexists. split; eauto. reflexivity.
Qed.

Lemma sequence_eq : forall r c s d, (0 < as_i64 r)%Z ->
  forall c' s' d', num_opt (Fin 1%Q) c = Some c' -> num_opt (Fin 1%Q) s = Some (Fin s') -> num_opt (Fin 1%Q) d = Some (Fin d') ->
  (0 < as_i64 c')%Z ->
  forall v, num_arg v = Some r ->
  f_sequence v c s d =
  if generated_array_too_large (as_i64 r) (as_i64 c') then fail K_NUM
  else Ok (collapse_if_scalar (seq_rows (Z.to_nat (as_i64 r)) (Z.to_nat (as_i64 c')) s' d')).
Proof.
  intros r c s d Hr c' s' d' Ec Es Ed Hc v Ev. unfold f_sequence. rewrite Ev, Ec, Es, Ed. cbv zeta.
  destruct ((as_i64 r <=? 0) || (as_i64 c' <=? 0))%Z eqn:E; [lia|]. reflexivity.
Qed.

Lemma quot_bounds : forall a b, (0 < b)%Z ->
  ((0 <= a -> a ÷ b * b <= a < (a ÷ b + 1) * b) /\ (a <= 0 -> (a ÷ b - 1) * b < a <= a ÷ b * b))%Z.
Proof.
  assert (P : forall a b, (0 < b -> 0 <= a -> a ÷ b * b <= a < (a ÷ b + 1) * b)%Z).
  { intros a b Hb Ha. pose proof (Z.quot_rem a b ltac:(lia)) as Q. pose proof (Z.rem_bound_pos a b Ha Hb) as B.
    rewrite Z.mul_add_distr_r, Z.mul_1_l, (Z.mul_comm (a ÷ b) b). lia. }
  intros a b Hb. split; [now apply P|]. intros Ha. pose proof (P (- a)%Z b Hb ltac:(lia)) as H.
  rewrite Z.quot_opp_l in H by lia. lia.
Qed.
Lemma as_i64_pos : forall a b, (0 <= a -> a < I64_MAX * Zpos b -> as_i64 (Fin (a # b)) = a ÷ Zpos b)%Z.
Proof.
  intros a b H1 H2. cbn [as_i64 Qnum Qden]. destruct (quot_bounds a (Zpos b) ltac:(lia)) as [Q _]. specialize (Q H1).
  set (t := (a ÷ Zpos b)%Z) in *. assert (t < I64_MAX)%Z by (apply Z.mul_lt_mono_pos_r with (p := Zpos b); lia).
  assert (-1 < t)%Z by (apply Z.mul_lt_mono_pos_r with (p := Zpos b); lia). unfold I64_MIN, I64_MAX in *. lia.
Qed.
Lemma as_i64_neg : forall a b, (a <= 0 -> I64_MIN * Zpos b < a -> as_i64 (Fin (a # b)) = a ÷ Zpos b)%Z.
Proof.
  intros a b H1 H2. cbn [as_i64 Qnum Qden]. destruct (quot_bounds a (Zpos b) ltac:(lia)) as [_ Q]. specialize (Q H1).
  set (t := (a ÷ Zpos b)%Z) in *. assert (I64_MIN < t)%Z by (apply Z.mul_lt_mono_pos_r with (p := Zpos b); lia).
  assert (t < 1)%Z by (apply Z.mul_lt_mono_pos_r with (p := Zpos b); lia). unfold I64_MIN, I64_MAX in *. lia.
Qed.
