(** Proofs about the database functions: fields, order of records and criteria, counting. *)
From Coq Require Import List Bool NArith ZArith QArith Arith Lia Permutation.
From Verif Require Import Base Maps WildModel CrModel DbModel DbSpec DbProofs.
Import ListNotations.
Close Scope Q_scope.

(** * Lists *)
Lemma filter_perm : forall A (f : A -> bool) l l', Permutation l l' -> Permutation (filter f l) (filter f l').
Proof.
  induction 1; cbn; auto; [destruct (f x); auto| |eapply perm_trans; eauto].
  destruct (f x), (f y); auto. apply perm_swap.
Qed.
Lemma flat_map_perm : forall A B (f : A -> list B) l l', Permutation l l' -> Permutation (flat_map f l) (flat_map f l').
Proof.
  induction 1; cbn; auto; [now apply Permutation_app_head| |eapply perm_trans; eauto].
  rewrite !app_assoc. apply Permutation_app_tail, Permutation_app_comm.
Qed.
Lemma filter_same : forall A (f g : A -> bool) l, (forall x, In x l -> f x = g x) -> filter f l = filter g l.
Proof. induction l as [|x l IH]; intros H; cbn; auto. rewrite (H x) by now left. rewrite IH; auto. intros y I. apply H. now right. Qed.

Lemma first_error_None : forall vs, first_error vs = None <-> forall e, ~ In (VErr e) vs.
Proof.
  induction vs as [|v vs IH]; cbn.
  - split; auto.
  - destruct v; try (rewrite IH; split; intros H e'; [intros [Q|I]; [discriminate|now apply (H e')]|intros I; apply (H e'); now right]).
    split; [discriminate|]. intros H. exfalso. apply (H e). now left.
Qed.
Lemma first_error_perm : forall vs vs', Permutation vs vs' -> first_error vs = None -> first_error vs' = None.
Proof.
  intros vs vs' P. rewrite !first_error_None. intros H e I. apply (H e). eapply Permutation_in; [apply Permutation_sym, P|exact I].
Qed.

Section Proofs.
Variable lower : text -> text.
Variable pf : text -> option num.
Variable show : num -> text.
Variable showz : Z -> text.
Notation chosen := (chosen lower pf show showz).
Notation column_of := (column_of lower).
Notation resolve_field := (resolve_field lower).
Notation selected := (selected lower pf show showz).
Notation no_error := (no_error lower).
Notation reading := (reading pf).
Notation collect := (collect pf).
Notation asks := (asks lower).
Notation parse_criteria_range := (parse_criteria_range lower pf).
Notation row_matches := (row_matches lower pf show showz).

(** * The beginning of all functions *)
Lemma width_cons : forall h (t : table), width (h :: t) = length h.
Proof. reflexivity. Qed.
Lemma no_heads : forall hs rows, forall r, selected hs [] rows r.
Proof. intros hs rows r. left. intros row _ i v (c & name & E & _). destruct c; discriminate. Qed.
Lemma range_select : forall hs (heads : record) (rows : table), 
  match parse_criteria_range (heads :: rows) hs with
  | Ok pss => no_error hs heads rows /\ forall r, row_matches r pss = true <-> selected hs heads rows r
  | Err e => exists row i, In row rows /\ asks hs heads row i (VErr e)
  | Panic => False
  end.
Proof.
  intros hs heads rows. unfold DbModel.parse_criteria_range. rewrite width_cons. cbn [length Nat.ltb Nat.leb orb hd tl].
  destruct heads as [|h heads].
  - cbn. split; [intros row i e _ (c & name & E & _); destruct c; discriminate|]. intros r. split; auto. intros _. apply no_heads.
  - cbn [length Nat.ltb Nat.leb]. pose proof (parse_rows_ok lower pf show showz hs (h :: heads) rows) as H.
    pose proof (select_ok lower pf show showz hs (h :: heads) rows) as S1.
    destruct (parse_rows pf (column_map lower hs (h :: heads)) rows) as [pss|e|]; auto. destruct H as (N & _). split; auto.
Qed.
Lemma range_ok : forall hs (heads : record) (rows : table), no_error hs heads rows ->
  exists pss, parse_criteria_range (heads :: rows) hs = Ok pss /\ forall r, row_matches r pss = true <-> selected hs heads rows r.
Proof.
  intros hs heads rows N. pose proof (range_select hs heads rows) as H. destruct (parse_criteria_range (heads :: rows) hs) as [pss|e|]; [|exfalso|contradiction].
  - destruct H as (_ & H). exists pss. auto.
  - destruct H as (row & i & I & A). now apply (N row i e).
Qed.
Lemma chosen_ok : forall (hs : record) (rs : table) f i (heads : record) (rows : table), hs <> [] -> rs <> [] -> resolve_field f hs = Ok i -> no_error hs heads rows ->
  exists sel : record -> bool, (forall r, sel r = true <-> selected hs heads rows r) /\
    chosen (hs :: rs) f (heads :: rows) = Ok (Ok (map (fun r => nth i r VEmpty) (filter sel rs))) /\
    forall rs' : table, rs' <> [] -> chosen (hs :: rs') f (heads :: rows) = Ok (Ok (map (fun r => nth i r VEmpty) (filter sel rs'))).
Proof.
  intros hs rs f i heads rows Nh Nr F NE. destruct (range_ok hs heads rows NE) as (pss & P & S1).
  assert (G : forall rs' : table, rs' <> [] -> chosen (hs :: rs') f (heads :: rows) = Ok (Ok (map (fun r => nth i r VEmpty) (filter (fun r => row_matches r pss) rs')))).
  { intros rs' N. unfold DbModel.chosen. rewrite width_cons. destruct rs' as [|r0 rs']; [contradiction|]. destruct hs as [|h0 hs]; [contradiction|].
    cbn [length Nat.ltb Nat.leb orb]. unfold headers_of. cbn [hd tl]. rewrite F. cbn [rbind]. rewrite P. reflexivity. }
  exists (fun r => row_matches r pss). auto.
Qed.
(** The same criteria give the same choice. *)
Lemma chosen_same : forall (hs : record) (rs : table) f (heads : record) (rows : table) (heads' : record) (rows' : table), no_error hs heads rows -> no_error hs heads' rows' ->
  (forall r, In r rs -> (selected hs heads rows r <-> selected hs heads' rows' r)) ->
  chosen (hs :: rs) f (heads :: rows) = chosen (hs :: rs) f (heads' :: rows').
Proof.
  intros hs rs f heads rows heads' rows' N N' S1. unfold DbModel.chosen. destruct (_ || _); auto.
  unfold headers_of. cbn [hd tl]. destruct (resolve_field f hs) as [i|e|]; auto. cbn [rbind].
  destruct (range_ok hs heads rows N) as (pss & -> & A). destruct (range_ok hs heads' rows' N') as (pss' & -> & B). cbn [rbind].
  do 3 f_equal. apply filter_same. intros r I. specialize (S1 r I). specialize (A r). specialize (B r).
  destruct (row_matches r pss), (row_matches r pss'); auto; exfalso.
  - assert (H : false = true) by (apply B, S1, A; reflexivity). discriminate.
  - assert (H : false = true) by (apply A, S1, B; reflexivity). discriminate.
Qed.

(** * Fields *)
Lemma field_name : forall name hs i, resolve_field (VText name) hs = Ok i <-> column_of hs name i.
Proof.
  intros name hs i. rewrite <- find_iff. cbn. destruct (find_header lower name 0 hs); split; intros H; inversion H; reflexivity.
Qed.
Lemma field_number : forall hs i, i < length hs -> resolve_field (VInt (Z.of_nat i + 1)) hs = Ok i.
Proof.
  intros hs i L. cbn. unfold by_number. destruct (Z.ltb_spec (Z.of_nat i + 1) 1); [lia|]. destruct (Z.ltb_spec (Z.of_nat (length hs)) (Z.of_nat i + 1)); [lia|].
  cbn. f_equal. lia.
Qed.
Lemma column_bound : forall hs name i, column_of hs name i -> i < length hs.
Proof. intros hs name i ((h & E & _) & _). apply nth_error_Some. congruence. Qed.
Lemma chosen_field : forall db crit f f', resolve_field f (headers_of db) = resolve_field f' (headers_of db) -> chosen db f crit = chosen db f' crit.
Proof. intros db crit f f' E. unfold DbModel.chosen. now rewrite E. Qed.

(** * Order *)
Lemma selected_perm : forall hs heads rows rows' r, Permutation rows rows' -> selected hs heads rows r -> selected hs heads rows' r.
Proof.
  intros hs heads rows rows' r P [S1|(row & I & A)].
  - left. intros row I. apply S1. eapply Permutation_in; [apply Permutation_sym, P|exact I].
  - right. exists row. split; auto. eapply Permutation_in; eauto.
Qed.
Lemma no_error_perm : forall hs heads rows rows', Permutation rows rows' -> no_error hs heads rows -> no_error hs heads rows'.
Proof. intros hs heads rows rows' P N row i e I. apply N. eapply Permutation_in; [apply Permutation_sym, P|exact I]. Qed.

Lemma asks_columns : forall hs cs k i v,
  asks hs (map fst cs) (map (fun c => nth k (snd c) VEmpty) cs) i v <->
  exists c name, In c cs /\ fst c = VText name /\ nth k (snd c) VEmpty = v /\ v <> VEmpty /\ column_of hs name i.
Proof.
  intros hs cs k i v. unfold DbSpec.asks. split.
  - intros (n & name & E & F & N & C). rewrite nth_error_map in E. destruct (nth_error cs n) as [c|] eqn:En; [|discriminate].
    exists c, name. split; [now apply nth_error_In in En|]. inversion E. split; auto. split; auto.
    rewrite <- F. symmetry. apply nth_error_nth. rewrite nth_error_map, En. reflexivity.
  - intros (c & name & I & E & F & N & C). apply In_nth_error in I. destruct I as (n & En). exists n, name. split; [rewrite nth_error_map, En; cbn; congruence|].
    split; auto. rewrite <- F. apply nth_error_nth. rewrite nth_error_map, En. reflexivity.
Qed.
Lemma asks_columns_perm : forall hs cs cs' k i v, Permutation cs cs' ->
  asks hs (map fst cs) (map (fun c => nth k (snd c) VEmpty) cs) i v -> asks hs (map fst cs') (map (fun c => nth k (snd c) VEmpty) cs') i v.
Proof.
  intros hs cs cs' k i v P. rewrite !asks_columns. intros (c & name & I & A). exists c, name. split; auto. eapply Permutation_in; eauto.
Qed.
Lemma columns_perm : forall hs cs cs' n r, Permutation cs cs' ->
  selected hs (map fst cs) (map (fun k => map (fun c => nth k (snd c) VEmpty) cs) (seq 0 n)) r ->
  selected hs (map fst cs') (map (fun k => map (fun c => nth k (snd c) VEmpty) cs') (seq 0 n)) r.
Proof.
  intros hs cs cs' n r P [S1|(row & I & NS & A)].
  - left. intros row I i v H. apply in_map_iff in I. destruct I as (k & <- & Ik). apply (asks_columns_perm hs cs' cs) in H; [|now apply Permutation_sym].
    apply (S1 (map (fun c => nth k (snd c) VEmpty) cs)) in H; auto. apply in_map_iff. exists k. auto.
  - right. apply in_map_iff in I. destruct I as (k & <- & Ik). exists (map (fun c => nth k (snd c) VEmpty) cs'). split; [apply in_map_iff; exists k; auto|]. split.
    + intros S1. apply NS. intros i v H. apply (asks_columns_perm hs cs cs') in H; auto. now apply S1 in H.
    + intros i v H. apply A. apply (asks_columns_perm hs cs' cs); auto. now apply Permutation_sym.
Qed.
Lemma columns_no_error : forall hs cs cs' n, Permutation cs cs' ->
  no_error hs (map fst cs) (map (fun k => map (fun c => nth k (snd c) VEmpty) cs) (seq 0 n)) ->
  no_error hs (map fst cs') (map (fun k => map (fun c => nth k (snd c) VEmpty) cs') (seq 0 n)).
Proof.
  intros hs cs cs' n P N row i e I H. apply in_map_iff in I. destruct I as (k & <- & Ik).
  apply (asks_columns_perm hs cs' cs) in H; [|now apply Permutation_sym]. apply (N (map (fun c => nth k (snd c) VEmpty) cs) i e); auto. apply in_map_iff. exists k. auto.
Qed.

(** * Numbers *)
Lemma collect_ok : forall b vs, collect b vs = or_error (first_error vs) (flat_map (reading b) vs).
Proof.
  intros b. induction vs as [|v vs IH]; [reflexivity|]. destruct v; cbn [DbModel.collect DbSpec.reading first_error flat_map app]; rewrite ?IH; auto;
    try (destruct (first_error vs); reflexivity).
  - destruct b; [destruct (first_error vs); reflexivity|reflexivity].
  - cbn [to_num]. destruct (parse_number pf t); [destruct (first_error vs); reflexivity|reflexivity].
Qed.
Lemma count_all_ok : forall vs n, count_all n vs = or_error (first_error vs) (n + length (filter (fun v => negb (is_blank v)) vs)).
Proof.
  induction vs as [|v vs IH]; intros n; cbn; [f_equal; lia|]. destruct v; cbn; rewrite ?IH; destruct (first_error vs); cbn; auto; f_equal; lia.
Qed.
Lemma reading_numeric : forall b vs, Forall numeric vs -> length (flat_map (reading b) vs) = length (filter is_number vs) /\ flat_map (reading b) vs = flat_map (reading true) vs /\ first_error vs = None.
Proof.
  intros b. induction 1 as [|v vs H F (A & B & C)]; [auto|]. destruct v; cbn in *; try contradiction; repeat split; auto; congruence.
Qed.
Lemma reading_le : forall b vs, length (flat_map (reading b) vs) <= length (filter (fun v => negb (is_blank v)) vs).
Proof.
  intros b. induction vs as [|v vs IH]; [auto|]. cbn [flat_map filter]. rewrite app_length. destruct v; cbn [DbSpec.reading is_blank negb length]; try lia.
  - destruct b; cbn [length]; lia.
  - destruct (parse_number pf t); cbn [length]; lia.
Qed.
End Proofs.

(** * Largest and smallest *)
Lemma f_max_NaN : forall a, a <> NaN -> forall b, f_max a b <> NaN.
Proof. intros [] N []; cbn; try congruence; destruct (Qle_bool _ _); congruence. Qed.
Lemma n_le_refl : forall a, a <> NaN -> n_le a a = true.
Proof. intros [] N; cbn; auto; try congruence. apply Qle_bool_iff, Qle_refl. Qed.
Lemma n_le_trans : forall a b c, n_le a b = true -> n_le b c = true -> n_le a c = true.
Proof.
  intros [x| | |] [y| | |] [z| | |]; cbn; try congruence. rewrite !Qle_bool_iff. apply Qle_trans.
Qed.
Lemma n_le_total : forall a b, a <> NaN -> b <> NaN -> n_le a b = false -> n_le b a = true.
Proof.
  intros [x| | |] [y| | |]; cbn; try congruence. intros _ _ H. apply Qle_bool_iff. destruct (Qlt_le_dec y x) as [L|L]; [now apply Qlt_le_weak|].
  apply Qle_bool_iff in L. congruence.
Qed.
Lemma max_step : forall a b, a <> NaN -> n_le a (f_max a b) = true /\ (b <> NaN -> n_le b (f_max a b) = true) /\ (f_max a b = a \/ f_max a b = b).
Proof.
  intros a b N. destruct (n_le a b) eqn:E.
  - assert (B : b <> NaN) by (intros ->; destruct a; discriminate).
    assert (F : f_max a b = b) by (destruct a, b; cbn in *; try congruence; rewrite E; reflexivity).
    rewrite F. repeat split; auto. intros _. now apply n_le_refl.
  - assert (F : f_max a b = a) by (destruct a, b; cbn in *; try congruence; rewrite E; reflexivity).
    rewrite F. repeat split; auto; [now apply n_le_refl|]. intros B. now apply n_le_total.
Qed.
Lemma min_step : forall a b, a <> NaN -> f_min a b <> NaN /\ n_le (f_min a b) a = true /\ (b <> NaN -> n_le (f_min a b) b = true) /\ (f_min a b = a \/ f_min a b = b).
Proof.
  intros a b N. destruct (n_le a b) eqn:E.
  - assert (F : f_min a b = a) by (destruct a, b; cbn in *; try congruence; rewrite E; reflexivity).
    rewrite F. repeat split; auto. now apply n_le_refl.
  - assert (D : b = NaN \/ b <> NaN) by (destruct b; auto; right; discriminate). destruct D as [->|D].
    + assert (F : f_min a NaN = a) by (destruct a; cbn in *; congruence). rewrite F. repeat split; auto; try congruence; now apply n_le_refl.
    + assert (F : f_min a b = b) by (destruct a, b; cbn in *; try congruence; rewrite E; reflexivity). rewrite F.
      split; auto. split; [now apply n_le_total|]. split; auto. intros _. now apply n_le_refl.
Qed.
Lemma max_fold : forall ns a, a <> NaN ->
  let m := fold_left f_max ns a in
  m <> NaN /\ n_le a m = true /\ (forall n, In n ns -> n <> NaN -> n_le n m = true) /\ (m = a \/ In m ns).
Proof.
  induction ns as [|n ns IH]; intros a N; cbn [fold_left].
  - repeat split; auto; [now apply n_le_refl|..]; intros n [].
  - destruct (max_step a n N) as (A & B & C). destruct (IH (f_max a n) (f_max_NaN a N n)) as (D & E & F & G). repeat split; auto.
    + eapply n_le_trans; eauto.
    + intros x [<-|I] Nx; auto. eapply n_le_trans; [now apply B|exact E].
    + destruct G as [->|G]; [|right; now right]. destruct C as [->| ->]; [now left|right; now left].
Qed.
Lemma min_fold : forall ns a, a <> NaN ->
  let m := fold_left f_min ns a in
  m <> NaN /\ n_le m a = true /\ (forall n, In n ns -> n <> NaN -> n_le m n = true) /\ (m = a \/ In m ns).
Proof.
  induction ns as [|n ns IH]; intros a N; cbn [fold_left].
  - repeat split; auto; [now apply n_le_refl|..]; intros n [].
  - destruct (min_step a n N) as (Z1 & A & B & C). destruct (IH (f_min a n) Z1) as (D & E & F & G). repeat split; auto.
    + eapply n_le_trans; eauto.
    + intros x [<-|I] Nx; auto. eapply n_le_trans; [exact E|now apply B].
    + destruct G as [->|G]; [|right; now right]. destruct C as [->| ->]; [now left|right; now left].
Qed.
(** Started from the infinities, the result is one of the numbers. *)
Lemma max_of : forall ns n, In n ns -> n <> NaN -> let m := fold_left f_max ns NInf in In m ns /\ m <> NaN /\ forall x, In x ns -> x <> NaN -> n_le x m = true.
Proof.
  intros ns n I N. destruct (max_fold ns NInf) as (A & B & C & D); [discriminate|]. repeat split; auto.
  destruct D as [D|D]; auto. pose proof (C n I N) as E. rewrite D in E. destruct n; try discriminate; congruence.
Qed.
Lemma min_of : forall ns n, In n ns -> n <> NaN -> let m := fold_left f_min ns PInf in In m ns /\ m <> NaN /\ forall x, In x ns -> x <> NaN -> n_le m x = true.
Proof.
  intros ns n I N. destruct (min_fold ns PInf) as (A & B & C & D); [discriminate|]. repeat split; auto.
  destruct D as [D|D]; auto. pose proof (C n I N) as E. rewrite D in E. destruct n; try discriminate; congruence.
Qed.
