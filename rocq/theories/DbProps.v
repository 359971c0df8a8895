(** Database functions (C191-C195). *)
From Coq Require Import String List Bool NArith ZArith QArith Arith Lia Permutation.
From Verif Require Import Base Maps WildModel CrModel DbModel DbSpec DbProofs DbProofs2.
Import ListNotations.
Close Scope Q_scope.
Open Scope list_scope.

(** ** C191: the records that meet all criteria of some row *)
Theorem C191_selection : forall lower pf show showz (hs : record) (rs : table) f i (heads : record) (rows : table),
  hs <> [] -> rs <> [] -> resolve_field lower f hs = Ok i -> no_error lower hs heads rows ->
  exists sel, (forall r, sel r = true <-> selected lower pf show showz hs heads rows r) /\
    chosen lower pf show showz (hs :: rs) f (heads :: rows) = Ok (Ok (map (fun r => nth i r VEmpty) (filter sel rs))).
Proof.
  intros lower pf show showz hs rs f i heads rows A B C D. destruct (chosen_ok lower pf show showz hs rs f i heads rows A B C D) as (sel & S1 & E & _).
  exists sel. auto.
Qed.
Theorem C191_wanted_partial : forall lower pf show showz (hs : record) (rs : table) f i (heads : record) (rows : table),
  hs <> [] -> rs <> [] -> resolve_field lower f hs = Ok i -> no_error lower hs heads rows ->
  (forall row, In row rows -> ~ silent lower hs heads row) \/ (forall row, In row rows -> silent lower hs heads row) ->
  exists sel, (forall r, sel r = true <-> wanted lower pf show showz hs heads rows r) /\
    chosen lower pf show showz (hs :: rs) f (heads :: rows) = Ok (Ok (map (fun r => nth i r VEmpty) (filter sel rs))).
Proof.
  intros lower pf show showz hs rs f i heads rows A B C D W. destruct (chosen_ok lower pf show showz hs rs f i heads rows A B C D) as (sel & S1 & E & _).
  exists sel. split; auto. intros r. rewrite S1. now apply wanted_selected.
Qed.
(** A blank row of criteria beside another asks nothing, so every record is wanted; but it
    is left out. *)
Theorem C191_blank_row_refuted : forall lower pf show showz,
  let hs := [VText (tx "a"%string)] in let rs := [[VInt 1]; [VInt 2]] in let rows := [[VInt 1]; [VEmpty]] in
  (forall r, wanted lower pf show showz hs hs rows r) /\
  chosen lower pf show showz (hs :: rs) (VInt 1) (hs :: rows) = Ok (Ok [VInt 1]) /\
  chosen lower pf show showz (hs :: rs) (VInt 1) (hs :: [[VEmpty]]) = Ok (Ok [VInt 1; VInt 2]).
Proof.
  intros lower pf show showz hs rs rows.
  assert (E : forall t, text_eqb (lower t) (lower t) = true) by (intros t; now apply text_eqb_spec).
  split; [|split].
  - intros r. right. exists [VEmpty]. split; [right; now left|]. intros i v (c & name & _ & F & N & _). exfalso. apply N. rewrite <- F. destruct c as [|[|c]]; reflexivity.
  - unfold chosen, hs, rs, rows. cbn -[text_eqb]. rewrite E. reflexivity.
  - unfold chosen, hs, rs. cbn -[text_eqb]. rewrite ?E. reflexivity.
Qed.
(** Criteria below a heading that is a number are left out, though the database has it. *)
Theorem C191_number_heading_refuted : forall lower pf show showz,
  let hs := [VInt 2020] in
  chosen lower pf show showz (hs :: [[VInt 1]; [VInt 2]]) (VInt 1) (hs :: [[VInt 1]]) = Ok (Ok [VInt 1; VInt 2]).
Proof. reflexivity. Qed.
Theorem C191_failures : forall lower pf show showz (db : table) f (heads : record) (rows : table),
  ((length db < 2 \/ width db < 1) -> chosen lower pf show showz db f (heads :: rows) = Ok (Err K_VALUE)) /\
  (2 <= length db -> 1 <= width db -> forall i, resolve_field lower f (headers_of db) = Ok i -> ~ no_error lower (headers_of db) heads rows ->
     exists e row j, chosen lower pf show showz db f (heads :: rows) = Err e /\ In row rows /\ asks lower (headers_of db) heads row j (VErr e)).
Proof.
  intros lower pf show showz db f heads rows. split.
  - intros H. unfold chosen. destruct (Nat.ltb_spec (length db) 2); [reflexivity|]. destruct (Nat.ltb_spec (width db) 1); [reflexivity|lia].
  - intros L W i F NE. unfold chosen. destruct (Nat.ltb_spec (length db) 2); [lia|]. destruct (Nat.ltb_spec (width db) 1); [lia|]. cbn [orb].
    rewrite F. cbn [rbind]. pose proof (range_select lower pf show showz (headers_of db) heads rows) as R.
    destruct (parse_criteria_range lower pf (heads :: rows) (headers_of db)) as [pss|e|]; [|exists e|contradiction].
    + destruct R as (N & _). contradiction.
    + destruct R as (row & j & I & A). exists row, j. auto.
Qed.
Example C191_ex : forall lower, let hs := [VText (tx "a"%string); VText (tx "b"%string)] in
  resolve_field lower (VInt 2) hs = Ok 1 /\ no_error lower hs [VText (tx "b"%string)] [[VText (tx ">5"%string)]] /\
  (lower (tx "a"%string) <> lower (tx "b"%string) -> ~ silent lower hs [VText (tx "b"%string)] [VText (tx ">5"%string)]).
Proof.
  intros lower hs. split; [reflexivity|]. split.
  - intros row i e [<-|[]] (c & name & _ & F & _). destruct c as [|[|c]]; cbn in F; discriminate.
  - intros D S1. apply (S1 1 (VText (tx ">5"%string))). exists 0, (tx "b"%string). repeat split; auto; try discriminate.
    + exists (tx "b"%string). auto.
    + intros j h L H. destruct j as [|j]; [|lia]. cbn in H. inversion H; subst. exact D.
Qed.

(** ** C192: the order of records, of criteria and of their columns does not matter *)
Theorem C192_records : forall lower pf show showz (hs : record) (rs rs' : table) f (heads : record) (rows : table) vs, Permutation rs rs' ->
  chosen lower pf show showz (hs :: rs) f (heads :: rows) = Ok (Ok vs) ->
  exists vs', chosen lower pf show showz (hs :: rs') f (heads :: rows) = Ok (Ok vs') /\ Permutation vs vs'.
Proof.
  intros lower pf show showz hs rs rs' f heads rows vs P H. unfold chosen in *. cbn [length] in *. rewrite <- (Permutation_length P). rewrite !width_cons in *.
  destruct (_ || _); [discriminate|]. unfold headers_of in *. cbn [hd tl] in *. destruct (resolve_field lower f hs) as [i|e|]; try discriminate. cbn [rbind] in *.
  destruct (parse_criteria_range lower pf (heads :: rows) hs) as [pss|e|]; try discriminate. cbn [rbind] in *. inversion H; subst.
  eexists. split; [reflexivity|]. now apply Permutation_map, filter_perm.
Qed.
Theorem C192_counts : forall lower pf show showz sum product divide (hs : record) (rs rs' : table) f (heads : record) (rows : table) vs, Permutation rs rs' ->
  chosen lower pf show showz (hs :: rs) f (heads :: rows) = Ok (Ok vs) -> first_error vs = None ->
  d_function lower pf show showz sum product divide DCount (hs :: rs) f (heads :: rows) = d_function lower pf show showz sum product divide DCount (hs :: rs') f (heads :: rows) /\
  dcounta lower pf show showz (hs :: rs) f (heads :: rows) = dcounta lower pf show showz (hs :: rs') f (heads :: rows) /\
  dget lower pf show showz (hs :: rs) f (heads :: rows) = dget lower pf show showz (hs :: rs') f (heads :: rows) /\
  ((forall l l', Permutation l l' -> sum l = sum l' /\ product l = product l') -> forall a, In a [DSum; DAverage; DProduct] ->
   d_function lower pf show showz sum product divide a (hs :: rs) f (heads :: rows) = d_function lower pf show showz sum product divide a (hs :: rs') f (heads :: rows)).
Proof.
  intros lower pf show showz sum product divide hs rs rs' f heads rows vs P H E.
  destruct (C192_records lower pf show showz hs rs rs' f heads rows vs P H) as (vs' & H' & Q). pose proof (first_error_perm vs vs' Q E) as E'.
  unfold d_function, dcounta, dget. rewrite H, H'. unfold then_. cbn [rbind]. rewrite !collect_ok, !count_all_ok, E, E'. cbn [or_error rbind].
  pose proof (fun b => Permutation_length (flat_map_perm _ _ (reading pf b) vs vs' Q)) as L.
  pose proof (filter_perm _ (fun v => negb (is_blank v)) vs vs' Q) as F.
  split; [|split; [|split]].
  - cbn [aggregate]. now rewrite (L (negb (is_count DCount))).
  - now rewrite (Permutation_length F).
  - unfold get_one. destruct (filter (fun v => negb (is_blank v)) vs) as [|x [|y l]].
    + apply Permutation_nil in F. now rewrite F.
    + apply Permutation_length_1_inv in F. now rewrite F.
    + destruct (filter (fun v => negb (is_blank v)) vs') as [|x' [|y' l']]; [apply Permutation_sym, Permutation_nil in F; discriminate| |reflexivity].
      apply Permutation_length in F. discriminate.
  - intros SP a I.
    assert (A : forall b, In b [DSum; DAverage; DProduct] -> aggregate sum product divide b (flat_map (reading pf true) vs) = aggregate sum product divide b (flat_map (reading pf true) vs')).
    { intros b Ib. pose proof (flat_map_perm _ _ (reading pf true) vs vs' Q) as R. destruct (SP _ _ R) as (S1 & S2).
      destruct Ib as [<-|[<-|[<-|[]]]]; cbn [aggregate]; [now rewrite S1| |].
      - pose proof (Permutation_length R) as LL. rewrite S1, LL. destruct (flat_map (reading pf true) vs), (flat_map (reading pf true) vs'); cbn in LL; try discriminate; reflexivity.
      - pose proof (Permutation_length R) as LL. rewrite S2. destruct (flat_map (reading pf true) vs), (flat_map (reading pf true) vs'); cbn in LL; try discriminate; reflexivity. }
    rewrite !collect_ok, E, E'. cbn [or_error rbind]. destruct I as [<-|[<-|[<-|[]]]]; cbn [is_count negb]; rewrite A; cbn; auto.
Qed.
Theorem C192_criteria_rows : forall lower pf show showz (hs : record) (rs : table) f (heads : record) (rows rows' : table), Permutation rows rows' -> no_error lower hs heads rows ->
  chosen lower pf show showz (hs :: rs) f (heads :: rows) = chosen lower pf show showz (hs :: rs) f (heads :: rows').
Proof.
  intros lower pf show showz hs rs f heads rows rows' P N. apply chosen_same; auto; [eapply no_error_perm; eauto|].
  intros r _. split; apply selected_perm; auto. now apply Permutation_sym.
Qed.
Theorem C192_criteria_columns : forall lower pf show showz (hs : record) (rs : table) f cs cs' n, Permutation cs cs' ->
  no_error lower hs (map fst cs) (tl (of_columns cs n)) ->
  chosen lower pf show showz (hs :: rs) f (of_columns cs n) = chosen lower pf show showz (hs :: rs) f (of_columns cs' n).
Proof.
  intros lower pf show showz hs rs f cs cs' n P N. unfold of_columns in *. cbn [tl] in N. apply chosen_same; auto; [eapply columns_no_error; eauto|].
  intros r _. split; apply columns_perm; auto. now apply Permutation_sym.
Qed.
(** Two databases below each other. *)
Theorem C192_append : forall lower pf show showz (hs : record) (rs rs' : table) f crit vs vs',
  chosen lower pf show showz (hs :: rs) f crit = Ok (Ok vs) -> chosen lower pf show showz (hs :: rs') f crit = Ok (Ok vs') ->
  chosen lower pf show showz (hs :: rs ++ rs') f crit = Ok (Ok (vs ++ vs')).
Proof.
  intros lower pf show showz hs rs rs' f crit vs vs' H H'. unfold chosen in *. rewrite !width_cons in *. cbn [length] in *. rewrite app_length.
  destruct rs as [|r0 rs]; [discriminate|]. destruct rs' as [|r0' rs']; [discriminate|]. cbn [length Nat.ltb Nat.leb orb plus] in *.
  destruct (length hs <=? 0); [discriminate|]. unfold headers_of in *. cbn [hd tl] in *. destruct (resolve_field lower f hs) as [i|e|]; try discriminate. cbn [rbind] in *.
  destruct (parse_criteria_range lower pf crit hs) as [pss|e|]; try discriminate. cbn [rbind] in *. inversion H; subst. inversion H'; subst.
  do 2 f_equal. rewrite <- map_app. f_equal. exact (filter_app (fun r => row_matches lower pf show showz r pss) (r0 :: rs) (r0' :: rs')).
Qed.
(** More rows of criteria choose more, unless all rows before asked nothing. *)
Theorem C192_more_rows_partial : forall lower pf show showz (hs : record) (rs : table) f (heads : record) (rows more : table) vs vs', no_error lower hs heads (rows ++ more) ->
  (exists row, In row rows /\ ~ silent lower hs heads row) ->
  chosen lower pf show showz (hs :: rs) f (heads :: rows) = Ok (Ok vs) -> chosen lower pf show showz (hs :: rs) f (heads :: rows ++ more) = Ok (Ok vs') ->
  length vs <= length vs' /\ incl vs vs'.
Proof.
  intros lower pf show showz hs rs f heads rows more vs vs' N (row0 & I0 & NS) H H'.
  assert (N1 : no_error lower hs heads rows) by (intros row i e I; apply N, in_or_app; now left).
  unfold chosen in *. destruct (_ || _); [discriminate|]. unfold headers_of in *. cbn [hd tl] in *. destruct (resolve_field lower f hs) as [i|e|]; try discriminate. cbn [rbind] in *.
  destruct (range_ok lower pf show showz hs heads rows N1) as (pss & P1 & A). destruct (range_ok lower pf show showz hs heads (rows ++ more) N) as (pss' & P2 & B).
  rewrite P1 in H. rewrite P2 in H'. cbn [rbind] in *. inversion H; subst. inversion H'; subst.
  assert (C : forall r, row_matches lower pf show showz r pss = true -> row_matches lower pf show showz r pss' = true).
  { intros r M. apply B. apply A in M. destruct M as [M|(row & I & X)]; [exfalso; now apply NS, M|]. right. exists row. split; auto. apply in_or_app. now left. }
  rewrite !map_length. clear H H'. split.
  - induction rs as [|r rs IH]; cbn; auto. specialize (C r). destruct (row_matches lower pf show showz r pss), (row_matches lower pf show showz r pss'); cbn; try lia.
  - intros v I. apply in_map_iff in I. destruct I as (r & <- & I). apply filter_In in I. destruct I as (I & M). apply in_map_iff. exists r. split; auto. apply filter_In. auto.
Qed.
Example C192_ex : forall lower pf show showz, let hs := [VText (tx "a"%string)] in
  chosen lower pf show showz (hs :: [[VInt 1]; [VInt 2]]) (VInt 1) (hs :: [[VInt 2]; [VInt 3]]) = Ok (Ok [VInt 2]) /\ first_error [VInt 2] = None.
Proof.
  intros lower pf show showz hs. assert (E : forall t, text_eqb (lower t) (lower t) = true) by (intros t; now apply text_eqb_spec).
  split; [|reflexivity]. unfold chosen, hs. cbn -[text_eqb]. rewrite E. reflexivity.
Qed.

(** ** C193: the field by name and by number; nothing else of a record counts *)
Theorem C193_field : forall lower pf show showz (db crit : table) name i, column_of lower (headers_of db) name i ->
  chosen lower pf show showz db (VText name) crit = chosen lower pf show showz db (VInt (Z.of_nat i + 1)) crit.
Proof.
  intros lower pf show showz db crit name i C. apply chosen_field. rewrite (field_number lower) by (eapply column_bound; eauto). now apply field_name.
Qed.
Theorem C193_no_field : forall lower f hs, 
  match resolve_field lower f hs with
  | Ok i => (exists name, f = VText name /\ column_of lower hs name i) \/ (f = VInt (Z.of_nat i + 1) \/ exists n, f = VNum n /\ to_i64 n = (Z.of_nat i + 1)%Z) /\ i < length hs
  | Err e => e = K_VALUE /\ (forall name i, f = VText name -> ~ column_of lower hs name i) /\ (forall z, f = VInt z \/ (exists n, f = VNum n /\ to_i64 n = z) -> z < 1 \/ Z.of_nat (length hs) < z)%Z
  | Panic => False
  end.
Proof.
  assert (B : forall z n, match by_number z n with Ok i => z = (Z.of_nat i + 1)%Z /\ i < n | Err e => e = K_VALUE /\ (z < 1 \/ Z.of_nat n < z)%Z | Panic => False end).
  { intros z n. unfold by_number. destruct (Z.ltb_spec z 1); cbn; [auto|]. destruct (Z.ltb_spec (Z.of_nat n) z); cbn; [auto|]. lia. }
  intros lower f hs. destruct f as [|n|z|b|t|e|]; cbn [resolve_field]; try (split; [reflexivity|]; split; [intros; discriminate|]; intros z' [E|(n' & E & _)]; discriminate).
  - specialize (B (to_i64 n) (length hs)). destruct (by_number (to_i64 n) (length hs)) as [i|e|]; auto.
    + destruct B as (E & L). right. split; auto. right. exists n. auto.
    + destruct B as (-> & L). split; auto. split; [intros; discriminate|]. intros z [E|(n' & E & <-)]; inversion E; subst. exact L.
  - specialize (B z (length hs)). destruct (by_number z (length hs)) as [i|e|]; auto.
    + destruct B as (-> & L). right. auto.
    + destruct B as (-> & L). split; auto. split; [intros; discriminate|]. intros z' [E|(n' & E & _)]; inversion E; subst. exact L.
  - pose proof (find_header_ok lower hs t 0) as F. destruct (find_header lower t 0 hs) as [i|].
    + destruct F as (j & -> & C). left. exists t. auto.
    + split; auto. split; [|intros z' [E|(n' & E & _)]; discriminate]. intros name i E. inversion E; subst. apply F.
Qed.
Theorem C193_frame : forall lower pf show showz (hs : record) (rs rs' : table) f i (heads : record) (rows : table), resolve_field lower f hs = Ok i ->
  no_error lower hs heads rows ->
  Forall2 (fun r r' => nth i r VEmpty = nth i r' VEmpty /\ forall row j v, In row rows -> asks lower hs heads row j v -> nth j r VEmpty = nth j r' VEmpty) rs rs' ->
  chosen lower pf show showz (hs :: rs) f (heads :: rows) = chosen lower pf show showz (hs :: rs') f (heads :: rows).
Proof.
  intros lower pf show showz hs rs rs' f i heads rows F N FA.
  assert (L : length rs = length rs') by (clear -FA; induction FA; cbn; congruence).
  unfold chosen. rewrite !width_cons. cbn [length]. rewrite L. destruct (_ || _); auto. unfold headers_of. cbn [hd tl]. rewrite F. cbn [rbind].
  destruct (range_ok lower pf show showz hs heads rows N) as (pss & -> & A). cbn [rbind]. do 2 f_equal. clear L.
  induction FA as [|r r' rs rs' (E1 & E2) FA IH]; cbn [filter map]; auto.
  assert (S1 : forall r1 r2, (forall row j v, In row rows -> asks lower hs heads row j v -> nth j r1 VEmpty = nth j r2 VEmpty) ->
    selected lower pf show showz hs heads rows r1 -> selected lower pf show showz hs heads rows r2).
  { intros r1 r2 Q [S1|(row & I & NS & Sat)]; [now left|]. right. exists row. split; auto. split; auto. intros j v As. specialize (Sat j v As). rewrite <- (Q row j v I As). exact Sat. }
  assert (M : row_matches lower pf show showz r pss = row_matches lower pf show showz r' pss).
  { pose proof (A r) as A1. pose proof (A r') as A2. pose proof (S1 r r' E2) as S2. pose proof (S1 r' r (fun row j v I As => eq_sym (E2 row j v I As))) as S3.
    destruct (row_matches lower pf show showz r pss), (row_matches lower pf show showz r' pss); auto; exfalso.
    - assert (X : false = true) by (apply A2, S2, A1; reflexivity). discriminate.
    - assert (X : false = true) by (apply A1, S3, A2; reflexivity). discriminate. }
  rewrite M. destruct (row_matches lower pf show showz r' pss); cbn [map]; rewrite IH; auto. unfold field_of. now rewrite E1.
Qed.
Example C193_ex : forall lower, lower (tx "A"%string) = lower (tx "a"%string) -> lower (tx "b"%string) <> lower (tx "a"%string) ->
  column_of lower [VInt 3; VText (tx "b"%string); VText (tx "A"%string); VText (tx "a"%string)] (tx "a"%string) 2.
Proof.
  intros lower E D. split; [exists (tx "A"%string); auto|]. intros [|[|j]] h L H; cbn in H; inversion H; subst; auto; lia.
Qed.

(** ** C194: counting, averages, largest and smallest *)
Theorem C194_values : forall lower pf show showz sum product divide a db f crit vs, chosen lower pf show showz db f crit = Ok (Ok vs) ->
  d_function lower pf show showz sum product divide a db f crit =
    Ok (match first_error vs with Some e => Err e | None => aggregate sum product divide a (flat_map (reading pf (negb (is_count a))) vs) end).
Proof. intros lower pf show showz sum product divide a db f crit vs H. unfold d_function, then_. rewrite H. cbn [rbind]. rewrite collect_ok. now destruct (first_error vs). Qed.
Theorem C194_count_partial : forall lower pf show showz sum product divide db f crit vs, chosen lower pf show showz db f crit = Ok (Ok vs) -> Forall numeric vs ->
  d_function lower pf show showz sum product divide DCount db f crit = Ok (Ok (of_nat (length (filter is_number vs)))) /\
  d_function lower pf show showz sum product divide DAverage db f crit =
    Ok (if (length (filter is_number vs) =? 0)%nat then Err K_DIV
        else rbind (aggregate sum product divide DSum (flat_map (reading pf true) vs)) (fun s => Ok (divide s (of_nat (length (filter is_number vs)))))).
Proof.
  intros lower pf show showz sum product divide db f crit vs H F. rewrite !(C194_values lower pf show showz sum product divide _ db f crit vs H).
  destruct (reading_numeric pf true vs F) as (A & _ & C). destruct (reading_numeric pf false vs F) as (B & _ & _). rewrite C. cbn [is_count negb aggregate]. rewrite B.
  split; auto. f_equal. rewrite <- A. destruct (flat_map (reading pf true) vs); reflexivity.
Qed.
(** A text that reads as a number is counted, and a truth value is averaged but not counted. *)
Theorem C194_text_counted_refuted : forall lower pf show showz sum product divide n, pf (tx "5"%string) = Some n ->
  chosen lower pf show showz [[VText []]; [VText (tx "5"%string)]] (VInt 1) [] = Ok (Ok [VText (tx "5"%string)]) /\
  d_function lower pf show showz sum product divide DCount [[VText []]; [VText (tx "5"%string)]] (VInt 1) [] = Ok (Ok (of_nat 1)).
Proof.
  intros lower pf show showz sum product divide n H. assert (C : chosen lower pf show showz [[VText []]; [VText (tx "5"%string)]] (VInt 1) [] = Ok (Ok [VText (tx "5"%string)])) by reflexivity.
  split; auto. rewrite (C194_values lower pf show showz sum product divide DCount _ _ _ _ C). cbn [is_count negb flat_map reading first_error]. change (parse_number pf (tx "5"%string)) with (pf (tx "5"%string)). now rewrite H.
Qed.
Theorem C194_average_refuted : forall lower pf show showz sum product divide,
  let db := [[VText []]; [VInt 3]; [VBool true]] in
  d_function lower pf show showz sum product divide DSum db (VInt 1) [] = Ok (Ok (sum [Fin 3%Q; Fin 1%Q])) /\
  d_function lower pf show showz sum product divide DCount db (VInt 1) [] = Ok (Ok (of_nat 1)) /\
  d_function lower pf show showz sum product divide DAverage db (VInt 1) [] = Ok (Ok (divide (sum [Fin 3%Q; Fin 1%Q]) (of_nat 2))).
Proof. repeat split. Qed.
Theorem C194_counta : forall lower pf show showz sum product divide db f crit vs, chosen lower pf show showz db f crit = Ok (Ok vs) ->
  dcounta lower pf show showz db f crit = Ok (match first_error vs with Some e => Err e | None => Ok (of_nat (length (filter (fun v => negb (is_blank v)) vs))) end) /\
  forall n m, d_function lower pf show showz sum product divide DCount db f crit = Ok (Ok (of_nat n)) -> dcounta lower pf show showz db f crit = Ok (Ok (of_nat m)) -> n <= m.
Proof.
  intros lower pf show showz sum product divide db f crit vs H.
  assert (D : dcounta lower pf show showz db f crit = Ok (match first_error vs with Some e => Err e | None => Ok (of_nat (length (filter (fun v => negb (is_blank v)) vs))) end)).
  { unfold dcounta, then_. rewrite H. cbn [rbind]. rewrite count_all_ok. now destruct (first_error vs). }
  split; auto. intros n m. rewrite D, (C194_values lower pf show showz sum product divide DCount db f crit vs H). destruct (first_error vs); [discriminate|].
  cbn [aggregate is_count negb]. unfold of_nat, inject_Z. intros A B. inversion A as [A1]. inversion B as [B1]. apply Nat2Z.inj in A1, B1. subst. apply reading_le.
Qed.
(** An empty text is not a blank to DCOUNTA, against its documentation. *)
Theorem C194_empty_text_refuted : forall lower pf show showz,
  dcounta lower pf show showz [[VText []]; [VText []]] (VInt 1) [] = Ok (Ok (of_nat 1)).
Proof. reflexivity. Qed.
Theorem C194_extremes : forall lower pf show showz sum product divide db f crit vs, chosen lower pf show showz db f crit = Ok (Ok vs) -> first_error vs = None ->
  let ns := flat_map (reading pf true) vs in
  (ns = [] -> forall a, In a [DMax; DMin; DProduct] -> d_function lower pf show showz sum product divide a db f crit = Ok (Ok (Fin 0%Q))) /\
  (forall n, In n ns -> n <> NaN ->
    (exists m, d_function lower pf show showz sum product divide DMax db f crit = Ok (Ok m) /\ In m ns /\ forall x, In x ns -> x <> NaN -> n_le x m = true) /\
    (exists m, d_function lower pf show showz sum product divide DMin db f crit = Ok (Ok m) /\ In m ns /\ forall x, In x ns -> x <> NaN -> n_le m x = true)).
Proof.
  intros lower pf show showz sum product divide db f crit vs H E ns. split.
  - intros Z1 a I. rewrite (C194_values lower pf show showz sum product divide a db f crit vs H), E.
    destruct I as [<-|[<-|[<-|[]]]]; cbn [is_count negb]; fold ns; rewrite Z1; reflexivity.
  - intros n I N. rewrite !(C194_values lower pf show showz sum product divide _ db f crit vs H), E. cbn [is_count negb]. fold ns.
    destruct (max_of ns n I N) as (A & _ & B). destruct (min_of ns n I N) as (C & _ & D). destruct ns as [|n0 ns0] eqn:Q; [destruct I|].
    split; eexists; (split; [reflexivity|]); auto.
Qed.
(** Standard deviations are square roots of variances; too few values are #DIV/0!. *)
Theorem C194_deviation : forall lower pf show showz sum divide deviation sqrt db f crit,
  let st s := d_stat lower pf show showz sum divide deviation sqrt s db f crit in
  st StdevSample = then_ (st VarSample) (fun v => Ok (sqrt v)) /\ st StdevPop = then_ (st VarPop) (fun v => Ok (sqrt v)) /\
  forall vs, chosen lower pf show showz db f crit = Ok (Ok vs) -> first_error vs = None ->
    (st VarSample = Ok (Err K_DIV) <-> length (flat_map (reading pf true) vs) < 2) /\ (st VarPop = Ok (Err K_DIV) <-> flat_map (reading pf true) vs = []).
Proof.
  intros lower pf show showz sum divide deviation sqrt db f crit st. unfold st, d_stat, then_.
  destruct (chosen lower pf show showz db f crit) as [[vs|e|]|e|]; cbn [rbind]; try (split; [reflexivity|]; split; [reflexivity|]; intros; discriminate).
  rewrite collect_ok. destruct (first_error vs) eqn:E; cbn [or_error rbind].
  - split; [reflexivity|]. split; [reflexivity|]. intros vs' Hc He. inversion Hc; subst. congruence.
  - split; [|split].
    + cbn [statistic]. destruct (length _ <? 2); reflexivity.
    + cbn [statistic]. destruct (flat_map (reading pf true) vs); reflexivity.
    + intros vs' H _. inversion H; subst vs'. cbn [statistic]. split.
      * destruct (Nat.ltb_spec (length (flat_map (reading pf true) vs)) 2); split; auto; try discriminate; lia.
      * destruct (flat_map (reading pf true) vs); split; auto; discriminate.
Qed.
(** With [k] the number of values: the squared deviations from the mean over k - 1, or over k. *)
Theorem C194_variance : forall lower pf show showz sum divide deviation sqrt db f crit vs, chosen lower pf show showz db f crit = Ok (Ok vs) -> first_error vs = None ->
  let ns := flat_map (reading pf true) vs in let k := length ns in let mean := divide (sum ns) (of_nat k) in
  let over d := divide (sum (map (fun x => deviation x mean) ns)) (of_nat d) in
  (2 <= k -> d_stat lower pf show showz sum divide deviation sqrt VarSample db f crit = Ok (Ok (over (k - 1)))) /\
  (1 <= k -> d_stat lower pf show showz sum divide deviation sqrt VarPop db f crit = Ok (Ok (over k))).
Proof.
  intros lower pf show showz sum divide deviation sqrt db f crit vs H E ns k mean over. unfold d_stat, then_. rewrite H. cbn [rbind]. rewrite collect_ok, E. cbn [or_error rbind statistic].
  fold ns. fold k. split; intros L.
  - destruct (Nat.ltb_spec k 2); [lia|reflexivity].
  - unfold over, mean, k in *. destruct ns as [|n ns]; [cbn in L; lia|reflexivity].
Qed.
Example C194_ex : forall lower pf show showz, chosen lower pf show showz [[VText []]; [VInt 3]; [VEmpty]; [VNum (Fin 2%Q)]] (VInt 1) [] = Ok (Ok [VInt 3; VEmpty; VNum (Fin 2%Q)]) /\
  Forall numeric [VInt 3; VEmpty; VNum (Fin 2%Q)] /\ first_error [VInt 3; VEmpty; VNum (Fin 2%Q)] = None.
Proof. intros. split; [reflexivity|]. split; [repeat constructor|reflexivity]. Qed.

(** ** C195: DGET gives the only value *)
Theorem C195_dget : forall lower pf show showz db f crit vs, chosen lower pf show showz db f crit = Ok (Ok vs) ->
  let full := filter (fun v => negb (is_blank v)) vs in
  (forall v, dget lower pf show showz db f crit = Ok (Ok v) <-> full = [v]) /\
  (dget lower pf show showz db f crit = Ok (Err K_VALUE) <-> full = []) /\
  (dget lower pf show showz db f crit = Ok (Err K_NUM) <-> 2 <= length full).
Proof.
  intros lower pf show showz db f crit vs H full. unfold dget, then_. rewrite H. cbn [rbind]. unfold get_one. fold full.
  destruct full as [|x [|y l]]; cbn; repeat split; intros; try discriminate; try lia; try congruence.
Qed.
(** It has a value exactly if DCOUNTA is one. *)
Theorem C195_dget_counta : forall lower pf show showz db f crit vs, chosen lower pf show showz db f crit = Ok (Ok vs) -> first_error vs = None ->
  ((exists v, dget lower pf show showz db f crit = Ok (Ok v)) <-> dcounta lower pf show showz db f crit = Ok (Ok (of_nat 1))).
Proof.
  intros lower pf show showz db f crit vs H E. destruct (C195_dget lower pf show showz db f crit vs H) as (A & _).
  unfold dcounta, then_. rewrite H. cbn [rbind]. rewrite count_all_ok, E. cbn [or_error rbind plus]. split.
  - intros (v & G). apply A in G. now rewrite G.
  - intros G. unfold of_nat, inject_Z in G. inversion G as [G1]. destruct (filter (fun v => negb (is_blank v)) vs) as [|x [|y l]] eqn:F; cbn [length] in G1; try lia.
    exists x. now apply A.
Qed.
(** DGET of the one record with a named key is its field: the value looked up. *)
Theorem C195_lookup : forall lower pf show showz (hs : record) rs1 r rs2 f i (heads : record) row, hs <> [] -> resolve_field lower f hs = Ok i ->
  no_error lower hs heads [row] -> ~ silent lower hs heads row -> satisfies lower pf show showz hs heads row r ->
  (forall r', In r' (rs1 ++ rs2) -> ~ satisfies lower pf show showz hs heads row r') -> nth i r VEmpty <> VEmpty ->
  dget lower pf show showz (hs :: rs1 ++ r :: rs2) f [heads; row] = Ok (Ok (nth i r VEmpty)).
Proof.
  intros lower pf show showz hs rs1 r rs2 f i heads row Nh F N NS Sat U B.
  destruct (chosen_ok lower pf show showz hs (rs1 ++ r :: rs2) f i heads [row] Nh) as (sel & S1 & E & _); auto; [destruct rs1; discriminate|].
  unfold dget, then_. change [heads; row] with (heads :: [row]). rewrite E. cbn [rbind].
  assert (R : sel r = true) by (apply S1; right; exists row; split; [now left|auto]).
  assert (O1 : forall l, (forall r', In r' l -> ~ satisfies lower pf show showz hs heads row r') -> filter sel l = []).
  { induction l as [|r' l IH]; intros U1; cbn; auto. destruct (sel r') eqn:Q; [exfalso|apply IH; intros x I; apply U1; now right].
    apply S1 in Q. destruct Q as [Q|(row' & [<-|[]] & _ & Q)]; [apply NS, Q; now left|]. now apply (U1 r' (or_introl eq_refl)). }
  rewrite filter_app, O1 by (intros x I; apply U, in_or_app; now left). cbn [app filter]. rewrite R, O1 by (intros x I; apply U, in_or_app; now right).
  cbn [map]. unfold get_one. cbn [filter]. destruct (nth i r VEmpty); try contradiction; reflexivity.
Qed.
Example C195_ex : forall lower pf show showz, let hs := [VText (tx "a"%string); VText (tx "b"%string)] in lower (tx "a"%string) <> lower (tx "b"%string) ->
  dget lower pf show showz (hs :: [[VInt 1; VInt 7]; [VInt 2; VErr 4%N]]) (VInt 2) [[VText (tx "a"%string)]; [VInt 2]] = Ok (Ok (VErr 4%N)).
Proof.
  intros lower pf show showz hs D. assert (E : forall t, text_eqb (lower t) (lower t) = true) by (intros t; now apply text_eqb_spec).
  unfold dget, chosen, hs. cbn -[text_eqb]. rewrite E. reflexivity.
Qed.
Print Assumptions C191_selection.
Print Assumptions C191_wanted_partial.
Print Assumptions C191_blank_row_refuted.
Print Assumptions C191_number_heading_refuted.
Print Assumptions C191_failures.
Print Assumptions C192_records.
Print Assumptions C192_counts.
Print Assumptions C192_criteria_rows.
Print Assumptions C192_criteria_columns.
Print Assumptions C192_append.
Print Assumptions C192_more_rows_partial.
Print Assumptions C193_field.
Print Assumptions C193_no_field.
Print Assumptions C193_frame.
Print Assumptions C194_values.
Print Assumptions C194_count_partial.
Print Assumptions C194_text_counted_refuted.
Print Assumptions C194_average_refuted.
Print Assumptions C194_counta.
Print Assumptions C194_empty_text_refuted.
Print Assumptions C194_extremes.
Print Assumptions C194_deviation.
Print Assumptions C194_variance.
Print Assumptions C195_dget.
Print Assumptions C195_dget_counta.
Print Assumptions C195_lookup.
