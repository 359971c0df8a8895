(** Proofs about the database functions. *)
From Coq Require Import List Bool NArith ZArith QArith Arith Lia Permutation.
From Verif Require Import Base Maps WildModel CrModel DbModel DbSpec.
Import ListNotations.
Close Scope Q_scope.

Section Proofs.
Variable lower : text -> text.
Variable pf : text -> option num.
Variable show : num -> text.
Variable showz : Z -> text.
Notation find_header := (find_header lower).
Notation column_of := (column_of lower).
Notation asks := (asks lower).
Notation silent := (silent lower).
Notation parse_row := (parse_row pf).
Notation parse_rows := (parse_rows pf).
Notation column_map := (column_map lower).
Notation satisfies := (satisfies lower pf show showz).
Notation selected := (selected lower pf show showz).
Notation wanted := (wanted lower pf show showz).
Notation no_error := (no_error lower).
Notation meets := (meets lower pf show showz).
Notation row_matches := (row_matches lower pf show showz).

Lemma find_header_ok : forall hs name k,
  match find_header name k hs with
  | Some i => exists j, i = k + j /\ column_of hs name j
  | None => forall j, ~ column_of hs name j
  end.
Proof.
  assert (A : forall hs v name j, (forall h, v = VText h -> lower h <> lower name) -> (column_of hs name j <-> column_of (v :: hs) name (S j))).
  { intros hs v name j D. unfold DbSpec.column_of. cbn [nth_error]. split; intros (E & F); split; auto.
    - intros [|i] h L H; cbn in H; [apply D; congruence|apply (F i h); [lia|exact H]].
    - intros i h L H. apply (F (S i) h); [lia|exact H]. }
  assert (B : forall hs v name, (forall h, v = VText h -> lower h <> lower name) -> forall k, 
     match find_header name (S k) hs with Some i => exists j, i = S k + j /\ column_of hs name j | None => forall j, ~ column_of hs name j end ->
     match find_header name (S k) hs with Some i => exists j, i = k + j /\ column_of (v :: hs) name j | None => forall j, ~ column_of (v :: hs) name j end).
  { intros hs v name D k H. destruct (find_header name (S k) hs) as [i|].
    - destruct H as (j & -> & C). exists (S j). split; [lia|]. now apply A.
    - intros [|j] C; [|apply (H j); now apply A in C]. destruct C as ((h & E & L) & _). cbn in E. apply (D h); congruence. }
  induction hs as [|v hs IH]; intros name k.
  - cbn. intros j ((h & E & _) & _). destruct j; discriminate.
  - destruct v as [|n|z|b|t|e|]; cbn [DbModel.find_header]; try (apply B; [intros; discriminate|apply IH]).
    destruct (text_eqb (lower t) (lower name)) eqn:E.
    + apply text_eqb_spec in E. exists 0. split; [lia|]. split; [exists t; auto|]. intros j h L. lia.
    + apply B; [|apply IH]. intros h H Q. inversion H; subst. apply (proj2 (text_eqb_spec _ _)) in Q. congruence.
Qed.
Lemma column_unique : forall hs name i j, column_of hs name i -> column_of hs name j -> i = j.
Proof.
  intros hs name i j ((h & E & L) & F) ((h' & E' & L') & F').
  destruct (Nat.lt_trichotomy i j) as [H|[H|H]]; auto; exfalso; [now apply (F' i h)|now apply (F j h')].
Qed.
Lemma find_iff : forall hs name i, find_header name 0 hs = Some i <-> column_of hs name i.
Proof.
  intros hs name i. pose proof (find_header_ok hs name 0) as H. split.
  - intros E. rewrite E in H. destruct H as (j & -> & C). exact C.
  - intros C. destruct (find_header name 0 hs) as [k|]; [|now apply H in C].
    destruct H as (j & -> & D). f_equal. now apply (column_unique hs name).
Qed.

Lemma parse_total : forall v, match parse_criteria pf v with Ok _ => forall e, v <> VErr e | Err e => v = VErr e | Panic => False end.
Proof. intros []; cbn; auto; intros; discriminate. Qed.

Lemma asks_cons : forall hs h heads row i v,
  asks hs (h :: heads) row i v <->
  (exists name, h = VText name /\ hd VEmpty row = v /\ v <> VEmpty /\ column_of hs name i) \/ asks hs heads (tl row) i v.
Proof.
  intros. unfold DbSpec.asks. split.
  - intros ([|c] & name & E & F & H & C); cbn in E.
    + left. exists name. destruct row; cbn in *; split; auto; congruence.
    + right. exists c, name. split; [auto|]. split; [|auto]. destruct row; cbn in *; auto. now destruct c.
  - intros [(name & -> & F & H & C)|(c & name & E & F & H & C)].
    + exists 0, name. destruct row; cbn in *; auto.
    + exists (S c), name. split; [auto|]. split; [|auto]. destruct row; cbn in *; auto. now destruct c.
Qed.

Lemma parse_row_ok : forall hs heads row,
  match parse_row (column_map hs heads) row with
  | Ok ps => (forall i p, In (i, p) ps <-> exists v, asks hs heads row i v /\ parse_criteria pf v = Ok p) /\ (forall i e, ~ asks hs heads row i (VErr e))
  | Err e => exists i, asks hs heads row i (VErr e)
  | Panic => False
  end.
Proof.
  intros hs heads. induction heads as [|h heads IH]; intros row.
  - cbn. split; [intros i p; split; [tauto|]|].
    + intros (v & (c & name & E & _) & _). destruct c; discriminate.
    + intros i e (c & name & E & _). destruct c; discriminate.
  - specialize (IH (tl row)). unfold DbModel.column_map. cbn [map]. fold (column_map hs heads).
    set (col := match h with VText name => find_header name 0 hs | _ => None end).
    assert (Skip : (hd VEmpty row = VEmpty \/ col = None) -> forall i v, asks hs (h :: heads) row i v <-> asks hs heads (tl row) i v).
    { intros S1 i v. rewrite asks_cons. split; [|tauto]. intros [(name & -> & F & N & C)|]; auto. destruct S1 as [S1|S1]; [congruence|].
      unfold col in S1. apply find_iff in C. congruence. }
    assert (SkipOk : (hd VEmpty row = VEmpty \/ col = None) ->
      match parse_row (column_map hs heads) (tl row) with
      | Ok ps => (forall i p, In (i, p) ps <-> exists v, asks hs (h :: heads) row i v /\ parse_criteria pf v = Ok p) /\ (forall i e, ~ asks hs (h :: heads) row i (VErr e))
      | Err e => exists i, asks hs (h :: heads) row i (VErr e)
      | Panic => False
      end).
    { intros S1. specialize (Skip S1). destruct (parse_row (column_map hs heads) (tl row)) as [ps|e|]; auto.
      - destruct IH as (P & Q). split.
        + intros i p. rewrite P. split; intros (v & A & B); exists v; split; auto; now apply Skip.
        + intros i e A. apply Skip in A. now apply (Q i e).
      - destruct IH as (i & A). exists i. now apply Skip. }
    cbn [DbModel.parse_row]. cbv zeta.
    assert (Use : forall i0, hd VEmpty row <> VEmpty -> col = Some i0 ->
      match rbind (parse_criteria pf (hd VEmpty row)) (fun p => rbind (parse_row (column_map hs heads) (tl row)) (fun ps => Ok ((i0, p) :: ps))) with
      | Ok ps => (forall i p, In (i, p) ps <-> exists v, asks hs (h :: heads) row i v /\ parse_criteria pf v = Ok p) /\ (forall i e, ~ asks hs (h :: heads) row i (VErr e))
      | Err e => exists i, asks hs (h :: heads) row i (VErr e)
      | Panic => False
      end).
    { intros i0 N C.
      assert (A0 : asks hs (h :: heads) row i0 (hd VEmpty row)).
      { apply asks_cons. left. unfold col in C. destruct h as [| | | |name| |]; try discriminate. exists name. repeat split; auto; now apply find_iff. }
      assert (A1 : forall i v, asks hs (h :: heads) row i v <-> (i = i0 /\ v = hd VEmpty row) \/ asks hs heads (tl row) i v).
      { intros i v. rewrite asks_cons. split; intros [H|H]; auto.
        - destruct H as (name & -> & F & M & D). left. unfold col in C. apply find_iff in C. split; [|congruence]. now apply (column_unique hs name).
        - destruct H as (-> & ->). apply asks_cons in A0. destruct A0 as [A0|A0]; auto. }
      pose proof (parse_total (hd VEmpty row)) as PT. destruct (parse_criteria pf (hd VEmpty row)) as [p0|e0|] eqn:P0; cbn; [|exists i0; now rewrite <- PT|contradiction].
      destruct (parse_row (column_map hs heads) (tl row)) as [ps|e|]; cbn; auto.
      - destruct IH as (P & Q). split.
        + intros i p. rewrite P. split.
          * intros [H|(v & A & B)]; [inversion H; subst; exists (hd VEmpty row); split; auto|exists v; split; auto]. apply A1. auto.
          * intros (v & A & B). apply A1 in A. destruct A as [(-> & ->)|A]; [left; congruence|right; exists v; auto].
        + intros i e A. apply A1 in A. destruct A as [(_ & H)|A]; [apply (PT e); congruence|now apply (Q i e)].
      - destruct IH as (i & A). exists i. apply A1. auto. }
    fold col. destruct (hd VEmpty row) as [|n|z|b|t|e|] eqn:HV.
    { apply SkipOk. auto. }
    all: destruct col as [i0|] eqn:EC; [apply Use; [discriminate|reflexivity]|apply SkipOk; auto].
Qed.

Lemma meets_ok : forall hs heads row ps r, parse_row (column_map hs heads) row = Ok ps -> (meets r ps = true <-> satisfies hs heads row r).
Proof.
  intros hs heads row ps r E. pose proof (parse_row_ok hs heads row) as H. rewrite E in H. destruct H as (P & Q).
  unfold DbModel.meets. rewrite forallb_forall. split.
  - intros F i v A. pose proof (parse_total v) as PT. destruct (parse_criteria pf v) as [p|e|] eqn:Pv; [|subst; now apply Q in A|contradiction].
    exists p. split; auto. apply (F (i, p)). apply P. exists v. auto.
  - intros S1 [i p] I. apply P in I. destruct I as (v & A & B). destruct (S1 i v A) as (p' & B' & M). cbn [fst snd]. unfold field_of. congruence.
Qed.
Lemma empty_silent : forall hs heads row ps, parse_row (column_map hs heads) row = Ok ps -> (ps = [] <-> silent hs heads row).
Proof.
  intros hs heads row ps E. pose proof (parse_row_ok hs heads row) as H. rewrite E in H. destruct H as (P & Q). split.
  - intros -> i v A. pose proof (parse_total v) as PT. destruct (parse_criteria pf v) as [p|e|] eqn:Pv; [|subst; now apply Q in A|contradiction].
    apply (proj2 (P i p)). exists v. auto.
  - intros S1. destruct ps as [|[i p] ps]; auto. destruct (proj1 (P i p) (or_introl eq_refl)) as (v & A & _). now apply S1 in A.
Qed.

Lemma parse_rows_ok : forall hs heads rows,
  match parse_rows (column_map hs heads) rows with
  | Ok pss => no_error hs heads rows /\ (pss = [] <-> forall row, In row rows -> silent hs heads row) /\
              (forall r, existsb (meets r) pss = true <-> exists row, In row rows /\ ~ silent hs heads row /\ satisfies hs heads row r)
  | Err e => exists row i, In row rows /\ asks hs heads row i (VErr e)
  | Panic => False
  end.
Proof.
  intros hs heads rows. induction rows as [|row rows IH].
  - cbn. split; [intros ? ? ? []|]. split; [split; auto; intros _ ? []|]. intros r. split; [discriminate|intros (? & [] & _)].
  - cbn [DbModel.parse_rows]. pose proof (parse_row_ok hs heads row) as H. destruct (parse_row (column_map hs heads) row) as [ps|e|] eqn:E; cbn [rbind]; auto.
    2:{ destruct H as (i & A). exists row, i. split; [now left|exact A]. }
    destruct (parse_rows (column_map hs heads) rows) as [pss|e|]; cbn [rbind].
    2:{ destruct IH as (row' & i & I & A). exists row', i. split; [now right|exact A]. }
    2:{ exact IH. }
    destruct IH as (N & Z1 & M). destruct H as (_ & Q).
    pose proof (empty_silent hs heads row ps E) as ES. pose proof (fun r => meets_ok hs heads row ps r E) as MO.
    split; [intros row' i e [<-|I]; [apply Q|now apply N]|].
    destruct ps as [|q ps].
    + pose proof (proj1 ES eq_refl) as S1. split.
      * rewrite Z1. split; [intros F row' [<-|I]; auto|intros F row' I; apply F; now right].
      * intros r. rewrite M. split; [intros (row' & I & A); exists row'; split; [now right|exact A]|].
        intros (row' & [<-|I] & A & B); [contradiction|exists row'; auto].
    + assert (S1 : ~ silent hs heads row) by (intros S1; apply ES in S1; discriminate). split.
      * split; [discriminate|]. intros F. exfalso. apply S1, F. now left.
      * intros r. cbn [existsb]. rewrite orb_true_iff, M, MO. split.
        -- intros [H|(row' & I & A)]; [exists row; split; [now left|auto]|exists row'; split; [now right|exact A]].
        -- intros (row' & [<-|I] & A & B); [now left|right; exists row'; auto].
Qed.
Lemma select_ok : forall hs heads rows pss, parse_rows (column_map hs heads) rows = Ok pss -> forall r, row_matches r pss = true <-> selected hs heads rows r.
Proof.
  intros hs heads rows pss E r. pose proof (parse_rows_ok hs heads rows) as H. rewrite E in H. destruct H as (N & Z1 & M).
  unfold DbModel.row_matches, DbSpec.selected. destruct pss as [|ps pss].
  - split; auto. intros _. left. now apply Z1.
  - rewrite M. split; [now right|]. intros [F|A]; auto. apply Z1 in F. discriminate.
Qed.
Lemma parse_rows_total : forall hs heads rows, no_error hs heads rows -> exists pss, parse_rows (column_map hs heads) rows = Ok pss.
Proof.
  intros hs heads rows N. pose proof (parse_rows_ok hs heads rows) as H. destruct (parse_rows (column_map hs heads) rows) as [pss|e|]; [now exists pss| |contradiction].
  destruct H as (row & i & I & A). exfalso. now apply (N row i e).
Qed.
(** Silent is decided by the cells. *)
Lemma silent_dec : forall hs heads row, silent hs heads row \/ exists i v, asks hs heads row i v.
Proof.
  intros hs heads. induction heads as [|h heads IH]; intros row.
  - left. intros i v (c & name & E & _). destruct c; discriminate.
  - destruct (IH (tl row)) as [S1|(i & v & A)]; [|right; exists i, v; apply asks_cons; auto].
    destruct (is_blank (hd VEmpty row)) eqn:B.
    + left. intros i v A. apply asks_cons in A. destruct A as [(name & _ & F & N & _)|A]; [|now apply S1 in A].
      destruct (hd VEmpty row); try discriminate. congruence.
    + destruct h as [| | | |name| |]; try (left; intros i v A; apply asks_cons in A; destruct A as [(? & ? & _)|A]; [discriminate|now apply S1 in A]).
      destruct (find_header name 0 hs) as [i|] eqn:F.
      * right. exists i, (hd VEmpty row). apply asks_cons. left. exists name. repeat split; auto; [intros H; rewrite H in B; discriminate|now apply find_iff|now apply find_iff].
      * left. intros i v A. apply asks_cons in A. destruct A as [(n' & Q & _ & _ & C)|A]; [|now apply S1 in A].
        inversion Q; subst. apply find_iff in C. congruence.
Qed.
(** If every row asks something, or none does, selection is what is wanted. *)
Lemma wanted_selected : forall hs heads rows r,
  (forall row, In row rows -> ~ silent hs heads row) \/ (forall row, In row rows -> silent hs heads row) ->
  (selected hs heads rows r <-> wanted hs heads rows r).
Proof.
  intros hs heads rows r H. unfold DbSpec.selected, DbSpec.wanted. destruct rows as [|row0 rows].
  - split; [now left|]. intros _. left. intros ? [].
  - split.
    + intros [S1|(row & I & _ & A)]; right; [|exists row; auto]. exists row0. split; [now left|]. intros i v A. exfalso. now apply (S1 row0 (or_introl eq_refl) i v).
    + intros [Q|(row & I & A)]; [discriminate|]. destruct H as [H|H]; [right; exists row; auto|now left].
Qed.
End Proofs.
