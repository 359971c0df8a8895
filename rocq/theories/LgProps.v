(** Logical functions (C184-C190): AND, OR, NOT, XOR, IF, IFS, IFERROR, IFNA, SWITCH, CHOOSE. *)
From Coq Require Import List Bool NArith ZArith Arith Lia Permutation.
From Verif Require Import Base Maps LookupModel EvModel LgModel LgSpec LgProofs LgProofs2.
Import ListNotations.

(** ** C184: AND and OR *)
Theorem C184_and_partial : forall T is_zero hs vss, hs <> [] ->
  Forall2 (fun h vs => values_of T h = Ok vs) hs vss ->
  snd (and_fn T is_zero hs) = Ok (sc T (and_of T is_zero (concat vss))).
Proof. exact and_ok. Qed.
Theorem C184_or_partial : forall T is_zero hs vss, hs <> [] ->
  Forall2 (fun h vs => values_of T h = Ok vs) hs vss ->
  snd (or_fn T is_zero hs) = Ok (sc T (or_of T is_zero (concat vss))).
Proof. exact or_ok. Qed.
(** In any order the answer is the same, or both answers are errors. *)
Definition same_truth (T : Type) (a b : scalar T) : Prop :=
  match a, b with SErr _, SErr _ => True | _, _ => a = b end.
Lemma existsb_perm : forall A (f : A -> bool) l l', Permutation l l' -> existsb f l = existsb f l'.
Proof.
  induction 1; cbn; auto; [now rewrite IHPermutation| |congruence].
  destruct (f x), (f y); reflexivity.
Qed.
Lemma first_fault_perm : forall T vs vs', Permutation vs vs' -> (first_fault T vs = None <-> first_fault T vs' = None).
Proof.
  intros T. unfold first_fault. induction 1; cbn; try tauto.
  - destruct (fault T x); tauto.
  - destruct (fault T x), (fault T y); tauto || (split; discriminate).
Qed.
Lemma concat_perm : forall A (l l' : list (list A)), Permutation l l' -> Permutation (concat l) (concat l').
Proof.
  induction 1; cbn; auto; [now apply Permutation_app_head| |eapply perm_trans; eauto].
  rewrite !app_assoc. apply Permutation_app_tail, Permutation_app_comm.
Qed.
Theorem C184_order_partial : forall T is_zero hs hs' vss, hs <> [] -> Permutation hs hs' ->
  Forall2 (fun h vs => values_of T h = Ok vs) hs vss ->
  exists a a' o o', snd (and_fn T is_zero hs) = Ok (sc T a) /\ snd (and_fn T is_zero hs') = Ok (sc T a') /\ same_truth T a a' /\
    snd (or_fn T is_zero hs) = Ok (sc T o) /\ snd (or_fn T is_zero hs') = Ok (sc T o') /\ same_truth T o o'.
Proof.
  intros T is_zero hs hs' vss N P F.
  assert (Q : exists vss', Forall2 (fun h vs => values_of T h = Ok vs) hs' vss' /\ Permutation vss vss').
  { clear N. revert vss F. induction P as [|h hs hs' P IH|h g hs|h1 h2 h3 P1 IH1 P2 IH2]; intros vss F.
    - exists vss. split; auto.
    - inversion F as [|? vs ? vss1 V F1]; subst. destruct (IH vss1 F1) as (v2 & F2 & Q). exists (vs :: v2). split; auto.
    - inversion F as [|? vs ? vss1 V F1]; subst. inversion F1 as [|? ws ? vss2 W F2]; subst.
      exists (ws :: vs :: vss2). split; [auto|apply perm_swap].
    - destruct (IH1 vss F) as (v2 & F2 & Q). destruct (IH2 v2 F2) as (v3 & F3 & Q'). exists v3. split; auto. eapply perm_trans; eauto. }
  destruct Q as (vss' & F' & Pv). apply concat_perm in Pv.
  assert (N' : hs' <> []) by (intros ->; apply N; now apply Permutation_nil, Permutation_sym).
  assert (E : forall b x y, x = None <-> y = None -> same_truth T (or_else T x b) (or_else T y b)).
  { intros b [x|] [y|] I; cbn; auto; destruct I as [I1 I2]; [specialize (I2 eq_refl)|specialize (I1 eq_refl)]; discriminate. }
  exists (and_of T is_zero (concat vss)), (and_of T is_zero (concat vss')), (or_of T is_zero (concat vss)), (or_of T is_zero (concat vss')).
  repeat split; try (now apply and_ok); try (now apply or_ok); unfold and_of, or_of.
  - rewrite (existsb_perm _ _ _ _ Pv). destruct (existsb _ (concat vss')); [reflexivity|]. apply E, first_fault_perm, Pv.
  - rewrite (existsb_perm _ _ _ _ Pv). destruct (existsb _ (concat vss')); [reflexivity|]. apply E, first_fault_perm, Pv.
Qed.
(** After a decision nothing is looked at, whatever it is. *)
Theorem C184_short_circuit : forall T is_zero hs vss rest, Forall2 (fun h vs => values_of T h = Ok vs) hs vss ->
  (existsb (fun v => no T is_zero v || blank T v) (concat vss) = true ->
     and_fn T is_zero (hs ++ rest) = and_fn T is_zero hs /\ snd (and_fn T is_zero hs) = Ok (sc T (SBool false)) /\
     exists n, fst (and_fn T is_zero hs) = seq 0 n /\ n <= length hs) /\
  (existsb (yes T is_zero) (concat vss) = true ->
     or_fn T is_zero (hs ++ rest) = or_fn T is_zero hs /\ snd (or_fn T is_zero hs) = Ok (sc T (SBool true)) /\
     exists n, fst (or_fn T is_zero hs) = seq 0 n /\ n <= length hs).
Proof.
  intros T is_zero hs vss rest F. destruct hs as [|h hs].
  - inversion F; subst. split; discriminate.
  - split; intros D.
    + destruct (junction_stops T (and_scan T is_zero) (fun v => no T is_zero v || blank T v) false (and_scan_ok T is_zero) (h :: hs) vss rest 0 None F D) as (A & B).
      split; [exact A|]. split; [|exact B]. rewrite (and_ok T is_zero (h :: hs) vss) by (auto; discriminate). unfold and_of. now rewrite D.
    + destruct (junction_stops T (or_scan T is_zero) (yes T is_zero) true (or_scan_ok T is_zero) (h :: hs) vss rest 0 None F D) as (A & B).
      split; [exact A|]. split; [|exact B]. rewrite (or_ok T is_zero (h :: hs) vss) by (auto; discriminate). unfold or_of. now rewrite D.
Qed.
(** An argument whose evaluation fails ends the call: a FALSE after it does not count, and an
    error before it is forgotten. *)
Theorem C184_failure_hides_refuted : forall T is_zero (e k : N), 
  let f := HExpr T (Err e) in let no := HExpr T (Ok (sc T (SBool false))) in let err := HExpr T (Ok (sc T (SErr k))) in
  snd (and_fn T is_zero [no; f]) = Ok (sc T (SBool false)) /\ snd (and_fn T is_zero [f; no]) = Err e /\
  snd (and_fn T is_zero [err; f]) = Err e /\ snd (and_fn T is_zero [err; no]) = Ok (sc T (SBool false)).
Proof. intros. repeat split. Qed.
(** What comes of a failed evaluation, exactly. *)
Theorem C184_failure : forall T is_zero hs vss h e rest, Forall2 (fun h vs => values_of T h = Ok vs) hs vss -> values_of T h = Err e ->
  snd (and_fn T is_zero (hs ++ h :: rest)) = (if existsb (fun v => no T is_zero v || blank T v) (concat vss) then Ok (sc T (SBool false)) else Err e) /\
  snd (or_fn T is_zero (hs ++ h :: rest)) = (if existsb (yes T is_zero) (concat vss) then Ok (sc T (SBool true)) else Err e).
Proof.
  intros T is_zero hs vss h e rest F H.
  assert (A : and_fn T is_zero (hs ++ h :: rest) = junction T (and_scan T is_zero) false 0 None (hs ++ h :: rest)) by (destruct hs; reflexivity).
  assert (B : or_fn T is_zero (hs ++ h :: rest) = junction T (or_scan T is_zero) true 0 None (hs ++ h :: rest)) by (destruct hs; reflexivity).
  destruct (C184_short_circuit T is_zero hs vss (h :: rest) F) as (P & Q). split.
  - destruct (existsb _ (concat vss)) eqn:E in |- *.
    + destruct (P E) as (-> & -> & _). reflexivity.
    + rewrite A. exact (junction_fails T (and_scan T is_zero) _ false (and_scan_ok T is_zero) hs vss h e rest 0 None F E H).
  - destruct (existsb _ (concat vss)) eqn:E in |- *.
    + destruct (Q E) as (-> & -> & _). reflexivity.
    + rewrite B. exact (junction_fails T (or_scan T is_zero) _ true (or_scan_ok T is_zero) hs vss h e rest 0 None F E H).
Qed.
Example C184_ex : let hs := [HRange nat (Ok (mkRange false 1 1 [[SBool true; SErr 4%N]; [SEmpty; SInt 3]])); HCell nat (Ok (SText [65%N]))] in
  hs <> [] /\ Forall2 (fun h vs => values_of nat h = Ok vs) hs [[VS (SBool true); VS (SErr 4%N); VS SEmpty; VS (SInt 3)]; [VS (SText [65%N])]] /\
  snd (and_fn nat (Nat.eqb 0) hs) = Ok (sc nat (SBool false)) /\ snd (or_fn nat (Nat.eqb 0) hs) = Ok (sc nat (SBool true)).
Proof. cbn zeta. split; [discriminate|]. split; [repeat constructor|]. split; reflexivity. Qed.

(** ** C185: the laws of De Morgan, and XOR by AND, OR and NOT *)
Theorem C185_de_morgan : forall T is_zero hs, Forall (lone T) hs -> hs <> [] ->
  snd (or_fn T is_zero (map (fun h => nest T (not_fn T is_zero [h])) hs)) = snd (not_fn T is_zero [nest T (and_fn T is_zero hs)]) /\
  snd (and_fn T is_zero (map (fun h => nest T (not_fn T is_zero [h])) hs)) = snd (not_fn T is_zero [nest T (or_fn T is_zero hs)]).
Proof. intros T is_zero hs F N. split; [now apply de_morgan_and|now apply de_morgan_or]. Qed.
Theorem C185_not_not : forall T is_zero h,
  snd (not_fn T is_zero [nest T (not_fn T is_zero [nest T (not_fn T is_zero [h])])]) = snd (not_fn T is_zero [h]).
Proof.
  intros T is_zero h. cbn [LgModel.not_fn]. destruct (literal_of T h) as [v|e|]; try reflexivity. cbn.
  destruct (truth_of T is_zero v) as [b| |e|]; cbn; rewrite ?negb_involutive; reflexivity.
Qed.
Theorem C185_not : forall T is_zero h,
  not_fn T is_zero [h] = ([0], match literal_of T h with
                              | Ok v => Ok (sc T (or_else T (fault T v) (no T is_zero v || blank T v)))
                              | Err e => Err e
                              | Panic => Panic
                              end).
Proof.
  intros T is_zero h. cbn [LgModel.not_fn]. destruct (literal_of T h) as [v|e|]; try reflexivity.
  destruct v as [[]|]; cbn; rewrite ?orb_false_r, ?negb_involutive; reflexivity.
Qed.
Theorem C185_xor : forall T is_zero a b, single T a -> single T b ->
  snd (xor_fn T is_zero [a; b]) =
  snd (and_fn T is_zero [nest T (or_fn T is_zero [a; b]); nest T (not_fn T is_zero [nest T (and_fn T is_zero [a; b])])]).
Proof. exact xor_by_and. Qed.
Example C185_ex : Forall (lone nat) [HCell nat (Ok SEmpty); HExpr nat (Err 2%N)] /\ single nat (HExpr nat (Err 2%N)) /\
  snd (xor_fn nat (Nat.eqb 0) [HCell nat (Ok (SInt 2)); HCell nat (Ok SEmpty)]) = Ok (sc nat (SBool true)).
Proof. repeat constructor. Qed.

(** ** C186: XOR counts, and shows the first error *)
Theorem C186_xor_partial : forall T is_zero hs vss, hs <> [] ->
  Forall2 (fun h vs => all_values T h = Ok vs) hs vss -> Forall (one_fault T) vss ->
  xor_fn T is_zero hs = (seq 0 (length hs), Ok (sc T (xor_of T is_zero (concat vss)))).
Proof.
  intros T is_zero hs vss N F O. rewrite (xor_ok T is_zero hs vss N F). unfold xor_of. rewrite <- first_of_firsts.
  rewrite (map_ext_in (last_fault T) (first_fault T) vss); [reflexivity|].
  intros vs H. apply one_fault_same. rewrite Forall_forall in O. auto.
Qed.
Theorem C186_xor_failure : forall T is_zero hs vss h e rest, Forall2 (fun h vs => all_values T h = Ok vs) hs vss -> all_values T h = Err e ->
  xor_fn T is_zero (hs ++ h :: rest) = (seq 0 (S (length hs)), Err e).
Proof.
  intros T is_zero hs vss h e rest F H.
  assert (HV : view_of T h = None /\ literal_of T h = Err e).
  { destruct h as [[]|[]| |[[[[]|]|]| |]]; cbn in H |- *; try discriminate; split; try reflexivity; congruence. }
  assert (L : forall i n f, xor_loop T is_zero i n f (hs ++ h :: rest) = (seq i (S (length hs)), Err e)).
  { revert vss F. induction hs as [|g hs IH]; intros vss F i n f; inversion F as [|? vs ? vss' V F']; subst.
    - cbn [app xor_loop length seq]. now rewrite (proj1 HV), (proj2 HV).
    - cbn [app xor_loop length seq]. destruct (view_of T g) as [cells|] eqn:W.
      + destruct (fold_left (xor_cell T is_zero f) cells (n, None)). now rewrite (IH vss' F').
      + destruct (literal_of T g) as [v|k|] eqn:Lg.
        * destruct (xor_one T is_zero n f v). now rewrite (IH vss' F').
        * exfalso. destruct g as [[]|[]| |[[[[]|]|]| |]]; cbn in *; discriminate.
        * exfalso. destruct g as [[]|[]| |[[[[]|]|]| |]]; cbn in *; discriminate. }
  unfold xor_fn. destruct hs; apply L.
Qed.
(** Of two errors in one range XOR shows the last. *)
Theorem C186_last_error_refuted :
  exists hs vss, Forall2 (fun h vs => all_values nat h = Ok vs) hs vss /\
    first_fault nat (concat vss) = Some 4%N /\ snd (xor_fn nat (Nat.eqb 0) hs) = Ok (sc nat (SErr 5%N)).
Proof.
  exists [HRange nat (Ok (mkRange false 1 1 [[SErr 4%N; SErr 5%N]]))], [[VS (SErr 4%N); VS (SErr 5%N)]].
  split; [repeat constructor|]. split; reflexivity.
Qed.
(** A range, an array literal and a computed array with the same cells are the same to XOR; to
    AND and OR only the first two. *)
Theorem C186_arrays_in_xor : forall T is_zero r h xs ys,
  In h [HRange T (Ok r); HArray T (g_cells r); HExpr T (Ok (SeenPlain (PRange r))); HExpr T (Ok (SeenPlain (PScalar (VA (g_cells r)))))] ->
  xor_fn T is_zero (xs ++ h :: ys) = xor_fn T is_zero (xs ++ HRange T (Ok r) :: ys).
Proof.
  intros T is_zero r h xs ys I.
  assert (V : view_of T h = view_of T (HRange T (Ok r))) by (cbn in I; destruct I as [<-|[<-|[<-|[<-|[]]]]]; reflexivity).
  assert (L : forall i n f, xor_loop T is_zero i n f (xs ++ h :: ys) = xor_loop T is_zero i n f (xs ++ HRange T (Ok r) :: ys)).
  { induction xs as [|x xs IH]; intros i n f.
    - cbn [app xor_loop]. rewrite V. reflexivity.
    - cbn [app xor_loop]. destruct (view_of T x) as [cells|].
      + destruct (fold_left (xor_cell T is_zero f) cells (n, None)). now rewrite IH.
      + destruct (literal_of T x) as [v|e|]; auto. destruct (xor_one T is_zero n f v). now rewrite IH. }
  unfold xor_fn. destruct xs; apply L.
Qed.
Lemma junction_same : forall T scan d xs h h' ys i f, values_of T h = values_of T h' ->
  junction T scan d i f (xs ++ h :: ys) = junction T scan d i f (xs ++ h' :: ys).
Proof.
  induction xs as [|x xs IH]; intros h h' ys i f E.
  - cbn [app junction]. rewrite E. reflexivity.
  - cbn [app junction]. destruct (values_of T x) as [vs|e|]; auto. destruct (scan f vs); auto. now rewrite (IH h h').
Qed.
Theorem C186_literals_in_and_or : forall T is_zero r xs ys,
  and_fn T is_zero (xs ++ HArray T (g_cells r) :: ys) = and_fn T is_zero (xs ++ HRange T (Ok r) :: ys) /\
  or_fn T is_zero (xs ++ HArray T (g_cells r) :: ys) = or_fn T is_zero (xs ++ HRange T (Ok r) :: ys).
Proof.
  intros. unfold and_fn, or_fn. destruct xs as [|x xs]; split.
  - apply (junction_same T _ false []). reflexivity.
  - apply (junction_same T _ true []). reflexivity.
  - apply (junction_same T _ false (x :: xs)). reflexivity.
  - apply (junction_same T _ true (x :: xs)). reflexivity.
Qed.
Theorem C186_computed_arrays_refuted : forall T is_zero,
  let r := mkRange true 0 0 [[SBool true; SBool true]] : range T in
  snd (and_fn T is_zero [HRange T (Ok r)]) = Ok (sc T (SBool true)) /\
  snd (and_fn T is_zero [HExpr T (Ok (SeenPlain (PRange r)))]) = Ok (sc T (SErr K_VALUE)) /\
  snd (or_fn T is_zero [HRange T (Ok r)]) = Ok (sc T (SBool true)) /\
  snd (or_fn T is_zero [HExpr T (Ok (SeenPlain (PRange r)))]) = Ok (sc T (SErr K_VALUE)).
Proof. intros. repeat split. Qed.
Example C186_ex : let r := mkRange false 1 1 [[SBool true; SErr 4%N]; [SEmpty; SInt 3]] : range nat in
  Forall2 (fun h vs => all_values nat h = Ok vs) [HExpr nat (Ok (SeenPlain (PRange r)))] [[VS (SBool true); VS (SErr 4%N); VS SEmpty; VS (SInt 3)]] /\
  Forall (one_fault nat) [[VS (SBool true); VS (SErr 4%N); VS SEmpty; VS (SInt 3)]].
Proof. cbn zeta. split; repeat constructor. Qed.

(** ** C187: IF and IFS give the branch whose condition holds, and look at nothing else *)
Theorem C187_if_partial : forall T is_zero c v a b, literal_of T c = Ok v -> fault T v = None ->
  if_fn T is_zero [c; a; b] = (if yes T is_zero v then ([0; 1], value_of T a) else ([0; 2], value_of T b)) /\
  if_fn T is_zero [c; a] = (if yes T is_zero v then ([0; 1], value_of T a) else says T [0] (SBool false)).
Proof.
  intros T is_zero c v a b L F. rewrite (if_ok T is_zero c v a [b]) by (cbn; auto). rewrite (if_ok T is_zero c v a []) by (cbn; auto).
  rewrite F. split; reflexivity.
Qed.
(** The error of a condition is lost in IF. *)
Theorem C187_if_error_refuted : forall T is_zero (e : N) a b, 
  snd (if_fn T is_zero [HCell T (Ok (SErr e)); a; b]) = Ok (sc T (SErr K_VALUE)) /\
  snd (if_fn T is_zero [HExpr T (Err e); a; b]) = Err e /\
  snd (ifs_fn T is_zero [HCell T (Ok (SErr e)); a; HCell T (Ok (SBool true)); b]) = Ok (sc T (SErr e)).
Proof. intros. repeat split. Qed.
Theorem C187_ifs_first : forall T is_zero ps c v a rest, Forall (fun p => passes T is_zero (fst p)) ps -> Nat.even (length rest) = true ->
  literal_of T c = Ok v ->
  (yes T is_zero v = true -> ifs_fn T is_zero (flat T ps ++ c :: a :: rest) = (evens 0 (S (length ps)) ++ [S (2 * length ps)], value_of T a)) /\
  (forall e, fault T v = Some e -> ifs_fn T is_zero (flat T ps ++ c :: a :: rest) = says T (evens 0 (S (length ps))) (SErr e)).
Proof. exact ifs_first. Qed.
Theorem C187_ifs_none : forall T is_zero ps, Forall (fun p => passes T is_zero (fst p)) ps -> ps <> [] ->
  ifs_fn T is_zero (flat T ps) = says T (evens 0 (length ps)) (SErr K_NA).
Proof. exact ifs_none. Qed.
Theorem C187_ifs_is_if : forall T is_zero c v a rest, Nat.even (length rest) = true -> rest <> [] -> literal_of T c = Ok v -> fault T v = None ->
  snd (ifs_fn T is_zero (c :: a :: rest)) = snd (if_fn T is_zero [c; a; nest T (ifs_fn T is_zero rest)]).
Proof. exact ifs_if. Qed.
(** A condition whose evaluation fails is the end. *)
Theorem C187_failure : forall T is_zero c e a, literal_of T c = Err e ->
  (forall rest, length rest <= 1 -> if_fn T is_zero (c :: a :: rest) = ([0], Err e)) /\
  (forall ps rest, Forall (fun p => passes T is_zero (fst p)) ps -> Nat.even (length rest) = true ->
     ifs_fn T is_zero (flat T ps ++ c :: a :: rest) = (evens 0 (S (length ps)), Err e)).
Proof.
  intros T is_zero c e a L. split.
  - intros rest N. unfold if_fn. destruct (Nat.ltb_spec 1 (length rest)); [lia|]. now rewrite L.
  - intros ps rest F E. unfold ifs_fn.
    assert (LN : length (flat T ps ++ c :: a :: rest) = 2 * S (length ps) + length rest).
    { clear F. induction ps as [|[x y] ps IH]; cbn [flat app length] in *; [lia|]. rewrite IH. lia. }
    rewrite LN. destruct (Nat.ltb_spec (2 * S (length ps) + length rest) 2); [lia|].
    rewrite Nat.even_add, Nat.even_mul, E. cbn [Nat.even orb negb Bool.eqb].
    rewrite (ifs_skip T is_zero ps 0 (c :: a :: rest) F). cbn [ifs_loop]. rewrite L. cbn [Nat.add].
    f_equal. unfold evens. rewrite seq_S, map_app. reflexivity.
Qed.
(** Other numbers of arguments are #VALUE!. *)
Theorem C187_arity : forall T is_zero hs,
  ((length hs < 2 \/ 3 < length hs) -> if_fn T is_zero hs = says T [] (SErr K_VALUE)) /\
  ((length hs < 2 \/ Nat.odd (length hs) = true) -> ifs_fn T is_zero hs = says T [] (SErr K_VALUE)).
Proof.
  intros T is_zero hs. split; intros H.
  - destruct hs as [|c [|a [|b [|d hs]]]]; cbn in *; try reflexivity; lia.
  - unfold ifs_fn. destruct (Nat.ltb_spec (length hs) 2); [reflexivity|]. destruct H as [H|H]; [lia|].
    rewrite <- Nat.negb_odd, H. reflexivity.
Qed.
Example C187_ex : passes nat (Nat.eqb 0) (HCell nat (Ok SEmpty)) /\ passes nat (Nat.eqb 0) (HCell nat (Ok (SNum 0))) /\
  literal_of nat (HCell nat (Ok (SInt 7))) = Ok (VS (SInt 7)) /\ yes nat (Nat.eqb 0) (VS (SInt 7)) = true /\ fault nat (VS (SInt 7)) = None.
Proof. repeat split; eexists; split; try reflexivity; auto. Qed.

(** ** C188: IFERROR and IFNA replace errors, and only them *)
Definition shows_error (T : Type) (o : outcome T) : option N :=
  match shown T o with Some (VS (SErr e)) => Some e | _ => None end.
(** Not an array of one cell, and not a LAMBDA. *)
Definition ordinary (T : Type) (h : handle T) : Prop :=
  match value_of T h with Ok SeenCall => False | Ok (SeenPlain (PRange r)) => forall s, g_cells r <> [[s]] | Panic => False | _ => True end.
Theorem C188_iferror_partial : forall T a b, ordinary T a ->
  iferror_fn T [a; b] = match shows_error T (value_of T a) with Some _ => ([0; 1], value_of T b) | None => ([0], value_of T a) end.
Proof.
  intros T a b O. unfold iferror_fn, ordinary, shows_error, shown in *. destruct (value_of T a) as [[[v|r]|]|e|]; try contradiction; cbn.
  - destruct v as [[]|]; reflexivity.
  - destruct (g_cells r) as [|[|s [|s2 row]] [|row2 g]] eqn:G; try reflexivity. exfalso. now apply (O s).
  - reflexivity.
Qed.
Theorem C188_ifna_partial : forall T a b, ordinary T a -> (forall e, value_of T a = Err e -> e <> K_NA) ->
  ifna_fn T [a; b] = match shows_error T (value_of T a) with
                     | Some e => if (e =? K_NA)%N then ([0; 1], value_of T b) else ([0], value_of T a)
                     | None => ([0], value_of T a)
                     end.
Proof.
  intros T a b O H.
  unfold ifna_fn, ordinary, shows_error, shown in *. destruct (value_of T a) as [[[v|r]|]|e|]; try contradiction; cbn.
  - destruct v as [[]|]; reflexivity.
  - destruct (g_cells r) as [|[|s [|s2 row]] [|row2 g]] eqn:G; try reflexivity. exfalso. now apply (O s).
  - destruct (N.eqb_spec e K_NA); [exfalso; now apply (H e)|reflexivity].
Qed.
(** An error in an array of one cell is shown but not replaced; nor is a failed evaluation
    with #N/A by IFNA. *)
Theorem C188_one_cell_refuted : forall T (e : N) b,
  let a := HArray T [[SErr e]] in
  shows_error T (value_of T a) = Some e /\ shown T (snd (iferror_fn T [a; b])) = Some (VS (SErr e)) /\
  fst (iferror_fn T [a; b]) = [0].
Proof. intros. repeat split. Qed.
Theorem C188_ifna_failure_refuted : forall T b,
  let a := HExpr T (Err K_NA) in
  shows_error T (value_of T a) = Some K_NA /\ shown T (snd (ifna_fn T [a; b])) = Some (VS (SErr K_NA)) /\
  snd (iferror_fn T [a; b]) = value_of T b.
Proof. intros. repeat split. Qed.
Example C188_ex : ordinary nat (HCell nat (Ok (SErr 5%N))) /\ ordinary nat (HExpr nat (Err 4%N)) /\
  ifna_fn nat [HCell nat (Ok (SErr 5%N)); HCell nat (Ok (SInt 7))] = ([0; 1], Ok (sc nat (SInt 7))).
Proof. repeat split. Qed.

(** ** C189: SWITCH *)
Theorem C189_first_equal : forall T close of_int x e ps c v a rest, literal_of T x = Ok e -> is_error T e = false ->
  Forall (fun p => differs T close of_int e (fst p)) ps -> literal_of T c = Ok v -> switch_equal T close of_int e v = true ->
  switch_fn T close of_int (x :: flat T ps ++ c :: a :: rest) = (0 :: evens 1 (S (length ps)) ++ [2 + 2 * length ps], value_of T a).
Proof. exact switch_first. Qed.
Theorem C189_default : forall T close of_int x e ps d, literal_of T x = Ok e -> is_error T e = false -> ps <> [] ->
  Forall (fun p => differs T close of_int e (fst p)) ps ->
  switch_fn T close of_int (x :: flat T ps ++ [d]) = (0 :: evens 1 (length ps) ++ [1 + 2 * length ps], value_of T d) /\
  switch_fn T close of_int (x :: flat T ps) = says T (0 :: evens 1 (length ps)) (SErr K_NA).
Proof. exact switch_default. Qed.
Theorem C189_error : forall T close of_int x e a b rest, literal_of T x = Ok (VS (SErr e)) ->
  switch_fn T close of_int (x :: a :: b :: rest) = says T [0] (SErr e).
Proof. intros T close of_int x e a b rest L. unfold switch_fn. now rewrite L. Qed.
Theorem C189_failure : forall T close of_int x e ps c k a rest, literal_of T x = Ok e -> is_error T e = false ->
  Forall (fun p => differs T close of_int e (fst p)) ps -> literal_of T c = Err k ->
  switch_fn T close of_int (x :: flat T ps ++ c :: a :: rest) = (0 :: evens 1 (S (length ps)), Err k).
Proof.
  intros T close of_int x e ps c k a rest L E F K. rewrite (switch_start T close of_int x e) by (auto; rewrite app_length; cbn [length]; lia).
  rewrite (switch_skip T close of_int e ps 1 (c :: a :: rest) F). cbn [switch_loop]. rewrite K.
  f_equal. unfold evens. rewrite seq_S, map_app. reflexivity.
Qed.
Theorem C189_failed_expression : forall T close of_int x k a b rest, literal_of T x = Err k ->
  switch_fn T close of_int (x :: a :: b :: rest) = ([0], Err k).
Proof. intros T close of_int x k a b rest L. unfold switch_fn. now rewrite L. Qed.
(** What equality is: of one kind of values, texts without regard to ASCII case. *)
Theorem C189_equality : forall T close of_int, (forall x, close x x = true) -> (forall x y, close x y = close y x) ->
  (forall a, match a with VS (SErr _) | VS (SDate _ _) | VS SOther | VA _ => switch_equal T close of_int a a = false
             | _ => switch_equal T close of_int a a = true end) /\
  (forall a b, switch_equal T close of_int a b = switch_equal T close of_int b a) /\
  (forall x y, switch_equal T close of_int (VS (SText x)) (VS (SText y)) = true <-> map to_ascii_upper x = map to_ascii_upper y).
Proof.
  intros T close of_int R S1. split; [|split].
  - intros [[]|]; cbn; auto; [apply Z.eqb_refl|apply eqb_reflx|apply text_eqb_spec; reflexivity].
  - assert (Tx : forall x y, text_eqb x y = text_eqb y x).
    { intros x y. destruct (text_eqb x y) eqn:E.
      - apply text_eqb_spec in E. subst. symmetry. now apply text_eqb_spec.
      - destruct (text_eqb y x) eqn:E2; auto. apply text_eqb_spec in E2. subst. assert (text_eqb x x = true) by (now apply text_eqb_spec). congruence. }
    intros [[]|] [[]|]; cbn; auto; [apply Z.eqb_sym|destruct b, b0; reflexivity].
  - intros x y. cbn. apply text_eqb_spec.
Qed.
(** It is not the equality of the operator =: a blank is 0 to the operator. *)
Theorem C189_blank_refuted : forall W, w_cmp W (w_zero W) (w_zero W) = Some Eq -> forall close of_int a d,
  compare W CEq (SNum (w_zero W)) SEmpty = SBool true /\
  snd (switch_fn (EvModel.T W) close of_int [HCell _ (Ok (SNum (w_zero W))); HCell _ (Ok SEmpty); a; d]) = value_of _ d.
Proof. intros W H close of_int a d. split; [|reflexivity]. cbn. rewrite H. reflexivity. Qed.
(** And it is not transitive: numbers (here in units of 1e-13) are equal within 1e-12. *)
Theorem C189_transitive_refuted :
  let close x y := (Z.abs (x - y) <? 10)%Z in let of_int z := (z * 10000000000000)%Z in
  exists a b c, switch_equal Z close of_int a b = true /\ switch_equal Z close of_int b c = true /\ switch_equal Z close of_int a c = false.
Proof. exists (VS (SNum 0%Z)), (VS (SNum 9%Z)), (VS (SNum 18%Z)). repeat split. Qed.
Example C189_ex : differs nat Nat.eqb Z.to_nat (VS (SText [97%N])) (HCell nat (Ok (SText [66%N]))) /\
  switch_equal nat Nat.eqb Z.to_nat (VS (SText [97%N])) (VS (SText [65%N])) = true.
Proof. split; [eexists; split; reflexivity|reflexivity]. Qed.

(** ** C190: CHOOSE *)
Theorem C190_choose : forall T trunc h v z hs, literal_of T h = Ok v ->
  v = VS (SInt z) \/ (exists x, v = VS (SNum x) /\ z = trunc x) -> hs <> [] ->
  choose_fn T trunc (h :: hs) =
  match (if (1 <=? z)%Z then nth_error hs (Z.to_nat (z - 1)) else None) with
  | Some a => ([0; Z.to_nat z], value_of T a)
  | None => says T [0] (SErr K_VALUE)
  end.
Proof. exact choose_ok. Qed.
Theorem C190_choose_is_switch : forall T close of_int trunc z hs, hs <> [] ->
  snd (choose_fn T trunc (number T z :: hs)) = snd (switch_fn T close of_int (number T z :: numbered T 1 hs)).
Proof. exact choose_switch. Qed.
(** The error of the index passes; a text, a blank or a truth value is no index. *)
Theorem C190_index : forall T trunc h a hs, 
  (forall e, literal_of T h = Ok (VS (SErr e)) -> choose_fn T trunc (h :: a :: hs) = says T [0] (SErr e)) /\
  (forall e, value_of T h = Err e -> choose_fn T trunc (h :: a :: hs) = ([0], Err e)) /\
  (forall v, literal_of T h = Ok v -> (match v with VS (SErr _) | VS (SNum _) | VS (SInt _) => False | _ => True end) ->
     choose_fn T trunc (h :: a :: hs) = says T [0] (SErr K_VALUE)).
Proof.
  intros T trunc h a hs. split; [|split].
  - intros e L. unfold choose_fn. now rewrite L.
  - intros e L. unfold choose_fn, literal_of. now rewrite L.
  - intros v L K. unfold choose_fn. rewrite L. destruct v as [[]|]; try contradiction; reflexivity.
Qed.
(** Too few or too many arguments are #VALUE!, and nothing is looked at. *)
Theorem C190_arity : forall T is_zero close of_int trunc,
  let bad := says T [] (SErr K_VALUE) in
  and_fn T is_zero [] = bad /\ or_fn T is_zero [] = bad /\ xor_fn T is_zero [] = bad /\
  (forall hs, length hs <> 1 -> not_fn T is_zero hs = bad) /\
  (forall hs, length hs <> 2 -> iferror_fn T hs = bad /\ ifna_fn T hs = bad) /\
  (forall hs, length hs < 3 -> switch_fn T close of_int hs = bad) /\
  (forall hs, length hs < 2 -> choose_fn T trunc hs = bad).
Proof.
  intros. repeat split; intros.
  - destruct hs as [|? [|? hs]]; cbn in *; auto; lia.
  - destruct hs as [|? [|? [|? hs]]]; cbn in *; auto; lia.
  - destruct hs as [|? [|? [|? hs]]]; cbn in *; auto; lia.
  - destruct hs as [|? [|? [|? hs]]]; cbn in *; auto; lia.
  - destruct hs as [|? [|? hs]]; cbn in *; auto; lia.
Qed.
Example C190_ex : choose_fn nat Z.of_nat [HCell nat (Ok (SNum 2)); HExpr nat (Err 4%N); HCell nat (Ok (SBool true))] = ([0; 2], Ok (sc nat (SBool true))).
Proof. reflexivity. Qed.
Print Assumptions C184_and_partial.
Print Assumptions C184_or_partial.
Print Assumptions C184_order_partial.
Print Assumptions C184_short_circuit.
Print Assumptions C184_failure_hides_refuted.
Print Assumptions C184_failure.
Print Assumptions C185_de_morgan.
Print Assumptions C185_not_not.
Print Assumptions C185_not.
Print Assumptions C185_xor.
Print Assumptions C186_xor_partial.
Print Assumptions C186_xor_failure.
Print Assumptions C186_last_error_refuted.
Print Assumptions C186_arrays_in_xor.
Print Assumptions C186_literals_in_and_or.
Print Assumptions C186_computed_arrays_refuted.
Print Assumptions C187_if_partial.
Print Assumptions C187_if_error_refuted.
Print Assumptions C187_ifs_first.
Print Assumptions C187_ifs_none.
Print Assumptions C187_ifs_is_if.
Print Assumptions C187_failure.
Print Assumptions C187_arity.
Print Assumptions C188_iferror_partial.
Print Assumptions C188_ifna_partial.
Print Assumptions C188_one_cell_refuted.
Print Assumptions C188_ifna_failure_refuted.
Print Assumptions C189_first_equal.
Print Assumptions C189_default.
Print Assumptions C189_error.
Print Assumptions C189_failure.
Print Assumptions C189_failed_expression.
Print Assumptions C189_equality.
Print Assumptions C189_blank_refuted.
Print Assumptions C189_transitive_refuted.
Print Assumptions C190_choose.
Print Assumptions C190_choose_is_switch.
Print Assumptions C190_index.
Print Assumptions C190_arity.
