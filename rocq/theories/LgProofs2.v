(** More proofs about LgModel.v: XOR of two values, IF, IFS, IFERROR, SWITCH, CHOOSE. *)
From Coq Require Import List Bool NArith ZArith Arith Lia.
From Verif Require Import Base Maps LookupModel EvModel LgModel LgSpec LgProofs.
Import ListNotations.

Section Proofs2.
Variable T : Type.
Variable is_zero : T -> bool.
Variable close : T -> T -> bool.
Variable of_int : Z -> T.
Variable trunc : T -> Z.
Notation handle := (handle T).
Notation truth_of := (truth_of T is_zero).
Notation and_fn := (and_fn T is_zero). Notation or_fn := (or_fn T is_zero). Notation not_fn := (not_fn T is_zero).
Notation xor_fn := (xor_fn T is_zero). Notation if_fn := (if_fn T is_zero). Notation ifs_fn := (ifs_fn T is_zero).
Notation switch_fn := (switch_fn T close of_int). Notation choose_fn := (choose_fn T trunc).
Notation values_of := (values_of T). Notation literal_of := (literal_of T). Notation value_of := (value_of T).
Notation yes := (yes T is_zero). Notation no := (no T is_zero). Notation blank := (blank T). Notation fault := (fault T).

Definition one_of (h : handle) : res N (scalar T) :=
  match h with
  | HCell _ s => s
  | HExpr _ (Ok SeenCall) => Ok (SErr K_CALC)
  | HExpr _ (Ok (SeenPlain (PScalar (VS s)))) => Ok s
  | HExpr _ (Err e) => Err e
  | _ => Panic
  end.
Lemma single_eqs : forall h, single T h ->
  literal_of h = rbind (one_of h) (fun s => Ok (VS s)) /\ values_of h = rbind (one_of h) (fun s => Ok [VS s]).
Proof.
  intros h S1. destruct h as [s| | |[[[[s|g]|r]|]|e|]]; cbn in *; try contradiction; unfold LgModel.literal_of; cbn; auto.
  destruct s; auto.
Qed.
Lemma xor_single : forall h hs i n first, single T h ->
  xor_loop T is_zero i n first (h :: hs) =
  match one_of h with
  | Ok s => let '(n', f') := xor_one T is_zero n first (VS s) in
            let '(t, r) := xor_loop T is_zero (S i) n' f' hs in (i :: t, r)
  | Err e => ([i], Err e)
  | Panic => ([i], Panic)
  end.
Proof.
  intros h hs i n first S1. destruct h as [[s| |]| | |[[[[s|g]|r]|]|e|]]; cbn in S1; try contradiction; try reflexivity.
  cbn [xor_loop view_of one_of fold_left]. unfold xor_cell, xor_one.
  destruct (truth_of (VS s)) as [[|]| |e|], first; reflexivity.
Qed.
Lemma xor_by_and : forall a b, single T a -> single T b ->
  snd (xor_fn [a; b]) = snd (and_fn [nest T (or_fn [a; b]); nest T (not_fn [nest T (and_fn [a; b])])]).
Proof.
  intros a b Sa Sb. unfold LgModel.xor_fn. rewrite xor_single by auto.
  destruct (single_eqs a Sa) as [La Va]. destruct (single_eqs b Sb) as [Lb Vb].
  unfold LgModel.and_fn, LgModel.or_fn. cbn [junction]. rewrite Va. destruct (one_of a) as [sa|e|]; cbn [rbind]; try reflexivity.
  cbn [or_scan and_scan]. unfold xor_one at 1.
  destruct (truth_of (VS sa)) as [[|]| |e|] eqn:Ta; cbn [keep]; rewrite ?xor_single by auto; rewrite ?Vb;
    destruct (one_of b) as [sb|k|]; cbn [rbind or_scan and_scan]; unfold xor_one;
    try (destruct (truth_of (VS sb)) as [[|]| |k|] eqn:Tb); reflexivity.
Qed.

(** ** IF and IFS *)
Lemma if_ok : forall c v a rest, length rest <= 1 -> literal_of c = Ok v ->
  if_fn (c :: a :: rest) =
  match fault v with
  | Some _ => says T [0] (SErr K_VALUE)
  | None => if yes v then ([0; 1], value_of a)
            else match rest with b :: _ => ([0; 2], value_of b) | [] => says T [0] (SBool false) end
  end.
Proof.
  intros c v a rest L E. unfold LgModel.if_fn. destruct (Nat.ltb_spec 1 (length rest)) as [Lt|_]; [lia|]. rewrite E.
  pose proof (truth_spec T is_zero v) as H. destruct (truth_of v) as [[|]| |e|]; destruct H as (-> & _ & _ & ->); reflexivity.
Qed.
Fixpoint flat (ps : list (handle * handle)) : list handle := match ps with [] => [] | (c, a) :: ps => c :: a :: flat ps end.
Lemma flat_length : forall ps, length (flat ps) = 2 * length ps.
Proof. induction ps as [|[c a] ps IH]; cbn in *; lia. Qed.
Definition passes (c : handle) : Prop := exists v, literal_of c = Ok v /\ (no v = true \/ blank v = true).
Definition evens (i n : nat) : list nat := map (fun k => i + 2 * k) (seq 0 n).
Lemma evens_S : forall i n, evens i (S n) = i :: evens (S (S i)) n.
Proof.
  intros i n. unfold evens. cbn [seq map]. f_equal; [lia|]. rewrite <- seq_shift, map_map. apply map_ext. intros k. lia.
Qed.
Lemma pass_truth : forall v, no v = true \/ blank v = true -> truth_of v = TBool false \/ truth_of v = TBlank.
Proof.
  intros v H. pose proof (truth_spec T is_zero v) as S1.
  destruct (truth_of v) as [[|]| |e|]; auto; destruct S1 as (_ & Q & R & _); rewrite Q, R in H; cbn in H; destruct H; discriminate.
Qed.
Lemma ifs_skip : forall ps i rest, Forall (fun p => passes (fst p)) ps ->
  ifs_loop T is_zero i (flat ps ++ rest) =
  let '(t, r) := ifs_loop T is_zero (i + 2 * length ps) rest in (evens i (length ps) ++ t, r).
Proof.
  induction ps as [|[c a] ps IH]; intros i rest F.
  - cbn [flat app length Nat.mul]. rewrite Nat.add_0_r. destruct (ifs_loop T is_zero i rest). reflexivity.
  - inversion F as [|? ? (v & L & P) F']; subst. cbn [fst] in L. cbn [flat app ifs_loop]. rewrite L.
    assert (E : (let '(t, r) := ifs_loop T is_zero (S (S i)) (flat ps ++ rest) in (i :: t, r)) =
      let '(t, r) := ifs_loop T is_zero (i + 2 * length ((c, a) :: ps)) rest in (evens i (length ((c, a) :: ps)) ++ t, r)).
    { rewrite IH by auto. cbn [length]. rewrite evens_S. replace (i + 2 * S (length ps)) with (S (S i) + 2 * length ps) by lia.
      destruct (ifs_loop T is_zero (S (S i) + 2 * length ps) rest). reflexivity. }
    destruct (pass_truth v P) as [-> | ->]; exact E.
Qed.
Lemma ifs_first : forall ps c v a rest, Forall (fun p => passes (fst p)) ps -> Nat.even (length rest) = true ->
  literal_of c = Ok v ->
  (yes v = true -> ifs_fn (flat ps ++ c :: a :: rest) = (evens 0 (S (length ps)) ++ [S (2 * length ps)], value_of a)) /\
  (forall e, fault v = Some e -> ifs_fn (flat ps ++ c :: a :: rest) = says T (evens 0 (S (length ps))) (SErr e)).
Proof.
  intros ps c v a rest F E L.
  assert (A : ifs_fn (flat ps ++ c :: a :: rest) = ifs_loop T is_zero 0 (flat ps ++ c :: a :: rest)).
  { unfold LgModel.ifs_fn. rewrite app_length, flat_length. cbn [length].
    destruct (Nat.ltb_spec (2 * length ps + S (S (length rest))) 2); [lia|]. cbn [orb].
    replace (2 * length ps + S (S (length rest))) with (length rest + 2 * (length ps + 1)) by lia.
    rewrite Nat.even_add, E, Nat.even_mul. cbn [Nat.even orb Bool.eqb]. reflexivity. }
  assert (Sn : evens 0 (S (length ps)) = evens 0 (length ps) ++ [2 * length ps])
    by (unfold evens; rewrite seq_S, map_app; reflexivity).
  rewrite A, ifs_skip by auto. cbn [ifs_loop Nat.add]. rewrite L.
  pose proof (truth_spec T is_zero v) as H. split.
  - intros Y. rewrite Y in H. destruct (truth_of v) as [[|]| |e|]; try (destruct H as (H & _); discriminate).
    rewrite Sn, <- app_assoc. reflexivity.
  - intros e Fv. rewrite Fv in H. destruct (truth_of v) as [b| |k|]; destruct H as (_ & _ & _ & H); try discriminate;
      injection H as ->; unfold says; rewrite Sn; reflexivity.
Qed.
Lemma ifs_none : forall ps, Forall (fun p => passes (fst p)) ps -> ps <> [] ->
  ifs_fn (flat ps) = says T (evens 0 (length ps)) (SErr K_NA).
Proof.
  intros ps F N. unfold LgModel.ifs_fn. rewrite flat_length. destruct ps as [|p ps]; [congruence|].
  destruct (Nat.ltb_spec (2 * length (p :: ps)) 2); [cbn [length] in *; lia|]. cbn [orb].
  rewrite Nat.even_mul. cbn [Nat.even orb negb]. rewrite <- (app_nil_r (flat (p :: ps))), ifs_skip by auto. cbn [ifs_loop].
  unfold says. now rewrite app_nil_r.
Qed.
(** IFS is IF with the rest as the other branch. *)
Lemma ifs_if : forall c v a rest, Nat.even (length rest) = true -> rest <> [] -> literal_of c = Ok v -> fault v = None ->
  snd (ifs_fn (c :: a :: rest)) = snd (if_fn [c; a; nest T (ifs_fn rest)]).
Proof.
  intros c v a rest E N L Fv. rewrite (if_ok c v a [nest T (ifs_fn rest)]) by (cbn; auto). rewrite Fv.
  assert (P : forall i j hs, snd (ifs_loop T is_zero i hs) = snd (ifs_loop T is_zero j hs)).
  { intros i j hs. remember (length hs) as n eqn:Ln. revert i j hs Ln. induction n as [n IH] using lt_wf_ind. intros i j hs Ln.
    destruct hs as [|x [|y hs]]; try reflexivity. cbn [ifs_loop]. destruct (literal_of x) as [w| |]; try reflexivity.
    assert (Q : snd (ifs_loop T is_zero (S (S i)) hs) = snd (ifs_loop T is_zero (S (S j)) hs)) by (apply (IH (length hs)); cbn in Ln; auto; lia).
    destruct (ifs_loop T is_zero (S (S i)) hs), (ifs_loop T is_zero (S (S j)) hs). cbn [snd] in Q.
    destruct (truth_of w) as [[|]| |e|]; cbn; auto. }
  unfold LgModel.ifs_fn at 1. cbn [length Nat.even]. rewrite E. cbn [negb orb].
  destruct (Nat.ltb_spec (S (S (length rest))) 2) as [Lt|_]; [lia|]. cbn [orb ifs_loop]. rewrite L.
  assert (I : snd (ifs_fn rest) = snd (ifs_loop T is_zero 2 rest)).
  { unfold LgModel.ifs_fn. rewrite E. destruct (Nat.ltb_spec (length rest) 2); cbn [orb negb]; [|apply P].
    destruct rest as [|x [|y rest]]; [congruence|discriminate|cbn in *; lia]. }
  pose proof (truth_spec T is_zero v) as H. destruct (truth_of v) as [[|]| |e|]; destruct H as (-> & _ & _ & Q); try congruence; try reflexivity;
    unfold nest; cbn [LgModel.value_of snd]; rewrite I; destruct (ifs_loop T is_zero 2 rest); reflexivity.
Qed.

(** ** SWITCH *)
Definition differs (e : value T) (c : handle) : Prop := exists v, literal_of c = Ok v /\ switch_equal T close of_int e v = false.
Lemma switch_skip : forall e ps i rest, Forall (fun p => differs e (fst p)) ps ->
  switch_loop T close of_int e i (flat ps ++ rest) =
  let '(t, r) := switch_loop T close of_int e (i + 2 * length ps) rest in (evens i (length ps) ++ t, r).
Proof.
  induction ps as [|[c a] ps IH]; intros i rest F.
  - cbn [flat app length Nat.mul]. rewrite Nat.add_0_r. destruct (switch_loop T close of_int e i rest). reflexivity.
  - inversion F as [|? ? (v & L & P) F']; subst. cbn [fst] in L. cbn [flat app switch_loop]. rewrite L, P.
    rewrite IH by auto. cbn [length]. rewrite evens_S. replace (i + 2 * S (length ps)) with (S (S i) + 2 * length ps) by lia.
    destruct (switch_loop T close of_int e (S (S i) + 2 * length ps) rest). reflexivity.
Qed.
Definition is_error (v : value T) : bool := match v with VS (SErr _) => true | _ => false end.
Lemma switch_start : forall x e hs, literal_of x = Ok e -> is_error e = false -> 2 <= length hs ->
  switch_fn (x :: hs) = let '(t, r) := switch_loop T close of_int e 1 hs in (0 :: t, r).
Proof.
  intros x e hs L E N. destruct hs as [|h1 [|h2 hs]]; cbn [length] in N; try lia. unfold LgModel.switch_fn. rewrite L.
  destruct e as [[]|]; cbn in E; try discriminate; reflexivity.
Qed.
Lemma switch_first : forall x e ps c v a rest, literal_of x = Ok e -> is_error e = false ->
  Forall (fun p => differs e (fst p)) ps -> literal_of c = Ok v -> switch_equal T close of_int e v = true ->
  switch_fn (x :: flat ps ++ c :: a :: rest) = (0 :: evens 1 (S (length ps)) ++ [2 + 2 * length ps], value_of a).
Proof.
  intros x e ps c v a rest L E F Lc Q. rewrite (switch_start x e) by (auto; rewrite app_length; cbn; lia).
  rewrite switch_skip by auto. cbn [switch_loop]. rewrite Lc, Q.
  assert (Sn : evens 1 (S (length ps)) = evens 1 (length ps) ++ [1 + 2 * length ps]) by (unfold evens; rewrite seq_S, map_app; reflexivity).
  rewrite Sn, <- app_assoc. reflexivity.
Qed.
Lemma switch_default : forall x e ps d, literal_of x = Ok e -> is_error e = false -> ps <> [] ->
  Forall (fun p => differs e (fst p)) ps ->
  switch_fn (x :: flat ps ++ [d]) = (0 :: evens 1 (length ps) ++ [1 + 2 * length ps], value_of d) /\
  switch_fn (x :: flat ps) = says T (0 :: evens 1 (length ps)) (SErr K_NA).
Proof.
  intros x e ps d L E N F. assert (Lp : 2 <= length (flat ps)) by (rewrite flat_length; destruct ps; [congruence|cbn; lia]).
  split.
  - rewrite (switch_start x e) by (auto; rewrite app_length; lia). rewrite switch_skip by auto. reflexivity.
  - rewrite (switch_start x e) by auto. rewrite <- (app_nil_r (flat ps)), switch_skip by auto. cbn [switch_loop]. unfold says. now rewrite app_nil_r.
Qed.

(** ** CHOOSE *)
Definition number (z : Z) : handle := HExpr T (Ok (sc T (SInt z))).
Definition no_value : handle := HExpr T (Ok (sc T (SErr K_VALUE))).
Lemma choose_ok : forall h v z hs, literal_of h = Ok v -> v = VS (SInt z) \/ (exists x, v = VS (SNum x) /\ z = trunc x) -> hs <> [] ->
  choose_fn (h :: hs) =
  match (if (1 <=? z)%Z then nth_error hs (Z.to_nat (z - 1)) else None) with
  | Some a => ([0; Z.to_nat z], value_of a)
  | None => says T [0] (SErr K_VALUE)
  end.
Proof.
  intros h v z hs L V N. destruct hs as [|a hs]; [congruence|]. unfold LgModel.choose_fn. rewrite L.
  assert (E : (if ((z <? 1) || (Z.of_nat (length (a :: hs)) <? z))%Z then says T [0] (SErr K_VALUE)
              else match nth_error (h :: a :: hs) (Z.to_nat z) with
                   | Some a => ([0; Z.to_nat z], value_of a)
                   | None => ([0], Panic)
                   end) =
              match (if (1 <=? z)%Z then nth_error (a :: hs) (Z.to_nat (z - 1)) else None) with
              | Some a => ([0; Z.to_nat z], value_of a)
              | None => says T [0] (SErr K_VALUE)
              end).
  { destruct (Z.ltb_spec z 1), (Z.leb_spec 1 z); try lia; cbn [orb]; [reflexivity|].
    replace (Z.to_nat z) with (S (Z.to_nat (z - 1))) by lia.
    change (nth_error (h :: a :: hs) (S (Z.to_nat (z - 1)))) with (nth_error (a :: hs) (Z.to_nat (z - 1))).
    destruct (Z.ltb_spec (Z.of_nat (length (a :: hs))) z).
    - assert (Q : nth_error (a :: hs) (Z.to_nat (z - 1)) = None) by (apply nth_error_None; lia). rewrite Q. reflexivity.
    - destruct (nth_error (a :: hs) (Z.to_nat (z - 1))) eqn:Q; [reflexivity|]. apply nth_error_None in Q. lia. }
  destruct V as [-> |(x & -> & ->)]; exact E.
Qed.
(** CHOOSE as SWITCH on 1, 2, 3, ... *)
Fixpoint numbered (k : Z) (hs : list handle) : list handle :=
  match hs with [] => [no_value] | h :: hs => number k :: h :: numbered (k + 1) hs end.
Lemma numbered_ok : forall hs k z i, snd (switch_loop T close of_int (VS (SInt z)) i (numbered k hs)) =
  match (if (k <=? z)%Z then nth_error hs (Z.to_nat (z - k)) else None) with
  | Some a => value_of a
  | None => Ok (sc T (SErr K_VALUE))
  end.
Proof.
  induction hs as [|h hs IH]; intros k z i.
  - cbn. destruct (k <=? z)%Z; [destruct (Z.to_nat (z - k))|]; reflexivity.
  - cbn [numbered switch_loop]. unfold number at 1. cbn. destruct (Z.eqb_spec z k) as [->|Ne].
    + destruct (Z.leb_spec k k); [|lia]. rewrite Z.sub_diag. reflexivity.
    + specialize (IH (k + 1)%Z z (S (S i))). destruct (switch_loop T close of_int (VS (SInt z)) (S (S i)) (numbered (k + 1) hs)) as [t r].
      cbn [snd] in *. rewrite IH. destruct (Z.leb_spec (k + 1) z), (Z.leb_spec k z); try lia; auto.
      replace (Z.to_nat (z - k)) with (S (Z.to_nat (z - (k + 1)))) by lia. reflexivity.
Qed.
Lemma choose_switch : forall z hs, hs <> [] ->
  snd (choose_fn (number z :: hs)) = snd (switch_fn (number z :: numbered 1 hs)).
Proof.
  intros z hs N. rewrite (choose_ok (number z) (VS (SInt z)) z hs) by auto.
  rewrite (switch_start (number z) (VS (SInt z)) (numbered 1 hs)) by (auto; destruct hs as [|h [|h2 hs]]; cbn; try congruence; lia).
  pose proof (numbered_ok hs 1 z 1) as H. destruct (switch_loop T close of_int (VS (SInt z)) 1 (numbered 1 hs)) as [t r]. cbn [snd] in *.
  rewrite H. destruct (if (1 <=? z)%Z then nth_error hs (Z.to_nat (z - 1)) else None); reflexivity.
Qed.
End Proofs2.
