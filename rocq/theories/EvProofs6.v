(** LET and LAMBDA, and a workbook to try them on. *)
From Verif Require Import Base Maps LookupModel BcastModel EvModel EvSpec EvProofs1 EvProofs2 EvProofs3 EvProofs4.

Section Let.
  Variable W : world.
  Notation T := (T W).

  Lemma result_at : forall i e r, tree_result W i e r -> exists n, forall m, n <= m -> teval W m i e = Some r.
  Proof. intros i e r [n H]. exists n. intros m HM. now apply (teval_le W n m HM). Qed.
  Lemma result_unique : forall i e r s, tree_result W i e r -> tree_result W i e s -> r = s.
  Proof.
    intros i e r s [n H] [m K]. apply (teval_le W n (max n m) ltac:(lia)) in H. apply (teval_le W m (max n m) ltac:(lia)) in K. congruence.
  Qed.
  Lemma stored_unique : forall i e r s, stored_result W i e r -> stored_result W i e s -> r = s.
  Proof.
    intros i e r s [n H] [m K]. unfold store_eval in *.
    apply (aeval_le W n (max n m) ltac:(lia)) in H. apply (aeval_le W m (max n m) ltac:(lia)) in K. congruence.
  Qed.

  Definition name_ref (x : text) : expr T := ERef (RName x).

  Lemma let_step : forall n i lt x a b, w_fn W lt = Some FLet ->
    teval W (S n) i (EFun lt [name_ref x; a; b]) =
    obind (teval W n i a) (fun c => teval W n (with_env W i (bind W x (binding_of W c) (i_env W i))) b).
  Proof. intros n [e dr dc] lt x a b HL. cbn [teval tree_step]. rewrite HL. reflexivity. Qed.

  Lemma let_result : forall i lt x a b c r, w_fn W lt = Some FLet -> tree_result W i a (Ok c) ->
    (tree_result W i (EFun lt [name_ref x; a; b]) r <->
     tree_result W (with_env W i (bind W x (binding_of W c) (i_env W i))) b r).
  Proof.
    intros i lt x a b c r HL HA. destruct (result_at _ _ _ HA) as [n0 H0]. split.
    - intros [n H]. apply (teval_le W n (S (max n n0)) ltac:(lia)) in H. rewrite let_step in H by auto.
      rewrite (H0 (max n n0) ltac:(lia)) in H. cbn [obind] in H. now exists (max n n0).
    - intros [n H]. exists (S (max n n0)). rewrite let_step, (H0 (max n n0) ltac:(lia)) by auto. cbn [obind].
      now apply (teval_le W n (max n n0) ltac:(lia)).
  Qed.

  Theorem let_unused : forall i lt x a b c r, w_fn W lt = Some FLet -> placed W b = true ->
    occurs W (norm x) b = false -> tree_result W i a (Ok c) ->
    usable W (i_env W i) ->
    tree_result W i b r ->
    exists s, tree_result W i (EFun lt [name_ref x; a; b]) s /\ like W (Some r) (Some s).
  Proof.
    intros i lt x a b c r HL HP HO HA HR [n HB].
    pose proof (like_eval W n b (i_env W i) (bind W x (binding_of W c) (i_env W i)) (i_dr W i) (i_dc W i) HP) as HK.
    assert (HQ : forall k, occurs W k b = true -> like_o W (find W k (i_env W i)) (find W k (bind W x (binding_of W c) (i_env W i)))).
    { intros k Hk. unfold bind. cbn [find]. destruct (text_eqb k (norm x)) eqn:E; [|now apply HR].
      apply teq in E. subst. congruence. }
    specialize (HK HQ). destruct i as [e dr dc]. cbn [i_env i_dr i_dc] in *. rewrite HB in HK.
    destruct (teval W n (mkInterp W (bind W x (binding_of W c) e) dr dc) b) as [s|] eqn:ES; [|inversion HK].
    exists s. split; auto. apply (let_result (mkInterp W e dr dc) lt x a b c s HL HA). now exists n.
  Qed.

  Theorem let_beta : forall i lt lm x f a b p r, w_fn W lt = Some FLet -> w_fn W lm = Some FLambda -> w_fn W f = None ->
    placed W a = true -> occurs W (norm f) a = false ->
    usable W (i_env W i) ->
    tree_result W i a (Ok (CPlain W p)) ->
    (tree_result W i (EFun lt [name_ref x; a; b]) r <->
     tree_result W i (EFun lt [name_ref f; EFun lm [name_ref x; b]; EFun f [a]]) r).
  Proof.
    intros i lt lm x f a b p r HL HM HF HP HO HR HA. rewrite (let_result i lt x a b _ r HL HA).
    assert (HC : tree_result W i (EFun lm [name_ref x; b]) (Ok (CClo W (Clo W [x] b (i_env W i))))).
    { exists 1. cbn [teval tree_step]. rewrite HM. reflexivity. }
    rewrite (let_result i lt f _ (EFun f [a]) _ r HL HC). cbn [binding_of].
    set (i2 := with_env W i (bind W f (BClo W (Clo W [x] b (i_env W i))) (i_env W i))).
    assert (HA2 : tree_result W i2 a (Ok (CPlain W p))).
    { destruct HA as [n HA].
      pose proof (like_eval W n a (i_env W i) (i_env W i2) (i_dr W i) (i_dc W i) HP) as HK.
      assert (HQ : forall k, occurs W k a = true -> like_o W (find W k (i_env W i)) (find W k (i_env W i2))).
      { intros k Hk. unfold i2, bind. cbn [i_env with_env find]. destruct (text_eqb k (norm f)) eqn:E; [|now apply HR].
        apply teq in E. subst. congruence. }
      specialize (HK HQ). destruct i as [e dr dc]. cbn [i_env i_dr i_dc] in *. rewrite HA in HK. exists n.
      change (mkInterp W (i_env W i2) dr dc) with i2 in HK. inversion HK; congruence. }
    destruct (result_at _ _ _ HA2) as [n0 H0].
    assert (HS : forall m, n0 <= m -> teval W (S m) i2 (EFun f [a]) =
              teval W m (with_env W i2 (bind W x (BVal W (plain_literal W p)) (i_env W i))) b).
    { intros m Hm. cbn [teval tree_step]. rewrite HF. unfold local_callable, lookup, i2, bind. cbn [i_env with_env find].
      assert (HT : text_eqb (norm f) (norm f) = true) by now apply teq. rewrite HT.
      cbn [literals]. fold (bind W f (BClo W (Clo W [x] b (i_env W i))) (i_env W i)).
      fold i2. rewrite (H0 m Hm). reflexivity. }
    assert (HW : with_env W i2 (bind W x (BVal W (plain_literal W p)) (i_env W i)) =
                 with_env W i (bind W x (BVal W (plain_literal W p)) (i_env W i))) by reflexivity.
    rewrite HW in HS. split.
    - intros [n H]. exists (S (max n n0)). rewrite HS by lia. now apply (teval_le W n (max n n0) ltac:(lia)).
    - intros [n H]. apply (teval_le W n (S (max n n0)) ltac:(lia)) in H. rewrite HS in H by lia. now exists (max n n0).
  Qed.
End Let.

(** ** A small workbook *)
(** Numbers are integers, the cell in row [r] and column [c] holds [100 r + c], dates
    are 1462 days apart in the two systems, the functions are LET, LAMBDA, SUM and IF. *)
Definition tLET : text := [76; 69; 84]%N.
Definition tLAMBDA : text := [76; 65; 77; 66; 68; 65]%N.
Definition tSUM : text := [83; 85; 77]%N.
Definition tIF : text := [73; 70]%N.
Fixpoint digits (acc : Z) (s : text) : option Z :=
  match s with
  | [] => Some acc
  | c :: s => if ((48 <=? c) && (c <=? 57))%N then digits (acc * 10 + Z.of_N (c - 48)) s else None
  end.
Definition zcell (r c : Z) : scalar Z := SNum (r * 100 + c)%Z.
Definition zgrid (r0 c0 r1 c1 : Z) : grid Z :=
  map (fun i => map (fun j => zcell (r0 + Z.of_nat i) (c0 + Z.of_nat j)) (seq 0 (Z.to_nat (c1 - c0 + 1)))) (seq 0 (Z.to_nat (r1 - r0 + 1))).
Definition zsum (g : grid Z) : Z :=
  fold_right Z.add 0%Z (map (fun s => match s with SNum x => x | _ => 0%Z end) (concat g)).
Definition sum_fn (args : list (arg Z)) : answer Z :=
  match args with
  | [a] => match a_range a with
           | Ok (ResRange g) => AVal (Ok (PScalar (VS (SNum (zsum (g_cells g))))))
           | Ok (ResError k) => AVal (Ok (PScalar (VS (SErr k))))
           | Ok (ResValue (SeenPlain (PScalar (VS (SNum x))))) => AVal (Ok (PScalar (VS (SNum x))))
           | _ => AVal (Err K_VALUE)
           end
  | _ => AVal (Err K_VALUE)
  end.
Definition if_fn (args : list (arg Z)) : answer Z :=
  match args with
  | [c; _; _] => match a_value c with
                 | Ok (SeenPlain (PScalar (VS (SBool true)))) => AArg 1
                 | Ok (SeenPlain (PScalar (VS (SBool false)))) => AArg 2
                 | Err e => AVal (Err e)
                 | _ => AVal (Err K_VALUE)
                 end
  | _ => AVal (Err K_VALUE)
  end.
Definition zworld : world := {|
  T := Z;
  w_arith := fun o a b => match o with AAdd => a + b | ASub => a - b | AMul => a * b | ADiv => a / b | APow => a ^ b end%Z;
  w_neg := Z.opp; w_pct := fun x => (x / 100)%Z; w_int := fun z => z; w_bool := fun b => if b then 1%Z else 0%Z; w_zero := 0%Z;
  w_is_zero := Z.eqb 0; w_is_neg := fun x => (x <? 0)%Z; w_has_frac := fun _ => false; w_finite := fun _ => true;
  w_cmp := fun a b => Some (a ?= b)%Z;
  w_number := fun s => match s with [] => None | _ => digits 0 s end; w_datetime := fun _ => None;
  w_fold := map to_ascii_upper;
  w_show := fun _ => [48]%N; w_show_int := fun _ => [48]%N; w_show_err := fun _ => [35; 33]%N; w_show_grid := fun _ => [91]%N; w_show_other := [];
  w_sheet := [65]%N; w_here := Some (1, 2)%Z;
  w_cell := fun _ r c => Ok (zcell r c);
  w_view := fun r => match r with
                     | RCell _ r c _ _ => Ok (mkRange false (r - 1) (c - 1) (zgrid r c r c))%Z
                     | RRange _ (Some r0) (Some c0) (Some r1) (Some c1) _ _ _ _ => Ok (mkRange false (r0 - 1) (c0 - 1) (zgrid r0 c0 r1 c1))%Z
                     | RName _ => Err K_NAME
                     | _ => Err K_REF
                     end;
  w_combine := fun a b => match a, b with
                          | RCell s r0 c0 x y, RCell _ r1 c1 u v => Ok (RRange s (Some r0) (Some c0) (Some r1) (Some c1) x y u v)
                          | _, _ => Err K_REF
                          end;
  w_fn := fun n => if text_eqb n tLET then Some FLet else if text_eqb n tLAMBDA then Some FLambda
                   else if text_eqb n tSUM then Some (FPrim sum_fn) else if text_eqb n tIF then Some (FPrim if_fn) else None;
  w_keep := fun s => s; w_nested := fun _ => SErr K_VALUE
|}.
Definition z0 : interp zworld := mkInterp zworld [] 0 0.
Definition num (z : Z) : expr (T zworld) := ELit (VS (SNum z)).
Definition nm (c : N) : expr (T zworld) := ERef (RName [c]).
Definition cellref (r c : Z) : expr (T zworld) := ERef (RCell None r c false false).
