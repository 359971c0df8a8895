(** Claims about the arenas that hold values and formulas. *)
From Coq Require Import String List Bool NArith ZArith Lia ZifyN ZifyNat ZifyBool.
From Verif Require Import Base Maps LexModel RtModel InternModel SheetModel SheetSpec SheetProofs ArModel ArSpec ArProofs1 ArProofs2 ArProofs3 ArProofs4.
Import ListNotations.
Open Scope N_scope.

(** Parameters of the examples: dates are their own serials, all nodes have different hashes
    as far as they are looked at. *)
Definition low (t : text) : text := t.
Definition ser (z : Z) : N := Z.to_N z.
Definition unser (n : N) : Z := Z.of_N n.
Definition hn (d : anode) : N :=
  match d with
  | NLit r => 8 * r
  | NOmit => 1
  | NRef o _ => 8 * o + 2
  | NUn o e => 8 * (o + 1000 * e) + 3
  | NBin o l r => 8 * (o + 1000 * l + 1000000 * r) + 4
  | NFn m o c => 8 * (m + 1000 * o + 1000000 * c) + 5
  | NArr m o c => 8 * (m + 1000 * o + 1000000 * c) + 6
  end.
Definition hs (p : tspec) : N := 0.

(** * C129 *)
Theorem C129_values_come_back_partial : forall lower serial_of serial_to fraction_of hash_node hash_spec s v,
  st_reach lower serial_of fraction_of hash_node hash_spec s ->
  kept serial_of serial_to v -> used s + vsize v <= 2 ^ 28 ->
  exists s' r, store_value serial_of fraction_of s v = Some (s', r) /\ used s' <= used s + vsize v /\
    forall s2 n, later_store lower serial_of fraction_of hash_node hash_spec s' s2 -> (vdepth v <= n)%nat ->
      retrieve serial_to n s2 r = Some v.
Proof.
  intros lower so st fo hn0 hs0 s v R K U.
  destruct (value_total so st fo v K s (reach_wf _ _ st _ _ _ _ R) U) as (s' & r & E & W & _ & L & G).
  exists s', r. split; [exact E|]. split; [exact L|]. intros s2 n Lt D. apply G; [exact D|].
  exact (proj2 (later_ext _ _ st _ _ _ _ _ Lt W)).
Qed.
Example C129_values_come_back_ex :
  let v := VArr [[VInt (-134217728); VText (tx "a"%string)]; [VErr 5 (Some (tx "no"%string)) 0; VDur 90000000000]] in
  kept ser unser v /\
  match store_value ser ser empty_store v with
  | Some (s, r) => match store_value ser ser s (VText (tx "b"%string)) with
                   | Some (s2, _) => retrieve unser 1 s2 r = Some v
                   | None => False
                   end
  | None => False
  end.
Proof.
  cbv zeta. split; [|vm_compute; reflexivity].
  apply (k_arr _ _ _ 2); [repeat constructor | discriminate |].
  repeat constructor; try (vm_compute; discriminate). exact (k_dur ser unser 90).
Qed.

(** Integers keep only their low 32 bits, and those of 28 bits and more stop the program. *)
Theorem C129_large_integers_come_back_refuted : forall serial_of serial_to fraction_of,
  (exists z s r, store_value serial_of fraction_of empty_store (VInt z) = Some (s, r) /\
     exists w, retrieve serial_to 0 s r = Some (VInt w) /\ w <> z) /\
  (forall s z, (2 ^ 27 <= z < 2 ^ 31 \/ - 2 ^ 31 <= z < - 2 ^ 27)%Z -> store_value serial_of fraction_of s (VInt z) = None).
Proof.
  intros so st fo. split.
  - exists (2 ^ 32 + 5)%Z, empty_store, (pack T_SMALL 5). split; [reflexivity|]. exists 5%Z. split; [reflexivity | discriminate].
  - intros s z H. cbn [store_value]. change (2 ^ 27)%Z with 134217728%Z in H. change (2 ^ 31)%Z with 2147483648%Z in H.
    rewrite as_i32_id by (change (2 ^ 31)%Z with 2147483648%Z; lia).
    assert (Sm : small_int z = None).
    { unfold small_int. change (2 ^ 27)%Z with 134217728%Z. destruct ((- (134217728) <=? z) && (z <=? 134217728 - 1))%Z eqn:E; [|reflexivity].
      exfalso. lia. }
    rewrite Sm.
    unfold insert_integer. cbv zeta. destruct (_ <? _) in |- *; [reflexivity|].
    set (q := N.lor _ _). unfold pack_index. destruct (N.leb_spec q PAYLOAD_MASK) as [L | L]; [|reflexivity]. exfalso.
    assert (B : N.testbit q 31 = true) by (unfold q; rewrite N.lor_spec; change (N.testbit INT_BIT 31) with true; apply orb_true_r).
    assert (q < 2 ^ 28) by (unfold PAYLOAD_MASK in L; change (2 ^ 28) with 268435456; lia).
    destruct (N.eq_dec q 0) as [Z | Z]; [rewrite Z in B; discriminate|].
    rewrite N.bits_above_log2 in B; [discriminate|]. assert (N.log2 q < 28) by (apply N.log2_lt_pow2; lia). lia.
Qed.
Theorem C129_other_values_come_back_refuted : forall serial_of serial_to fraction_of,
  Forall (fun v => exists s r w, store_value serial_of fraction_of empty_store v = Some (s, r) /\
    retrieve serial_to 1 s r = Some w /\ w <> v)
    [VDate 1; VTime 0; VDur 1500000000; VErr 3 None 7; VArr [[]; []];
     VArr [[VInt 1; VInt 2]; [VInt 3]; [VInt 4; VInt 5; VInt 6]]] /\
  store_value serial_of fraction_of empty_store (VArr [[VInt 1; VInt 2]; [VInt 3]]) = None.
Proof.
  intros so st fo. split; [|reflexivity]. repeat constructor.
  - eexists; eexists; eexists; split; [reflexivity|]; split; [reflexivity | discriminate].
  - eexists; eexists; eexists; split; [reflexivity|]; split; [reflexivity | discriminate].
  - eexists; eexists; eexists; split; [reflexivity|]; split; [reflexivity | discriminate].
  - eexists; eexists; eexists; split; [reflexivity|]; split; [reflexivity | discriminate].
  - eexists; eexists; eexists; split; [reflexivity|]; split; [reflexivity | discriminate].
  - eexists; eexists; eexists; split; [reflexivity|]; split; [reflexivity | discriminate].
Qed.

(** * C130 *)
Theorem C130_formulas_come_back_partial : forall lower serial_of serial_to fraction_of hash_node hash_spec s g t,
  st_reach lower serial_of fraction_of hash_node hash_spec s ->
  tree_kept serial_of serial_to t -> used s + tsize t <= 2 ^ 28 ->
  exists s' i, convert lower serial_of fraction_of hash_node hash_spec g s t = Some (s', i) /\ used s' <= used s + tsize t /\
    forall s2 g2 n, later_store lower serial_of fraction_of hash_node hash_spec s' s2 -> (tdepth t <= n)%nat ->
      rebuild serial_to n g2 s2 i = Some (on_sheets (renamed lower g g2) t).
Proof.
  intros lower so st fo hn0 hs0 s g t R K U.
  destruct (convert_total lower so st fo hn0 hs0 g t K s (reach_wf _ _ st _ _ _ _ R) U) as (s' & i & E & W & _ & L & G).
  exists s', i. split; [exact E|]. split; [exact L|]. intros s2 g2 n Lt D. apply G; [exact D|].
  exact (proj2 (later_ext _ _ st _ _ _ _ _ Lt W)).
Qed.
(** With the registry unchanged, a name comes back as a spelling of the same sheet. *)
Theorem C130_same_sheets : forall lower g n, lower_ok lower -> reg_reach lower g ->
  lower (renamed lower g g n) = lower n /\ get_id lower g (renamed lower g g n) = get_id lower g n.
Proof.
  intros lower g n O R. pose proof (reach_Inv lower O g R) as V. unfold renamed.
  destruct (get_id lower g n) as [id|] eqn:E; [|split; [reflexivity | exact E]].
  unfold get_id in E. destruct (iA lower g V _ _ E) as (_ & B). split; [exact B|]. unfold get_id. rewrite B. exact E.
Qed.
Definition two_sheets : registry := fst (id_for low (fst (id_for low reg_new (tx "Data"%string))) (tx "Out"%string)).
Definition sum_formula : tree :=
  TBin (tx "+"%string)
    (TFn (tx "SUM"%string) [TRef (tx "Data!A1:A3"%string)
        (RRange (Some (tx "Data"%string)) (Box (Some (1, false)) (Some (1, false)) (Some (3, false)) (Some (1, true)))); TOmit])
    (TArr [[TLit (VNum 7); TRef [] (RCell (Some (tx "Gone"%string)) 2 2 true false)];
           [TUn (tx "-"%string) (TLit (VText (tx "x"%string))); TRef [] (RTable (tx "T"%string) (Some (SpComb [SpCol (tx "c"%string); SpItem IData])))]]).
Example C130_formulas_come_back_ex :
  tree_kept ser unser sum_formula /\
  match convert low ser ser hn hs two_sheets empty_store sum_formula with
  | Some (s, i) =>
      rebuild unser 9 two_sheets s i = Some sum_formula /\
      match reg_rename low two_sheets 0 (tx "Base"%string) with
      | Ok g => rebuild unser 9 g s i =
          Some (on_sheets (fun n => if LexModel.text_eqb n (tx "Data"%string) then tx "Base"%string else n) sum_formula)
      | _ => False
      end
  | None => False
  end.
Proof.
  split; [|vm_compute; split; reflexivity].
  unfold sum_formula. apply t_bin.
  - apply t_fn; [reflexivity|]. repeat constructor; discriminate.
  - apply (t_arr _ _ _ 2); [repeat constructor | reflexivity | reflexivity | reflexivity |]. repeat constructor.
Qed.
Example C130_same_sheets_ex : lower_ok low /\ reg_reach low two_sheets /\ renamed low two_sheets two_sheets (tx "Data"%string) = tx "Data"%string.
Proof.
  split; [intros t H; exact H|]. split; [|reflexivity]. apply rr_create; [|discriminate | reflexivity].
  apply rr_create; [|discriminate | reflexivity]. constructor.
Qed.

Lemma mapM_cons {St A B} (f : St -> A -> option (St * B)) s x l :
  mapM f s (x :: l) = do (s1, y) <- f s x; do (s2, ys) <- mapM f s1 l; Some (s2, y :: ys).
Proof. reflexivity. Qed.
Lemma omitted : forall lower so fo hn0 hs0 g s n, nth_error (nodes (tree_arena s)) 0 = Some NOmit ->
  mget N.eqb (nmap (tree_arena s)) (hn0 NOmit) = Some 0 ->
  mapM (convert lower so fo hn0 hs0 g) s (repeat TOmit n) = Some (s, repeat 0 n).
Proof.
  intros lower so fo hn0 hs0 g s n H M. induction n as [|n IH]; [reflexivity|].
  cbn [repeat]. rewrite mapM_cons. cbn [convert]. unfold put_node, insert_node. cbv zeta. rewrite M. change (N.to_nat 0) with 0%nat. rewrite H.
  destruct (anode_eq_dec NOmit NOmit) as [_ | C]; [|congruence].
  assert (Eta : on_asts s (tree_arena s) = s) by (destruct s; reflexivity). rewrite Eta, IH. reflexivity.
Qed.
(** The store with only an omitted argument. *)
Definition one_node (hn0 : anode -> N) : store := fst (put_node hn0 empty_store NOmit).
Lemma omitted_first : forall lower so fo hn0 hs0 g n,
  mapM (convert lower so fo hn0 hs0 g) empty_store (repeat TOmit (S n)) = Some (one_node hn0, repeat 0 (S n)).
Proof.
  intros lower so fo hn0 hs0 g n. cbn [repeat]. rewrite mapM_cons. cbn [convert].
  assert (P : put_node hn0 empty_store NOmit = (one_node hn0, 0)) by reflexivity. rewrite P.
  assert (O : mapM (convert lower so fo hn0 hs0 g) (one_node hn0) (repeat TOmit n) = Some (one_node hn0, repeat 0 n)).
  { apply omitted; [reflexivity|]. cbn. rewrite N.eqb_refl. reflexivity. }
  rewrite O. reflexivity.
Qed.
Lemma omitted_rows : forall lower so fo hn0 hs0 g s ns, nth_error (nodes (tree_arena s)) 0 = Some NOmit ->
  mget N.eqb (nmap (tree_arena s)) (hn0 NOmit) = Some 0 ->
  mapM (mapM (convert lower so fo hn0 hs0 g)) s (map (repeat TOmit) ns) = Some (s, map (repeat 0) ns).
Proof.
  intros lower so fo hn0 hs0 g s ns H M. induction ns as [|n ns IH]; [reflexivity|]. cbn [map].
  pose proof (omitted lower so fo hn0 hs0 g s n H M) as O. rewrite mapM_cons, O, IH. reflexivity.
Qed.

(** An array constant whose rows differ in length, which the parser accepts, stops the
    program or comes back in another shape; a postfix call comes back as an error; a range
    from row 0 comes back open. *)
Theorem C130_formulas_come_back_refuted : forall lower serial_of serial_to fraction_of hash_node hash_spec,
  let put := convert lower serial_of fraction_of hash_node hash_spec reg_new empty_store in
  put (TArr [[TOmit; TOmit]; [TOmit]]) = None /\
  Forall (fun t => exists s i u, put t = Some (s, i) /\ rebuild serial_to 3 reg_new s i = Some u /\ u <> t)
    [TArr [[TOmit; TOmit]; [TOmit]; [TOmit; TOmit; TOmit]]; TCall (TFn [] []) [];
     TRef [] (RRange None (Box (Some (0, false)) None None None))].
Proof.
  intros lower so st fo hn0 hs0. cbv zeta.
  assert (A : forall n ns, mapM (mapM (convert lower so fo hn0 hs0 reg_new)) empty_store (map (repeat TOmit) (S n :: ns)) =
    Some (one_node hn0, map (repeat 0) (S n :: ns))).
  { intros n ns. pose proof (omitted_first lower so fo hn0 hs0 reg_new n) as O.
    assert (O2 := omitted_rows lower so fo hn0 hs0 reg_new (one_node hn0) ns eq_refl).
    cbn [map]. rewrite mapM_cons, O, O2; [reflexivity|]. cbn. rewrite N.eqb_refl. reflexivity. }
  split.
  - pose proof (A 1%nat [1%nat]) as B. cbn [map repeat] in B. cbn [convert]. rewrite B. reflexivity.
  - repeat constructor.
    + pose proof (A 1%nat [1%nat; 3%nat]) as B. cbn [map repeat] in B. cbn [convert]. rewrite B. cbn [length hd concat app].
      unfold put_array. change (N.of_nat (length [0; 0; 0; 0; 0; 0]) =? trunc_u16 (trunc_u16 (N.of_nat 3) * trunc_u16 (N.of_nat 2))) with true.
      change (trunc_u16 (N.of_nat 3)) with 3. change (trunc_u16 (N.of_nat 2)) with 2. cbv zeta iota.
      unfold put_node at 1, insert_node. cbv zeta. cbn [one_node fst put_node insert_node empty_store on_asts tree_arena nodes nmap mget mput].
      cbn. destruct (hn0 (NArr 3 2 0) =? hn0 NOmit) eqn:E; cbn;
        (eexists; eexists; eexists; split; [reflexivity|]; split; [reflexivity | discriminate]).
    + eexists; eexists; eexists; split; [reflexivity|]; split; [reflexivity | discriminate].
    + eexists; eexists; eexists; split; [reflexivity|]; split; [reflexivity | discriminate].
Qed.

(** A call with 65536 arguments comes back without any. *)
Theorem C130_long_calls_come_back_refuted : forall lower serial_of serial_to fraction_of hash_node hash_spec,
  let t := TFn (tx "F"%string) (repeat TOmit (N.to_nat 65536)) in
  exists s i, convert lower serial_of fraction_of hash_node hash_spec reg_new empty_store t = Some (s, i) /\
    forall n, rebuild serial_to (S n) reg_new s i = Some (TFn (tx "F"%string) []).
Proof.
  intros lower so st fo hn0 hs0. cbv zeta. cbn [convert].
  set (s0 := one_node hn0).
  assert (T : mapM (convert lower so fo hn0 hs0 reg_new) empty_store (repeat TOmit (N.to_nat 65536)) = Some (s0, repeat 0 (N.to_nat 65536))).
  { assert (E : N.to_nat 65536 = S (N.to_nat 65535)) by (change 65536 with (N.succ 65535); apply N2Nat.inj_succ).
    rewrite E. apply omitted_first. }
  rewrite T. unfold put_function.
  assert (Nm : exists s1, named s0 (tx "F"%string) = Some (s1, 0) /\ int_get (astrs (tree_arena s1)) 0 = Some (tx "F"%string) /\
    fargs (tree_arena s1) = [] /\ nodes (tree_arena s1) = [NOmit] /\ nmap (tree_arena s1) = [(hn0 NOmit, 0)]).
  { eexists. split; [reflexivity|]. repeat split. }
  destruct Nm as (s1 & -> & G & Fa & Nd & Nm). cbv zeta. rewrite Fa.
  assert (C : trunc_u16 (N.of_nat (length (repeat 0 (N.to_nat 65536)))) = 0).
  { rewrite repeat_length, N2Nat.id. reflexivity. }
  rewrite C. change (trunc_u32 (N.of_nat (@length N []))) with 0. generalize (repeat 0 (N.to_nat 65536)). intros l. cbn [app].
  unfold put_node, insert_node. cbv zeta. cbn [on_asts tree_arena nodes nmap fargs]. rewrite Nd, Nm.
  cbn [mget]. destruct (hn0 (NFn 0 0 0) =? hn0 NOmit).
  - change (N.to_nat 0) with 0%nat. cbn [nth_error]. destruct (anode_eq_dec NOmit (NFn 0 0 0)) as [X | _]; [discriminate|].
    eexists; eexists. split; [reflexivity|]. intros n. cbn [rebuild on_asts tree_arena nodes astrs fargs app length].
    change (N.to_nat (trunc_u32 (N.of_nat 1))) with 1%nat. cbn [nth_error]. rewrite G.
    assert (Sl : slice l 0 (0 + 0) = Some []) by (unfold slice; destruct (0 + 0 <=? _) eqn:Q; [reflexivity | exfalso; lia]).
    rewrite Sl. reflexivity.
  - eexists; eexists. split; [reflexivity|]. intros n. cbn [rebuild on_asts tree_arena nodes astrs fargs app length].
    change (N.to_nat (trunc_u32 (N.of_nat 1))) with 1%nat. cbn [nth_error]. rewrite G.
    assert (Sl : slice l 0 (0 + 0) = Some []) by (unfold slice; destruct (0 + 0 <=? _) eqn:Q; [reflexivity | exfalso; lia]).
    rewrite Sl. reflexivity.
Qed.

(** * C131 *)
Theorem C131_same_node_same_formula : forall lower serial_of serial_to fraction_of hash_node hash_spec s g g' t u s1 s2 s3 i,
  st_reach lower serial_of fraction_of hash_node hash_spec s ->
  tree_kept serial_of serial_to t -> tree_kept serial_of serial_to u ->
  convert lower serial_of fraction_of hash_node hash_spec g s t = Some (s1, i) ->
  later_store lower serial_of fraction_of hash_node hash_spec s1 s2 ->
  convert lower serial_of fraction_of hash_node hash_spec g' s2 u = Some (s3, i) ->
  used s + tsize t <= 2 ^ 28 -> used s2 + tsize u <= 2 ^ 28 ->
  forall now, on_sheets (renamed lower g now) t = on_sheets (renamed lower g' now) u.
Proof.
  intros lower so st fo hn0 hs0 s g g' t u s1 s2 s3 i R Kt Ku E L F Ut Uu now.
  pose proof (reach_wf _ _ st _ _ _ _ R) as W.
  destruct (convert_total lower so st fo hn0 hs0 g t Kt s W Ut) as (x & j & E' & W1 & _ & _ & G). rewrite E in E'. injection E' as <- <-.
  destruct (later_ext _ _ st _ _ _ _ _ L W1) as (W2 & X2).
  destruct (convert_total lower so st fo hn0 hs0 g' u Ku s2 W2 Uu) as (x & j & F' & W3 & X3 & _ & G'). rewrite F in F'. injection F' as <- <-.
  specialize (G now (max (tdepth t) (tdepth u)) s3 ltac:(lia) (ext_trans _ _ _ X2 X3)).
  specialize (G' now (max (tdepth t) (tdepth u)) s3 ltac:(lia) (ext_refl _)). congruence.
Qed.
Theorem C131_same_formula_same_node_partial : forall lower serial_of fraction_of hash_node hash_spec s g t s1 i s2,
  st_reach lower serial_of fraction_of hash_node hash_spec s -> shareable t ->
  convert lower serial_of fraction_of hash_node hash_spec g s t = Some (s1, i) ->
  later_store lower serial_of fraction_of hash_node hash_spec s1 s2 ->
  used s2 <= 2 ^ 28 -> no_clash hash_node hash_spec s2 ->
  convert lower serial_of fraction_of hash_node hash_spec g s2 t = Some (s2, i).
Proof.
  intros lower so fo hn0 hs0 s g t s1 i s2 R P E L U C.
  exact (same_node lower so (fun _ => 0%Z) fo hn0 hs0 g t s s1 i s2 R P E L U C).
Qed.
Definition shared_formula : tree :=
  TBin (tx "&"%string) (TRef (tx "A1"%string) (RCell None 1 1 false false)) (TUn (tx "-"%string) (TLit (VText (tx "A1"%string)))).
Example C131_same_formula_ex :
  match convert low ser ser hn hs reg_new empty_store shared_formula with
  | Some (s1, i) =>
      match convert low ser ser hn hs reg_new s1 (TFn (tx "F"%string) [shared_formula; TLit (VErr 1 None 0)]) with
      | Some (s2, j) => (used s2 <=? 2 ^ 28) = true /\ i <> j /\
          (forall x y, In x (nodes (tree_arena s2)) -> In y (nodes (tree_arena s2)) -> hn x = hn y -> x = y) /\
          convert low ser ser hn hs reg_new s2 shared_formula = Some (s2, i)
      | None => False
      end
  | None => False
  end.
Proof.
  vm_compute. split; [reflexivity|]. split; [discriminate|]. split; [|reflexivity].
  intros x y X Y. repeat match goal with H : _ \/ _ |- _ => destruct H as [<- | H] | H : False |- _ => destruct H end;
    reflexivity || discriminate.
Qed.
(** A formula with a decimal number or with a call is stored anew each time. *)
Theorem C131_same_formula_same_node_refuted :
  (forall lower serial_of fraction_of hash_node hash_spec, exists s1 i s2 j,
     let put := convert lower serial_of fraction_of hash_node hash_spec reg_new in
     put empty_store (TLit (VNum 0)) = Some (s1, i) /\ put s1 (TLit (VNum 0)) = Some (s2, j) /\ i <> j) /\
  (exists s1 i s2 j,
     let put := convert low ser ser hn hs reg_new in
     let t := TFn (tx "SUM"%string) [TOmit] in
     put empty_store t = Some (s1, i) /\ put s1 t = Some (s2, j) /\ i <> j).
Proof.
  split.
  - intros lower so fo hn0 hs0. eexists; eexists.
    cbv zeta. cbn [convert store_value]. unfold put_node at 1 2, insert_node. cbn.
    destruct (hn0 (NLit 805306369) =? hn0 (NLit 805306368)) eqn:E; cbn;
      eexists; eexists; (split; [reflexivity|]); cbn; rewrite ?E; cbn; (split; [reflexivity | discriminate]).
  - assert (H : match convert low ser ser hn hs reg_new empty_store (TFn (tx "SUM"%string) [TOmit]) with
      | Some (s1, i) => match convert low ser ser hn hs reg_new s1 (TFn (tx "SUM"%string) [TOmit]) with Some (s2, j) => i <> j | None => False end
      | None => False
      end) by (vm_compute; discriminate).
    destruct (convert low ser ser hn hs reg_new empty_store (TFn (tx "SUM"%string) [TOmit])) as [[s1 i]|] eqn:E1; [|contradiction].
    destruct (convert low ser ser hn hs reg_new s1 (TFn (tx "SUM"%string) [TOmit])) as [[s2 j]|] eqn:E2; [|contradiction].
    exists s1, i, s2, j. cbv zeta. split; [exact E1|]. split; [exact E2 | exact H].
Qed.

Print Assumptions C129_values_come_back_partial.
Print Assumptions C129_large_integers_come_back_refuted.
Print Assumptions C129_other_values_come_back_refuted.
Print Assumptions C130_formulas_come_back_partial.
Print Assumptions C130_same_sheets.
Print Assumptions C130_formulas_come_back_refuted.
Print Assumptions C130_long_calls_come_back_refuted.
Print Assumptions C131_same_node_same_formula.
Print Assumptions C131_same_formula_same_node_partial.
Print Assumptions C131_same_formula_same_node_refuted.
