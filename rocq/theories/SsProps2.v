(** More about C117: when the formulas of a moved span may be rewritten once for all. *)
From Verif Require Import Base Maps IntervalModel FpModel FpSpec SsModel.
From Coq Require Import ZifyN ZifyNat ZifyBool.
Open Scope N_scope.

(** Where the edit puts a line of its axis, counted from zero: stays, moves, or goes. *)
Inductive fate := FStays | FMoves | FGoes.
Definition fate_of (op : sop) (a : Z) : fate :=
  if Z.ltb a (Z.of_N (o_at op)) then FStays
  else if o_del op && Z.ltb a (Z.of_N (o_at op) + Z.of_N (o_n op)) then FGoes else FMoves.

(** If one rewrite of the origin's formula is accepted then every read stays or moves whole,
    and each relative corner of it, seen from the origin, is a line on the sheet with the
    same fate. *)
Theorem C117_one_rewrite : forall op deps orow ocol, frame_sound op deps orow ocol = true ->
  forall r ru, In (r, ru) deps ->
  exists offs, rel_offsets ru (o_rows op) = Some offs /\
  exists ft, (classify op r = Below /\ ft = FStays \/ (exists d, classify op r = Above d) /\ ft = FMoves) /\
  forall off, In off offs -> let a := ((if o_rows op then Z.of_N orow else Z.of_N ocol) - 1 + off)%Z in
    (0 <= a)%Z /\ fate_of op a = ft.
Proof.
  intros op deps orow ocol H r ru I. unfold frame_sound in H. rewrite forallb_forall in H. specialize (H _ I).
  unfold frame_dep in H. cbn [fst snd] in H.
  destruct (classify op r) eqn:C; try discriminate; (destruct (rel_offsets ru (o_rows op)) as [l|]; [|discriminate]);
    exists l; (split; [reflexivity|]); rewrite forallb_forall in H.
  - exists FStays. split; [now left|]. intros off J a. specialize (H off J). unfold frame_offset in H. fold a in H. unfold fate_of.
    destruct (o_del op); cbn [andb]; destruct (Z.ltb_spec a 0), (Z.ltb_spec a (Z.of_N (o_at op))), (Z.ltb_spec a (Z.of_N (o_at op) + Z.of_N (o_n op))), (Z.leb_spec (Z.of_N (o_at op)) a), (Z.leb_spec (Z.of_N (o_at op) + Z.of_N (o_n op)) a); cbn in H; try discriminate; split; try lia; reflexivity.
  - exists FMoves. split; [right; split; [eauto|reflexivity]|]. intros off J a. specialize (H off J). unfold frame_offset in H. fold a in H.
    unfold fate_of. destruct (o_del op); cbn [andb]; destruct (Z.ltb_spec a 0), (Z.ltb_spec a (Z.of_N (o_at op))), (Z.ltb_spec a (Z.of_N (o_at op) + Z.of_N (o_n op))), (Z.leb_spec (Z.of_N (o_at op)) a), (Z.leb_spec (Z.of_N (o_at op) + Z.of_N (o_n op)) a); cbn in H; try discriminate; split; try lia; reflexivity.
Qed.
Print Assumptions C117_one_rewrite.
Example C117_one_rewrite_example :
  frame_sound (Op false true 0 3 2) [(Rg 0 (Sp 9 19) (Pt 0), ACell (Rel 0) (Rel (-2)))] 10 3 = true /\
  frame_sound (Op false true 0 3 2) [(Rg 0 (Sp 0 2) (Pt 0), ACell (Rel (-11)) (Rel (-2)))] 10 3 = false.
Proof. split; reflexivity. Qed.
