(* Proofs about RfModel.v. *)
From Coq Require Import List Bool NArith ZArith Lia String.
From Coq Require Import ZifyN ZifyNat ZifyBool.
From Verif Require Import Base CoordModel LexModel RtModel RfModel RfSpec.
Import ListNotations.
Open Scope Z_scope.
Ltac Zify.zify_post_hook ::= Z.div_mod_to_equations.

Lemma rect_eq : forall a b c d a' b' c' d' : N, a = a' -> b = b' -> c = c' -> d = d' -> Some (a, b, c, d) = Some (a', b', c', d').
Proof. congruence. Qed.
Lemma as_u32_small : forall z, 0 <= z < M32 -> as_u32 z = Z.to_N z.
Proof. intros z H. unfold as_u32. now rewrite Z.mod_small. Qed.
Lemma nth32_ok : forall checks s i, (1 <= s <= 1048576)%N -> 1 <= i -> small i ->
  nth32 checks s i = Ok (Z.to_N (Z.of_N s + i - 1)).
Proof.
  intros checks s i Hs Hi Sm. unfold nth32, small in *. rewrite as_u32_small by (unfold M32; lia).
  unfold add32. destruct (N.ltb_spec (s + Z.to_N i) 4294967296); [|lia]. cbn [rbind]. unfold sub32.
  destruct (N.leb_spec 1 (s + Z.to_N i)); [|lia]. f_equal. lia.
Qed.

Lemma index_at_ok : forall checks sheet q row col, on_sheet q -> small row -> small col ->
  match picked q row col with
  | Some p => exists r, index_at checks sheet q row col = Ok r /\ rect_of r = Some (sheet, p)
  | None => index_at checks sheet q row col = Err K_REF
  end.
Proof.
  intros checks sheet [[[sr sc] er] ec] row col (A & B & C & D) Sr Sc. unfold picked, nth_line, index_at.
  destruct (Z.ltb_spec row 0); [reflexivity|]. destruct (Z.ltb_spec col 0); cbn [orb].
  { destruct (row =? 0); [reflexivity|]. destruct (_ <=? _); reflexivity. }
  destruct (Z.eqb_spec col 0) as [->|Nc].
  - destruct (Z.eqb_spec row 0) as [->|Nr]; [eexists; split; reflexivity|].
    rewrite nth32_ok by (auto; lia). cbn [rbind].
    destruct (Z.leb_spec (Z.of_N sr + row - 1) (Z.of_N er)).
    + destruct (N.ltb_spec er (Z.to_N (Z.of_N sr + row - 1))); [lia|]. eexists. split; [reflexivity|].
      destruct (N.eqb_spec sc ec) as [->|]; reflexivity.
    + destruct (N.ltb_spec er (Z.to_N (Z.of_N sr + row - 1))); [reflexivity|lia].
  - destruct (Z.eqb_spec row 0) as [->|Nr].
    + rewrite nth32_ok by (auto; lia). cbn [rbind].
      destruct (Z.leb_spec (Z.of_N sc + col - 1) (Z.of_N ec)).
      * destruct (N.ltb_spec ec (Z.to_N (Z.of_N sc + col - 1))); [lia|]. eexists. split; [reflexivity|].
        destruct (N.eqb_spec sr er) as [->|]; reflexivity.
      * destruct (N.ltb_spec ec (Z.to_N (Z.of_N sc + col - 1))); [reflexivity|lia].
    + rewrite (nth32_ok checks sr row) by (auto; lia). rewrite (nth32_ok checks sc col) by (auto; lia). cbn [rbind].
      destruct (Z.leb_spec (Z.of_N sr + row - 1) (Z.of_N er)).
      * destruct (N.ltb_spec er (Z.to_N (Z.of_N sr + row - 1))); [lia|]. cbn [orb].
        destruct (Z.leb_spec (Z.of_N sc + col - 1) (Z.of_N ec)).
        -- destruct (N.ltb_spec ec (Z.to_N (Z.of_N sc + col - 1))); [lia|]. eexists. split; reflexivity.
        -- destruct (N.ltb_spec ec (Z.to_N (Z.of_N sc + col - 1))); [reflexivity|lia].
      * destruct (N.ltb_spec er (Z.to_N (Z.of_N sr + row - 1))); [reflexivity|lia].
Qed.

Lemma rect_bounds : forall view base sheet q, rect_of base = Some (sheet, q) -> bounds view base = Ok (sheet, q).
Proof.
  intros view base sheet q H. destruct base as [sh row col ra ca|sh [[[a ?]|] [[b ?]|] [[c ?]|] [[d ?]|]]| | | | | |]; cbn in *; try discriminate; injection H as <- <-; reflexivity.
Qed.

Lemma index_ref_ok : forall checks view base sheet q row col, bounds view base = Ok (sheet, q) -> on_sheet q -> small row -> small col ->
  match picked q row col with
  | Some p => exists r, index_ref checks view base (ANum row) (Some (ANum col)) = Ok r /\ rect_of r = Some (sheet, p)
  | None => index_ref checks view base (ANum row) (Some (ANum col)) = Err K_REF
  end.
Proof.
  intros checks view base sheet q row col B O Sr Sc. pose proof (index_at_ok checks sheet q row col O Sr Sc) as H.
  unfold index_ref. cbn [index_arg rbind]. rewrite B. cbn [rbind]. destruct q as [[[sr sc] er] ec]. exact H.
Qed.
Lemma index_ref1_ok : forall checks view base sheet q i, bounds view base = Ok (sheet, q) -> on_sheet q -> small i ->
  match picked1 q i with
  | Some p => exists r, index_ref checks view base (ANum i) None = Ok r /\ rect_of r = Some (sheet, p)
  | None => index_ref checks view base (ANum i) None = Err K_REF
  end.
Proof.
  intros checks view base sheet q i B O Si. unfold index_ref, picked1. cbn [index_arg rbind]. rewrite B. cbn [rbind].
  destruct q as [[[sr sc] er] ec]. assert (S1 : small 1) by (unfold small; lia). destruct (N.eqb_spec sr er).
  - apply (index_at_ok checks sheet (sr, sc, er, ec) 1 i); auto.
  - apply (index_at_ok checks sheet (sr, sc, er, ec) i 1); auto.
Qed.
Lemma picked_on_sheet : forall q row col p, on_sheet q -> picked q row col = Some p -> on_sheet p.
Proof.
  intros [[[sr sc] er] ec] row col p (A & B & C & D). unfold picked, nth_line.
  destruct (Z.ltb_spec row 0); [discriminate|]. destruct (Z.ltb_spec col 0).
  { destruct (row =? 0); [discriminate|]. destruct (_ <=? _); discriminate. }
  destruct (Z.eqb_spec row 0).
  - destruct (Z.eqb_spec col 0).
    + intros Q. injection Q as <-. cbn. lia.
    + destruct (Z.leb_spec (Z.of_N sc + col - 1) (Z.of_N ec)); [|discriminate]. intros Q. injection Q as <-. cbn. lia.
  - destruct (Z.leb_spec (Z.of_N sr + row - 1) (Z.of_N er)); [|discriminate].
    destruct (Z.eqb_spec col 0).
    + intros Q. injection Q as <-. cbn. lia.
    + destruct (Z.leb_spec (Z.of_N sc + col - 1) (Z.of_N ec)); [|discriminate]. intros Q. injection Q as <-. cbn. lia.
Qed.

(** Row first, then column, or the other way. *)
Lemma picked_twice : forall q i j, on_sheet q -> 1 <= i -> 1 <= j ->
  match picked q i 0 with Some p => picked1 p j | None => None end = picked q i j /\
  match picked q 0 j with Some p => picked1 p i | None => None end = picked q i j.
Proof.
  intros [[[sr sc] er] ec] i j (A & B & C & D) Hi Hj. unfold picked, nth_line, picked1, picked, nth_line.
  destruct (Z.ltb_spec i 0); [lia|]. destruct (Z.ltb_spec j 0); [lia|].
  destruct (Z.eqb_spec i 0); [lia|]. destruct (Z.eqb_spec j 0); [lia|]. change (0 <? 0) with false. change (0 =? 0) with true.
  change (1 <? 0) with false. change (1 =? 0) with false. cbv iota beta. split.
  - destruct (Z.leb_spec (Z.of_N sr + i - 1) (Z.of_N er)); [|reflexivity].
    rewrite N.eqb_refl. destruct (Z.leb_spec (Z.of_N (Z.to_N (Z.of_N sr + i - 1)) + 1 - 1) (Z.of_N (Z.to_N (Z.of_N sr + i - 1)))); [|lia].
    destruct (Z.leb_spec (Z.of_N sc + j - 1) (Z.of_N ec)); [|reflexivity]. apply rect_eq; lia.
  - destruct (Z.leb_spec (Z.of_N sc + j - 1) (Z.of_N ec)).
    2:{ destruct (_ <=? _); reflexivity. }
    destruct (N.eqb_spec sr er) as [->|Ne].
    + destruct (Z.leb_spec (Z.of_N er + 1 - 1) (Z.of_N er)); [|lia].
      destruct (Z.leb_spec (Z.of_N (Z.to_N (Z.of_N sc + j - 1)) + i - 1) (Z.of_N (Z.to_N (Z.of_N sc + j - 1)))).
      * destruct (Z.leb_spec (Z.of_N er + i - 1) (Z.of_N er)); [|lia]. apply rect_eq; lia.
      * destruct (Z.leb_spec (Z.of_N er + i - 1) (Z.of_N er)); [lia|reflexivity].
    + destruct (Z.leb_spec (Z.of_N sr + i - 1) (Z.of_N er)); [|reflexivity].
      destruct (Z.leb_spec (Z.of_N (Z.to_N (Z.of_N sc + j - 1)) + 1 - 1) (Z.of_N (Z.to_N (Z.of_N sc + j - 1)))); [|lia].
      apply rect_eq; lia.
Qed.

(** ** Cells *)
Lemma upto_length : forall a b, length (upto a b) = N.to_nat (b + 1 - a).
Proof. intros. unfold upto. now rewrite map_length, seq_length. Qed.
Lemma upto_nth : forall a b i, (i < N.to_nat (b + 1 - a))%nat -> nth_error (upto a b) i = Some (a + N.of_nat i)%N.
Proof.
  intros a b i H. unfold upto. rewrite nth_error_map, (nth_error_nth' (seq 0 (N.to_nat (b + 1 - a))) O) by (now rewrite seq_length).
  rewrite seq_nth by auto. reflexivity.
Qed.
Lemma upto_one : forall a, upto a a = [a].
Proof. intros. unfold upto. replace (N.to_nat (a + 1 - a)) with 1%nat by lia. cbn. f_equal. lia. Qed.

Section Cells.
Variable V : Type.
Variable cellv : option text -> N -> N -> V.
Definition row_at sheet (sc ec : N) (r : N) : list V := map (cellv sheet r) (upto sc ec).
Lemma cells_rows : forall sheet sr sc er ec, cells_of V cellv sheet (sr, sc, er, ec) = map (row_at sheet sc ec) (upto sr er).
Proof. reflexivity. Qed.
Lemma max_same : forall (t : list (list V)) w, t <> [] -> (forall r, In r t -> length r = w) ->
  fold_right Nat.max 0%nat (map (@length V) t) = w.
Proof.
  induction t as [|r t IH]; intros w N H; [congruence|]. cbn. rewrite (H r (or_introl eq_refl)).
  destruct t as [|r2 t]; [cbn; lia|]. rewrite (IH w); [lia|discriminate|intros; apply H; now right].
Qed.
End Cells.
