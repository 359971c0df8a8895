From Coq Require Import List Bool NArith PeanoNat Lia String.
From Verif Require Import LexModel LexSpec LexProofs PrattModel PrattSpec.
Import ListNotations.
Open Scope N_scope.

Section P.
Variables num ref : Type.
Variable pnum : text -> option num.
Variable pref : text -> option ref.
Notation expr := (expr num ref).
Notation bp := (bp num ref pnum pref).
Notation loop := (loop num ref pnum pref).
Notation prefix := (prefix num ref pnum pref).
Notation enter := (enter num ref pnum pref).
Notation args := (args num ref pnum pref).
Notation arr := (arr num ref pnum pref).
Notation operand := (operand num ref pnum pref).
Notation len := (@List.length tok).

Lemma skip_ws_len : forall ts, (len (skip_ws ts) <= len ts)%nat.
Proof. induction ts as [|t ts IH]; simpl; auto. destruct (ttype_eqb (tt t) TWs); simpl; lia. Qed.

(* ---- one unfolding of each function ---- *)
Lemma bp_S : forall n k m ts, bp (S n) k m ts =
  match prefix n k ts with
  | POk (l, ts1) => loop n k m l ts1 | PErr => PErr | PFuel => PFuel end.
Proof. reflexivity. Qed.

Lemma loop_S : forall n k m left ts, loop (S n) k m left ts =
      match skip_ws ts with
      | [] => POk (left, [])
      | t :: r =>
          if is_tok TParen SOpen t then
            match enter n true k r with
            | POk (a, r1) => loop n k m (ECall _ _ left a) r1
            | PErr => PErr
            | PFuel => PFuel
            end
          else if ttype_eqb (tt t) TPost then
            if fst (op_prec (sem_value t)) <? m then POk (left, t :: r)
            else loop n k m (EUn _ _ (sem_value t) left) r
          else if negb (ttype_eqb (tt t) TInf) then POk (left, t :: r)
          else if k && text_eqb (tv t) [c_comma] then POk (left, t :: r)
          else
            let '(p, la) := op_prec (sem_value t) in
            if p <? m then POk (left, t :: r)
            else
              match bp n k (if la then p + 1 else p) r with
              | POk (y, r1) => loop n k m (EBin _ _ (sem_value t) left y) r1
              | PErr => PErr
              | PFuel => PFuel
              end
      end.
Proof. reflexivity. Qed.

Lemma prefix_S : forall n k ts, prefix (S n) k ts =
      match skip_ws ts with
      | [] => PErr
      | t :: r =>
          match tt t with
          | TPre =>
              match bp n k pre_prec r with
              | POk (x, r1) => POk (EUn _ _ (sem_value t) x, r1)
              | PErr => PErr
              | PFuel => PFuel
              end
          | TOperand =>
              match operand (tsb t) (tv t) with
              | Some e => POk (e, r)
              | None => PErr
              end
          | TFunc =>
              match enter n false k r with
              | POk (a, r1) => POk (EFn _ _ (removelast (tv t)) a, r1)
              | PErr => PErr
              | PFuel => PFuel
              end
          | TParen =>
              if tsub_eqb (tsb t) SOpen then
                match bp n k 0 r with
                | POk (x, r1) =>
                    match skip_ws r1 with
                    | t2 :: r2 => if is_tok TParen SClose t2 then POk (x, r2) else PErr
                    | [] => PErr
                    end
                | PErr => PErr
                | PFuel => PFuel
                end
              else PErr
          | TArray =>
              if tsub_eqb (tsb t) SOpen then
                match skip_ws r with
                | t2 :: r2 =>
                    if is_tok TArray SClose t2 then POk (EArr _ _ [], r2)
                    else
                      match bp n k 0 (t2 :: r2) with
                      | POk (x, r1) => arr n k [] [x] r1
                      | PErr => PErr
                      | PFuel => PFuel
                      end
                | [] => PErr
                end
              else PErr
          | _ => PErr
          end
      end.
Proof. reflexivity. Qed.

Lemma enter_S : forall n call k ts, enter (S n) call k ts =
      match skip_ws ts with
      | t :: r => if is_close call t then POk ([], r)
                  else args n call (call || k) true false [] (t :: r)
      | [] => PErr
      end.
Proof. reflexivity. Qed.

Lemma args_S : forall n call k expect saw acc ts, args (S n) call k expect saw acc ts =
      match skip_ws ts with
      | [] => PErr
      | t :: r =>
          if expect then
            if is_close call t then POk (if saw then acc ++ [EOmit _ _] else acc, r)
            else if is_sep call t then args n call k true true (acc ++ [EOmit _ _]) r
            else
              match bp n k 0 (t :: r) with
              | POk (x, r1) => args n call k false true (acc ++ [x]) r1
              | PErr => PErr
              | PFuel => PFuel
              end
          else if is_sep call t then args n call k true saw acc r
          else if is_close call t then POk (acc, r)
          else PErr
      end.
Proof. reflexivity. Qed.

Lemma arr_S : forall n k rows row ts, arr (S n) k rows row ts =
      match skip_ws ts with
      | [] => POk (EArr _ _ rows, [])
      | t :: r =>
          if ttype_eqb (tt t) TSep then
            match tsb t with
            | SArg =>
                match bp n k 0 r with
                | POk (x, r1) => arr n k rows (row ++ [x]) r1
                | PErr => PErr
                | PFuel => PFuel
                end
            | SRow =>
                match bp n k 0 r with
                | POk (x, r1) => arr n k (rows ++ [row]) [x] r1
                | PErr => PErr
                | PFuel => PFuel
                end
            | _ => PErr
            end
          else if is_tok TArray SClose t then POk (EArr _ _ (rows ++ [row]), r)
          else PErr
      end.
Proof. reflexivity. Qed.

(* ---- the fuel given by parse_tokens is enough ---- *)
Definition fits {A} (b : nat) (x : pres (A * list tok)) : Prop :=
  match x with
  | POk (_, r) => (len r <= b)%nat
  | PErr => True
  | PFuel => False
  end.

Lemma fits_le : forall A b b' (x : pres (A * list tok)), (b <= b')%nat -> fits b x -> fits b' x.
Proof. intros A b b' [[a r]| |] H; simpl; auto. lia. Qed.

Lemma fuel_enough : forall n,
  (forall k m ts, (4 * len ts + 2 <= n)%nat -> fits (len ts - 1) (bp n k m ts) /\
     (forall e r, bp n k m ts = POk (e, r) -> (len r < len ts)%nat)) /\
  (forall k m l ts, (4 * len ts + 1 <= n)%nat -> fits (len ts) (loop n k m l ts)) /\
  (forall k ts, (4 * len ts + 1 <= n)%nat -> fits (len ts - 1) (prefix n k ts) /\
     (forall e r, prefix n k ts = POk (e, r) -> (len r < len ts)%nat)) /\
  (forall c k ts, (4 * len ts + 4 <= n)%nat -> fits (len ts) (enter n c k ts)) /\
  (forall c k ex sw acc ts, (4 * len ts + 3 <= n)%nat -> fits (len ts) (args n c k ex sw acc ts)) /\
  (forall k rows row ts, (4 * len ts + 3 <= n)%nat -> fits (len ts) (arr n k rows row ts)).
Proof.
  induction n as [|n [Ibp [Iloop [Ipre [Ient [Iargs Iarr]]]]]].
  { repeat split; intros; exfalso; lia. }
  assert (Hpre : forall k ts, (4 * len ts + 1 <= S n)%nat ->
     match prefix (S n) k ts with
     | POk (_, r) => (len r < len ts)%nat | PErr => True | PFuel => False end).
  { intros k ts H. rewrite prefix_S. pose proof (skip_ws_len ts) as Hs.
    destruct (skip_ws ts) as [|t r]; auto. simpl in Hs.
    destruct (tt t); auto.
    - destruct (operand (tsb t) (tv t)); auto.
    - pose proof (Ient false k r ltac:(lia)) as E. destruct (enter n false k r) as [[a r1]| |]; simpl in E; auto; lia.
    - destruct (tsub_eqb (tsb t) SOpen); auto. pose proof (skip_ws_len r) as Hs2.
      destruct (skip_ws r) as [|t2 r2]; auto. simpl in Hs2.
      destruct (is_tok TArray SClose t2); [simpl; lia|].
      destruct (Ibp k 0 (t2 :: r2) ltac:(simpl; lia)) as [E _].
      destruct (bp n k 0 (t2 :: r2)) as [[x r1]| |]; simpl in E; auto.
      pose proof (Iarr k [] [x] r1 ltac:(lia)) as E2.
      destruct (arr n k [] [x] r1) as [[y r3]| |]; simpl in E2; auto; lia.
    - destruct (tsub_eqb (tsb t) SOpen); auto.
      destruct (Ibp k 0 r ltac:(lia)) as [E _].
      destruct (bp n k 0 r) as [[x r1]| |]; simpl in E; auto.
      pose proof (skip_ws_len r1) as Hs2. destruct (skip_ws r1) as [|t2 r2]; auto. simpl in Hs2.
      destruct (is_tok TParen SClose t2); auto. lia.
    - destruct (Ibp k pre_prec r ltac:(lia)) as [E _].
      destruct (bp n k pre_prec r) as [[x r1]| |]; simpl in E; auto. lia. }
  assert (Hbp : forall k m ts, (4 * len ts + 2 <= S n)%nat ->
     match bp (S n) k m ts with
     | POk (_, r) => (len r < len ts)%nat | PErr => True | PFuel => False end).
  { intros k m ts H. rewrite bp_S. destruct (Ipre k ts ltac:(lia)) as [E1 E2].
    destruct (prefix n k ts) as [[l ts1]| |]; simpl in E1; auto.
    specialize (E2 l ts1 eq_refl).
    pose proof (Iloop k m l ts1 ltac:(lia)) as E3.
    destruct (loop n k m l ts1) as [[e r]| |]; simpl in E3; auto. lia. }
  assert (Hloop : forall k m l ts, (4 * len ts + 1 <= S n)%nat -> fits (len ts) (loop (S n) k m l ts)).
  { intros k m l ts H. rewrite loop_S. pose proof (skip_ws_len ts) as Hs.
    destruct (skip_ws ts) as [|t r]; [simpl; lia|]. simpl in Hs.
    destruct (is_tok TParen SOpen t).
    { pose proof (Ient true k r ltac:(lia)) as E. destruct (enter n true k r) as [[a r1]| |]; simpl in E; auto.
      eapply fits_le; [|apply Iloop; lia]. lia. }
    destruct (ttype_eqb (tt t) TPost).
    { destruct (fst (op_prec (sem_value t)) <? m); [simpl; lia|].
      eapply fits_le; [|apply Iloop; lia]. lia. }
    destruct (negb (ttype_eqb (tt t) TInf)); [simpl; lia|].
    destruct (k && text_eqb (tv t) [c_comma]); [simpl; lia|].
    destruct (op_prec (sem_value t)) as [p la]. destruct (p <? m); [simpl; lia|].
    destruct (Ibp k (if la then p + 1 else p) r ltac:(lia)) as [E _].
    destruct (bp n k (if la then p + 1 else p) r) as [[y r1]| |]; simpl in E; auto.
    eapply fits_le; [|apply Iloop; lia]. lia. }
  split; [|split; [exact Hloop|split; [|split; [|split]]]].
  - intros k m ts H. pose proof (Hbp k m ts H) as E. split.
    + destruct (bp (S n) k m ts) as [[e r]| |]; simpl in *; auto. lia.
    + intros e r Q. rewrite Q in E. exact E.
  - intros k ts H. pose proof (Hpre k ts H) as E. split.
    + destruct (prefix (S n) k ts) as [[e r]| |]; simpl in *; auto. lia.
    + intros e r Q. rewrite Q in E. exact E.
  - intros c k ts H. rewrite enter_S. pose proof (skip_ws_len ts) as Hs.
    destruct (skip_ws ts) as [|t r]; [exact I|]. simpl in Hs.
    destruct (is_close c t); [simpl; lia|].
    eapply fits_le; [|apply Iargs; simpl; lia]. simpl; lia.
  - intros c k ex sw acc ts H. rewrite args_S. pose proof (skip_ws_len ts) as Hs.
    destruct (skip_ws ts) as [|t r]; [exact I|]. simpl in Hs.
    destruct ex.
    + destruct (is_close c t); [simpl; lia|].
      destruct (is_sep c t); [eapply fits_le; [|apply Iargs; lia]; lia|].
      destruct (Ibp k 0 (t :: r) ltac:(simpl; lia)) as [E _].
      destruct (bp n k 0 (t :: r)) as [[x r1]| |]; simpl in E; auto.
      eapply fits_le; [|apply Iargs; lia]. lia.
    + destruct (is_sep c t); [eapply fits_le; [|apply Iargs; lia]; lia|].
      destruct (is_close c t); [simpl; lia|exact I].
  - intros k rows row ts H. rewrite arr_S. pose proof (skip_ws_len ts) as Hs.
    destruct (skip_ws ts) as [|t r]; [simpl; lia|]. simpl in Hs.
    destruct (ttype_eqb (tt t) TSep).
    + destruct (Ibp k 0 r ltac:(lia)) as [E _].
      destruct (tsb t); try exact I;
        (destruct (bp n k 0 r) as [[x r1]| |]; simpl in E; auto;
         eapply fits_le; [|apply Iarr; lia]; lia).
    + destruct (is_tok TArray SClose t); [simpl; lia|exact I].
Qed.

Lemma parse_tokens_total : forall ts, parse_tokens num ref pnum pref ts <> PFuel.
Proof.
  intros ts. unfold parse_tokens. destruct (skip_ws ts) as [|t r]; [discriminate|].
  destruct (ttype_eqb (tt t) TLiteral).
  - destruct (skip_ws r); discriminate.
  - destruct (fuel_enough (4 * len ts + 4)) as [H _].
    destruct (H false 0 ts ltac:(lia)) as [E _].
    destruct (bp (4 * len ts + 4) false 0 ts) as [[e r1]| |]; simpl in E.
    + destruct (skip_ws r1); discriminate.
    + discriminate.
    + contradiction.
Qed.

(* ---- more fuel changes nothing ---- *)
Lemma fuel_mono : forall n,
  (forall k m ts x, bp n k m ts = x -> x <> PFuel -> bp (S n) k m ts = x) /\
  (forall k m l ts x, loop n k m l ts = x -> x <> PFuel -> loop (S n) k m l ts = x) /\
  (forall k ts x, prefix n k ts = x -> x <> PFuel -> prefix (S n) k ts = x) /\
  (forall c k ts x, enter n c k ts = x -> x <> PFuel -> enter (S n) c k ts = x) /\
  (forall c k ex sw acc ts x, args n c k ex sw acc ts = x -> x <> PFuel ->
     args (S n) c k ex sw acc ts = x) /\
  (forall k rows row ts x, arr n k rows row ts = x -> x <> PFuel -> arr (S n) k rows row ts = x).
Proof.
  induction n as [|n [Ibp [Iloop [Ipre [Ient [Iargs Iarr]]]]]].
  { repeat split; intros; exfalso; match goal with H : ?x = ?y, H0 : ?y <> PFuel |- _ => apply H0; rewrite <- H; reflexivity end. }
  assert (Ub : forall k m ts, bp n k m ts <> PFuel -> bp (S n) k m ts = bp n k m ts) by (intros; auto).
  assert (Ul : forall k m l ts, loop n k m l ts <> PFuel -> loop (S n) k m l ts = loop n k m l ts) by (intros; auto).
  assert (Up : forall k ts, prefix n k ts <> PFuel -> prefix (S n) k ts = prefix n k ts) by (intros; auto).
  assert (Ue : forall c k ts, enter n c k ts <> PFuel -> enter (S n) c k ts = enter n c k ts) by (intros; auto).
  assert (Ua : forall c k ex sw acc ts, args n c k ex sw acc ts <> PFuel ->
     args (S n) c k ex sw acc ts = args n c k ex sw acc ts) by (intros; auto).
  assert (Ur : forall k rows row ts, arr n k rows row ts <> PFuel ->
     arr (S n) k rows row ts = arr n k rows row ts) by (intros; auto).
  clear Ibp Iloop Ipre Ient Iargs Iarr.
  split; [|split; [|split; [|split; [|split]]]].
  - intros k m ts x H Hx. rewrite bp_S in *.
    destruct (prefix n k ts) as [[l t1]| |] eqn:E; try congruence;
      rewrite Up, E by (rewrite E; discriminate); auto.
    rewrite Ul; congruence.
  - intros k m l ts x H Hx. rewrite loop_S in *. destruct (skip_ws ts) as [|t r]; auto.
    destruct (is_tok TParen SOpen t).
    { destruct (enter n true k r) as [[a r1]| |] eqn:E; try congruence;
        rewrite Ue, E by (rewrite E; discriminate); auto. rewrite Ul; congruence. }
    destruct (ttype_eqb (tt t) TPost).
    { destruct (fst (op_prec (sem_value t)) <? m); auto. rewrite Ul; congruence. }
    destruct (negb (ttype_eqb (tt t) TInf)); auto.
    destruct (k && text_eqb (tv t) [c_comma]); auto.
    destruct (op_prec (sem_value t)) as [p la]. destruct (p <? m); auto.
    destruct (bp n k (if la then p + 1 else p) r) as [[y r1]| |] eqn:E; try congruence;
      rewrite Ub, E by (rewrite E; discriminate); auto. rewrite Ul; congruence.
  - intros k ts x H Hx. rewrite prefix_S in *. destruct (skip_ws ts) as [|t r]; auto.
    destruct (tt t); auto.
    + destruct (enter n false k r) as [[a r1]| |] eqn:E; try congruence;
        rewrite Ue, E by (rewrite E; discriminate); auto.
    + destruct (tsub_eqb (tsb t) SOpen); auto. destruct (skip_ws r) as [|t2 r2]; auto.
      destruct (is_tok TArray SClose t2); auto.
      destruct (bp n k 0 (t2 :: r2)) as [[y r1]| |] eqn:E; try congruence;
        rewrite Ub, E by (rewrite E; discriminate); auto. rewrite Ur; congruence.
    + destruct (tsub_eqb (tsb t) SOpen); auto.
      destruct (bp n k 0 r) as [[y r1]| |] eqn:E; try congruence;
        rewrite Ub, E by (rewrite E; discriminate); auto.
    + destruct (bp n k pre_prec r) as [[y r1]| |] eqn:E; try congruence;
        rewrite Ub, E by (rewrite E; discriminate); auto.
  - intros c k ts x H Hx. rewrite enter_S in *. destruct (skip_ws ts) as [|t r]; auto.
    destruct (is_close c t); auto. rewrite Ua; congruence.
  - intros c k ex sw acc ts x H Hx. rewrite args_S in *. destruct (skip_ws ts) as [|t r]; auto.
    destruct ex.
    + destruct (is_close c t); auto. destruct (is_sep c t); [rewrite Ua; congruence|].
      destruct (bp n k 0 (t :: r)) as [[y r1]| |] eqn:E; try congruence;
        rewrite Ub, E by (rewrite E; discriminate); auto. rewrite Ua; congruence.
    + destruct (is_sep c t); [rewrite Ua; congruence|]. destruct (is_close c t); auto.
  - intros k rows row ts x H Hx. rewrite arr_S in *. destruct (skip_ws ts) as [|t r]; auto.
    destruct (ttype_eqb (tt t) TSep); auto.
    destruct (tsb t); auto;
      (destruct (bp n k 0 r) as [[y r1]| |] eqn:E; try congruence;
       rewrite Ub, E by (rewrite E; discriminate); auto; rewrite Ur; congruence).
Qed.

Lemma bp_more : forall n n' k m ts x, (n <= n')%nat -> bp n k m ts = x -> x <> PFuel -> bp n' k m ts = x.
Proof.
  intros n n' k m ts x Hn H Hx. induction Hn; auto. apply (proj1 (fuel_mono m0)); auto.
Qed.
Lemma loop_more : forall n n' k m l ts x, (n <= n')%nat -> loop n k m l ts = x -> x <> PFuel -> loop n' k m l ts = x.
Proof.
  intros n n' k m l ts x Hn H Hx. induction Hn; auto. apply (proj1 (proj2 (fuel_mono m0))); auto.
Qed.
Lemma prefix_more : forall n n' k ts x, (n <= n')%nat -> prefix n k ts = x -> x <> PFuel -> prefix n' k ts = x.
Proof.
  intros n n' k ts x Hn H Hx. induction Hn; auto. apply (proj1 (proj2 (proj2 (fuel_mono m)))); auto.
Qed.
Lemma enter_more : forall n n' c k ts x, (n <= n')%nat -> enter n c k ts = x -> x <> PFuel -> enter n' c k ts = x.
Proof.
  intros n n' c k ts x Hn H Hx. induction Hn; auto.
  apply (proj1 (proj2 (proj2 (proj2 (fuel_mono m))))); auto.
Qed.
Lemma args_more : forall n n' c k ex sw acc ts x, (n <= n')%nat -> args n c k ex sw acc ts = x ->
  x <> PFuel -> args n' c k ex sw acc ts = x.
Proof.
  intros n n' c k ex sw acc ts x Hn H Hx. induction Hn; auto.
  apply (proj1 (proj2 (proj2 (proj2 (proj2 (fuel_mono m)))))); auto.
Qed.
Lemma arr_more : forall n n' k rows row ts x, (n <= n')%nat -> arr n k rows row ts = x ->
  x <> PFuel -> arr n' k rows row ts = x.
Proof.
  intros n n' k rows row ts x Hn H Hx. induction Hn; auto.
  apply (proj2 (proj2 (proj2 (proj2 (proj2 (fuel_mono m)))))); auto.
Qed.
End P.
