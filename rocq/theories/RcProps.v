(** Recalculation (C173-C178). *)
From Coq Require Import Permutation.
From Verif Require Import Base GraphSpec RcModel RcSpec RcProofs RcProofs2 RcProofs3 RcProofs4 RcProofs5.

(** ** Full evaluation *)
Theorem C173_all_settled :
  forall (V : Type) (circ blank : V) (ho : list nat -> list nat), (forall l, Permutation (ho l) l) ->
  forall os pool t, Forall plain_op os ->
  exists b, rrun V circ ho (new_book V blank) (os ++ [OAll pool t]) = Some b /\
    (forall f, settled circ t b f) /\
    (forall v, match entered blank os v with
               | inl x => b_form b v = None /\ b_val b v = x
               | inr F => b_form b v = Some F
               end).
Proof.
  intros V circ blank ho HO os pool t P.
  assert (P2 : Forall (@plain_op V) (os ++ [OAll pool t])) by (apply Forall_app; split; auto; repeat constructor).
  destruct (rrun_inv V circ ho HO os (new_book V blank) (new_inv V circ blank) P) as (b0 & R0 & I0).
  destruct (evaluate_all_inv V circ ho HO pool t b0 I0) as (b & E & I & Ef & Ev & St & Di & Vo).
  assert (R : rrun V circ ho (new_book V blank) (os ++ [OAll pool t]) = Some b).
  { rewrite rrun_app, R0. cbn. now rewrite E. }
  exists b. split; auto. split; auto. intros v.
  pose proof (shows_new V circ ho HO blank _ b P2 R v) as S. unfold entered in S. rewrite fold_left_app in S. exact S.
Qed.
(** At any time a formula that is not marked shows what it should. *)
Theorem C173_clean_is_settled :
  forall (V : Type) (circ blank : V) (ho : list nat -> list nat), (forall l, Permutation (ho l) l) ->
  forall os, Forall plain_op os ->
  exists b, rrun V circ ho (new_book V blank) os = Some b /\
    forall f t, ~ In f (b_dirty b) -> settled circ t b f.
Proof.
  intros V circ blank ho HO os P.
  destruct (rrun_inv V circ ho HO os (new_book V blank) (new_inv V circ blank) P) as (b & R & ((W & Pl & Cl & Cn & Vf & Ca) & Vd)).
  exists b. split; auto. intros f t N F E. apply (Cn f t N); auto. intros G EG.
  destruct (f_volatile G) eqn:Q; auto. exfalso. apply N. eauto.
Qed.

(** ** The thread pool *)
Theorem C174_pool_is_invisible :
  forall (V : Type) (circ blank : V) (ho : list nat -> list nat), (forall l, Permutation (ho l) l) ->
  forall os os', Forall2 same_op os os' -> Forall plain_op os -> Forall plain_op os' ->
  exists b b', rrun V circ ho (new_book V blank) os = Some b /\ rrun V circ ho (new_book V blank) os' = Some b' /\
    (forall v, b_val b' v = b_val b v) /\ (forall v, b_form b' v = b_form b v) /\ b_dirty b' = b_dirty b.
Proof.
  intros V circ blank ho HO os os' S P P'.
  destruct (rrun_sim V circ ho HO os os' (new_book V blank) (new_book V blank) S (new_inv V circ blank) (new_inv V circ blank)) as (b & b' & R & R' & I & ((E1 & E2 & E3 & _) & Va)); auto.
  { split; [repeat split|auto]. }
  exists b, b'. repeat split; auto. intros v. now rewrite E2.
Qed.

(** ** Chosen cells *)
Theorem C175_cells_like_all :
  forall (V : Type) (circ blank : V) (ho : list nat -> list nat), (forall l, Permutation (ho l) l) ->
  forall os pool pool' t targets, Forall plain_op os ->
  exists b c a, rrun V circ ho (new_book V blank) os = Some b /\
    rstep V circ ho b (OCells pool t targets) = Some c /\ rstep V circ ho b (OAll pool' t) = Some a /\
    (forall g u, In g targets -> uses b g u -> b_val c u = b_val a u) /\
    (forall u, (forall g, In g targets -> ~ uses b g u) ->
       b_val c u = b_val b u /\ (In u (b_dirty b) -> In u (b_dirty c))).
Proof.
  intros V circ blank ho HO os pool pool' t targets P.
  destruct (rrun_inv V circ ho HO os (new_book V blank) (new_inv V circ blank) P) as (b & R & I).
  destruct (evaluate_cells_inv V circ ho HO pool t b targets I) as (c & vs & E & _).
  destruct (evaluate_all_inv V circ ho HO pool' t b I) as (a & E' & _).
  exists b, c, a. split; auto. split; auto. split; auto. now apply (cells_like_all V circ ho HO pool pool' t b targets c a).
Qed.

(** ** Histories *)
Theorem C176_content_decides :
  forall (V : Type) (circ blank : V) (ho ho' : list nat -> list nat),
  (forall l, Permutation (ho l) l) -> (forall l, Permutation (ho' l) l) ->
  forall os os' pool pool' t t', Forall plain_op os -> Forall plain_op os' ->
  (forall v, entered blank os v = entered blank os' v) ->
  (forall v F, entered blank os v = inr F -> f_volatile F = true -> t = t') ->
  exists b b', rrun V circ ho (new_book V blank) (os ++ [OAll pool t]) = Some b /\
    rrun V circ ho' (new_book V blank) (os' ++ [OAll pool' t']) = Some b' /\
    forall v, b_val b v = b_val b' v.
Proof.
  intros V circ blank ho ho' HO HO' os os' pool pool' t t' P P' En Vo.
  destruct (C173_all_settled V circ blank ho HO os pool t P) as (b & R & S & C).
  destruct (C173_all_settled V circ blank ho' HO' os' pool' t' P') as (b' & R' & S' & C').
  exists b, b'. split; auto. split; auto.
  apply (all_determined V circ t t'); auto.
  - destruct (rrun_inv V circ ho HO (os ++ [OAll pool t]) (new_book V blank) (new_inv V circ blank)) as (b2 & R2 & ((W & _) & _)).
    + apply Forall_app; split; auto; repeat constructor.
    + rewrite R in R2. injection R2 as <-. exact W.
  - apply (shows_same V b b' (entered blank os)); [exact C|]. intros v. rewrite En. apply C'.
  - intros v F E. apply (Vo v F). specialize (C v). destruct (entered blank os v).
    + destruct C; congruence.
    + congruence.
Qed.

(** ** What is left to do afterwards *)
Theorem C178_volatile_stays_dirty_partial :
  forall (V : Type) (circ blank : V) (ho : list nat -> list nat), (forall l, Permutation (ho l) l) ->
  forall os pool t, Forall plain_op os ->
  exists b, rrun V circ ho (new_book V blank) (os ++ [OAll pool t]) = Some b /\
    forall f, b_form b f <> None ->
      (restless b f -> In f (b_dirty b)) /\
      (In f (b_dirty b) -> exists v, uses b f v /\ once_volatile os v).
Proof.
  intros V circ blank ho HO os pool t P.
  destruct (rrun_inv V circ ho HO os (new_book V blank) (new_inv V circ blank) P) as (b0 & R0 & I0).
  destruct (evaluate_all_inv V circ ho HO pool t b0 I0) as (b & E & I & Ef & Ev & St & Di & Vo).
  exists b. split; [rewrite rrun_app, R0; cbn; now rewrite E|]. intros f Nf.
  assert (Fo : is_form b0 f = true) by (unfold is_form; rewrite <- Ef; destruct (b_form b f); congruence).
  specialize (Di f Fo). destruct I as ((_ & _ & _ & _ & Vf & _) & _). split.
  - intros (v & F & U & EF & Q). apply Di. exists v. split; auto. now apply (Vf v F).
  - intros D. apply Di in D. destruct D as (v & Iv & U). exists v. split; auto. rewrite Vo in Iv.
    destruct (vol_run V circ ho HO os (new_book V blank) b0 (new_inv V circ blank) P R0 v Iv) as [[]|H]; auto.
Qed.

(** ** Examples *)
(** Values are numbers; 99 stands for #CIRC!. *)
Definition add : nat -> list nat -> result nat := fun t l => Scalar (list_sum l + t).
Definition same (l : list nat) := l.
(** 10 has 3; 1 = 10 + 2; 2 = sum of the range 3,4,5; 4 = 10; 5 is volatile; 6 and 7 refer
    to each other; 8 uses them. *)
Definition hist : list (rop nat) :=
  [OSet 10 3; OForm 1 (Formula [10; 2] [] false add); OForm 2 (Formula [] [3; 4; 5] false add);
   OForm 4 (Formula [10] [] false add); OForm 5 (Formula [] [] true add);
   OForm 6 (Formula [7] [] false add); OAll false 1; OForm 7 (Formula [6] [] false add);
   OForm 8 (Formula [6; 10] [] false add); OCells true 2 [4]; OSet 3 100].
Lemma hist_plain : Forall (@plain_op nat) hist.
Proof. repeat constructor; intros t l; eexists; reflexivity. Qed.
Example C173_example :
  match rrun nat 99 same (new_book nat 0) (hist ++ [OAll false 7]) with
  | Some b => map (b_val b) [1; 2; 4; 5; 6; 7; 8; 10; 3] = [113; 110; 3; 7; 99; 99; 102; 3; 100] /\
              filter (fun v => existsb (Nat.eqb v) (b_dirty b)) [1; 2; 4; 5; 6; 7; 8] = [1; 2; 5]
  | None => False
  end.
Proof. vm_compute. split; reflexivity. Qed.
Example C174_example :
  Forall2 (@same_op nat) (hist ++ [OAll false 7]) (hist ++ [OAll true 7]) /\
  match rrun nat 99 same (new_book nat 0) (hist ++ [OAll true 7]) with
  | Some b => map (b_val b) [1; 2; 4; 5; 6; 7; 8] = [113; 110; 3; 7; 99; 99; 102]
  | None => False
  end.
Proof. split; [repeat constructor|]. vm_compute. reflexivity. Qed.
Example C175_example :
  match rrun nat 99 same (new_book nat 0) hist with
  | Some b =>
      match rstep nat 99 same b (OCells false 7 [2]) with
      | Some c => map (b_val b) [1; 2; 5; 8] = [7; 4; 1; 0] /\ map (b_val c) [1; 2; 5; 8] = [7; 110; 7; 0] /\
                  existsb (Nat.eqb 8) (b_dirty c) = true
      | None => False
      end
  | None => False
  end.
Proof. vm_compute. repeat split; reflexivity. Qed.
Definition hist2 : list (rop nat) :=
  [OForm 8 (Formula [6; 10] [] false add); OForm 7 (Formula [6] [] false add); OForm 6 (Formula [7] [] false add);
   OForm 1 (Formula [10; 2] [] false add); OSet 4 55; OAll true 3; OForm 5 (Formula [] [] true add);
   OForm 4 (Formula [10] [] false add); OSet 3 100; OForm 2 (Formula [] [3; 4; 5] false add); OSet 10 3].
Example C176_example :
  (forall v, entered 0 hist v = entered 0 hist2 v) /\
  match rrun nat 99 same (new_book nat 0) (hist2 ++ [OAll true 7]) with
  | Some b => map (b_val b) [1; 2; 4; 5; 6; 7; 8] = [113; 110; 3; 7; 99; 99; 102]
  | None => False
  end.
Proof.
  split; [|vm_compute; reflexivity]. intros v.
  do 11 (destruct v as [|v]; [reflexivity|]). reflexivity.
Qed.

(** A formula that gives an array: 1 reads 3, which 2 fills. *)
Definition spilling : list (rop nat) :=
  [OForm 1 (Formula [3] [] false add); OForm 2 (Formula [] [] false (fun _ _ => Spill 5 [(3, 7)]))].
Theorem C177_reader_of_array_refuted :
  ~ (forall (os : list (rop nat)) pool t b, rrun nat 99 same (new_book nat 0) (os ++ [OAll pool t]) = Some b ->
       forall f, ~ In f (b_dirty b) -> settled 99 t b f).
Proof.
  intros H.
  assert (X : exists b, rrun nat 99 same (new_book nat 0) (spilling ++ [OAll false 0]) = Some b /\ b_dirty b = [3] /\
            b_val b 1 = 0 /\ b_val b 3 = 7 /\ b_form b 1 = Some (Formula [3] [] false add) /\ b_form b 3 = None).
  { eexists. split; [vm_compute; reflexivity|]. repeat split; vm_compute; reflexivity. }
  destruct X as (b & R & D & V1 & V3 & F1 & F3).
  assert (N : ~ In 1 (b_dirty b)) by (rewrite D; intros [Q|[]]; discriminate).
  destruct (H _ _ _ _ R 1 N _ F1) as [_ K].
  assert (C : ~ on_cycle (reads b) 1).
  { intros (y & (F & EF & Iy) & Re). rewrite F1 in EF. injection EF as <-. destruct Iy as [<-|[]].
    inversion Re as [|? w ? R1 R2]; subst. destruct R1 as (F & EF & _). congruence. }
  specialize (K C). rewrite V1 in K. cbn in K. rewrite V3 in K. discriminate.
Qed.
(** A further full evaluation does not help. *)
Theorem C177_stays_stale_refuted :
  exists b, rrun nat 99 same (new_book nat 0) (spilling ++ [OAll false 0; OAll false 1; OAll true 2]) = Some b /\
    b_val b 3 = 7 /\ b_val b 1 = 0 /\ ~ In 1 (b_dirty b).
Proof. eexists. split; [vm_compute; reflexivity|]. split; [reflexivity|]. split; [reflexivity|]. vm_compute. intros [Q|[]]; discriminate. Qed.
(** With the anchor entered first the reader is right. *)
Example C177_example :
  match rrun nat 99 same (new_book nat 0) [OForm 1 (Formula [] [] false (fun _ _ => Spill 5 [(3, 7)])); OForm 2 (Formula [3] [] false add); OAll false 0] with
  | Some b => b_val b 2 = 7
  | None => False
  end.
Proof. vm_compute. reflexivity. Qed.

(** 1 was volatile and is now 5; its reader is marked after every evaluation. *)
Definition former : list (rop nat) :=
  [OForm 1 (Formula [] [] true add); OForm 2 (Formula [1] [] false add); OSet 1 5].
Theorem C178_former_volatile_refuted :
  exists b, rrun nat 99 same (new_book nat 0) (former ++ [OAll false 0; OAll false 1]) = Some b /\
    b_form b 2 <> None /\ In 2 (b_dirty b) /\ ~ restless b 2.
Proof.
  assert (X : exists b, rrun nat 99 same (new_book nat 0) (former ++ [OAll false 0; OAll false 1]) = Some b /\ In 2 (b_dirty b) /\
            b_form b 2 = Some (Formula [1] [] false add) /\ forall v F, b_form b v = Some F -> f_volatile F = false).
  { eexists. split; [vm_compute; reflexivity|]. split; [vm_compute; auto 10|]. split; [vm_compute; reflexivity|].
    intros v F EF. destruct v as [|[|[|v]]]; try discriminate EF. vm_compute in EF. injection EF as <-. reflexivity. }
  destruct X as (b & R & D & F2 & Nv). exists b. split; auto. split; [rewrite F2; discriminate|]. split; auto.
  intros (v & F & U & EF & Q). rewrite (Nv v F EF) in Q. discriminate.
Qed.
Example C178_example :
  match rrun nat 99 same (new_book nat 0) (hist ++ [OAll false 7]) with
  | Some b => existsb (Nat.eqb 1) (b_dirty b) = true /\ existsb (Nat.eqb 8) (b_dirty b) = false
  | None => False
  end.
Proof. vm_compute. split; reflexivity. Qed.
Print Assumptions C173_all_settled.
Print Assumptions C173_clean_is_settled.
Print Assumptions C174_pool_is_invisible.
Print Assumptions C175_cells_like_all.
Print Assumptions C176_content_decides.
Print Assumptions C177_reader_of_array_refuted.
Print Assumptions C177_stays_stale_refuted.
Print Assumptions C178_volatile_stays_dirty_partial.
Print Assumptions C178_former_volatile_refuted.
