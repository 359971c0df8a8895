(** Lockstep: two evaluations of related formulas in related environments. *)
From Verif Require Import Base Maps LookupModel BcastModel EvModel EvSpec.

Lemma teq : forall a b, text_eqb a b = true <-> a = b.
Proof. exact text_eqb_spec. Qed.
Lemma tneq : forall a b, text_eqb a b = false <-> a <> b.
Proof. intros a b. rewrite <- teq. destruct (text_eqb a b); split; congruence. Qed.

Definition scope := text -> Prop.
Definition plus (P : scope) (n : text) : scope := fun k => P k \/ k = norm n.

Section Sim.
  Variable W : world.
  Notation T := (T W).
  Variables d1 d2 : Z * Z.
  (** What is also known of the bodies of functions. *)
  Variable Y : scope -> expr T -> expr T -> Prop.
  Definition off (i : interp W) : Z * Z := (i_dr W i, i_dc W i).
  Definition eff (d : Z * Z) (r : ref) : res N ref := effective W (mkInterp W [] (fst d) (snd d)) r.
  Definition slow (d : Z * Z) (r : ref) : res N (calc W) := rbind (eff d r) (read_ref W).

  Definition is_name (r : ref) : bool := match r with RName _ => true | _ => false end.
  Inductive rsim : ref -> ref -> Prop :=
  | rs_name : forall n, rsim (RName n) (RName n)
  | rs_other : forall r1 r2, is_name r1 = false -> is_name r2 = false ->
      eff d1 r1 = eff d2 r2 ->
      ref_tree W (mkInterp W [] (fst d1) (snd d1)) r1 = slow d1 r1 ->
      ref_tree W (mkInterp W [] (fst d2) (snd d2)) r2 = slow d2 r2 -> rsim r1 r2.

  Inductive esim (P : scope) : expr T -> expr T -> Prop :=
  | es_lit : forall v, esim P (ELit v) (ELit v)
  | es_omit : esim P EOmit EOmit
  | es_ref : forall r1 r2, rsim r1 r2 -> (forall n, r1 = RName n -> P (norm n)) -> esim P (ERef r1) (ERef r2)
  | es_un : forall op a1 a2, esim P a1 a2 -> esim P (EUn op a1) (EUn op a2)
  | es_bin : forall op a1 a2 b1 b2, esim P a1 a2 -> esim P b1 b2 -> esim P (EBin op a1 b1) (EBin op a2 b2)
  | es_call : forall c1 a1 c2 a2, esim P (ECall c1 a1) (ECall c2 a2)
  | es_arr : forall r1 r2, Forall2 (Forall2 (esim P)) r1 r2 -> esim P (EArr r1) (EArr r2)
  | es_prim : forall name f a1 a2, w_fn W name = Some (FPrim f) -> Forall2 (esim P) a1 a2 ->
      esim P (EFun name a1) (EFun name a2)
  | es_local : forall name a1 a2, w_fn W name = None -> P (norm name) -> Forall2 (esim P) a1 a2 ->
      esim P (EFun name a1) (EFun name a2)
  | es_let : forall name a1 a2, w_fn W name = Some FLet -> lsim P a1 a2 -> esim P (EFun name a1) (EFun name a2)
  | es_lambda : forall name a1 a2, w_fn W name = Some FLambda -> msim P a1 a2 -> esim P (EFun name a1) (EFun name a2)
  with lsim (P : scope) : list (expr T) -> list (expr T) -> Prop :=
  | ls_nil : lsim P [] []
  | ls_body : forall b1 b2, esim P b1 b2 -> lsim P [b1] [b2]
  | ls_pair : forall x1 x2 a1 a2 r1 r2 n, local_name W x1 = Some n -> local_name W x2 = Some n ->
      esim P a1 a2 -> lsim (plus P n) r1 r2 -> lsim P (x1 :: a1 :: r1) (x2 :: a2 :: r2)
  | ls_bad : forall x1 x2 a1 a2 r1 r2, local_name W x1 = None -> local_name W x2 = None -> length r1 = length r2 ->
      lsim P (x1 :: a1 :: r1) (x2 :: a2 :: r2)
  with msim (P : scope) : list (expr T) -> list (expr T) -> Prop :=
  | ms_nil : msim P [] []
  | ms_body : forall b1 b2, esim P b1 b2 -> Y P b1 b2 -> msim P [b1] [b2]
  | ms_param : forall x1 x2 y1 y2 r1 r2 n, local_name W x1 = Some n -> local_name W x2 = Some n ->
      msim (plus P n) (y1 :: r1) (y2 :: r2) -> msim P (x1 :: y1 :: r1) (x2 :: y2 :: r2)
  | ms_bad : forall x1 x2 y1 y2 r1 r2, local_name W x1 = None -> local_name W x2 = None ->
      msim P (x1 :: y1 :: r1) (x2 :: y2 :: r2).

  Inductive bsim : binding W -> binding W -> Prop :=
  | bs_val : forall v, bsim (BVal W v) (BVal W v)
  | bs_clo : forall (P : scope) ps b1 b2 e1 e2, esim P b1 b2 -> Y P b1 b2 ->
      (forall k, P k -> (forall p, In p ps -> k <> norm p) -> osim (find W k e1) (find W k e2)) ->
      bsim (BClo W (Clo W ps b1 e1)) (BClo W (Clo W ps b2 e2))
  with osim : option (binding W) -> option (binding W) -> Prop :=
  | os_none : osim None None
  | os_some : forall a b, bsim a b -> osim (Some a) (Some b).

  Definition agree (P : scope) (e1 e2 : env W) : Prop := forall k, P k -> osim (find W k e1) (find W k e2).

  Inductive csim : calc W -> calc W -> Prop :=
  | cs_plain : forall p, csim (CPlain W p) (CPlain W p)
  | cs_clo : forall c d, bsim (BClo W c) (BClo W d) -> csim (CClo W c) (CClo W d).
  Inductive wsim {A} (R : A -> A -> Prop) : res N A -> res N A -> Prop :=
  | ws_ok : forall a b, R a b -> wsim R (Ok a) (Ok b)
  | ws_err : forall e, wsim R (Err e) (Err e)
  | ws_panic : wsim R Panic Panic.
  Inductive rrel {A} (R : A -> A -> Prop) : option (res N A) -> option (res N A) -> Prop :=
  | rr_none : rrel R None None
  | rr_some : forall a b, wsim R a b -> rrel R (Some a) (Some b).

  Lemma into_csim : forall a b, csim a b -> into_literal W a = into_literal W b.
  Proof. intros a b H. destruct H; reflexivity. Qed.
  Lemma binding_csim : forall a b, csim a b -> bsim (binding_of W a) (binding_of W b).
  Proof. intros a b H. destruct H; cbn; auto. constructor. Qed.
  Lemma see_csim : forall a b, csim a b -> see W a = see W b.
  Proof. intros a b H. destruct H; reflexivity. Qed.
  Lemma at_csim : forall a b, csim a b -> at_calc W a = at_calc W b.
  Proof. intros a b H. destruct H; reflexivity. Qed.

  Lemma csim_refl_plain : forall r : res N (plain T), wsim csim (rmap (CPlain W) r) (rmap (CPlain W) r).
  Proof. intros [p|e|]; cbn; constructor; constructor. Qed.
  Lemma agree_plus : forall P e1 e2 n b c, agree P e1 e2 -> bsim b c -> agree (plus P n) (bind W n b e1) (bind W n c e2).
  Proof.
    intros P e1 e2 n b c HA HB k HK. unfold bind; cbn.
    destruct (text_eqb k (norm n)) eqn:E.
    - now constructor.
    - destruct HK as [HK|HK]; [now apply HA|]. subst k. apply tneq in E. congruence.
  Qed.
  Lemma agree_ext : forall (P Q : scope) e1 e2, (forall k, Q k -> P k) -> agree P e1 e2 -> agree Q e1 e2.
  Proof. intros P Q e1 e2 H HA k HK. apply HA. auto. Qed.

  (** References. *)
  Lemma eff_off : forall i r, effective W i r = eff (off i) r.
  Proof. reflexivity. Qed.
  Lemma rsim_eff : forall r1 r2, rsim r1 r2 -> eff d1 r1 = eff d2 r2.
  Proof.
    intros r1 r2 H. destruct H as [n|r1 r2 _ _ H _ _]; auto.
    unfold eff, effective, relocate. destruct d1 as [x y], d2 as [u v]. cbn [i_dr i_dc fst snd].
    destruct ((x =? 0)%Z && (y =? 0)%Z), ((u =? 0)%Z && (v =? 0)%Z); reflexivity.
  Qed.
  Lemma as_ref_sim : forall e1 e2 P i1 i2, off i1 = d1 -> off i2 = d2 -> esim P e1 e2 ->
    as_reference W i1 e1 = as_reference W i2 e2.
  Proof.
    induction e1 as [v| |r|op a IHa|op a IHa b IHb|name args|c args|rows]; intros e2 P i1 i2 H1 H2 HS;
      inversion HS as [ | |r1 r2 HR HN Q1 Q2|op' a1 a2 HA Q1 Q2|op' a1 a2 b1 b2 HA HB Q1 Q2|c1 l1 c2 l2 Q1 Q2|l1 l2 HL Q1 Q2
                      |nm f l1 l2 HF HL Q1 Q2|nm l1 l2 HF HP HL Q1 Q2|nm l1 l2 HF HL Q1 Q2|nm l1 l2 HF HL Q1 Q2]; subst; cbn; auto.
    - rewrite !eff_off, ?H1, ?H2. now apply rsim_eff.
    - destruct op; auto. now rewrite (IHa a2 P i1 i2 H1 H2 HA), (IHb b2 P i1 i2 H1 H2 HB).
  Qed.
  Lemma eff_not_name : forall d r r', is_name r = false -> eff d r = Ok r' -> is_name r' = false.
  Proof.
    intros d r r' HN. unfold eff, effective. cbn [i_dr i_dc]. destruct ((fst d =? 0)%Z && (snd d =? 0)%Z).
    - intros Q. inversion Q. now subst.
    - destruct r as [s row col ra ca|s sr sc er ec sra sca era eca|n|k]; cbn [relocate is_name] in *; try discriminate.
      + destruct (shift_axis row (fst d) ra); cbn [rbind]; try discriminate.
        destruct (shift_axis col (snd d) ca); cbn [rbind]; try discriminate. intros Q. inversion Q. reflexivity.
      + destruct (shift_opt sr (fst d) sra); cbn [rbind]; try discriminate.
        destruct (shift_opt sc (snd d) sca); cbn [rbind]; try discriminate.
        destruct (shift_opt er (fst d) era); cbn [rbind]; try discriminate.
        destruct (shift_opt ec (snd d) eca); cbn [rbind]; try discriminate. intros Q. inversion Q. reflexivity.
  Qed.
  Lemma ref_tree_other : forall i r, is_name r = false ->
    ref_tree W (mkInterp W [] (fst (off i)) (snd (off i))) r = slow (off i) r -> ref_tree W i r = slow (off i) r.
  Proof.
    intros [e dr dc] r HN HS. destruct e as [|b e]; [exact HS|].
    unfold ref_tree, slow. cbn [i_env]. rewrite eff_off. unfold off. cbn [i_dr i_dc].
    destruct (eff (dr, dc) r) as [r'|k|] eqn:HE; cbn [rbind]; auto.
    apply eff_not_name in HE; auto. destruct r'; cbn in *; auto. discriminate.
  Qed.
  Lemma calc_of_read : forall r c, read_ref W r = Ok c -> exists p, c = CPlain W p.
  Proof.
    intros r c. unfold read_ref, scal. destruct r as [s row col ra ca| | |].
    all: try (destruct (w_view W _); cbn [rbind]; intros Q; inversion Q; eauto).
    destruct (w_cell W s row col); cbn [rbind]; intros Q; inversion Q; eauto.
  Qed.
  Lemma wsim_read : forall r, wsim csim (read_ref W r) (read_ref W r).
  Proof.
    intros r. destruct (read_ref W r) as [c|e|] eqn:E; constructor.
    apply calc_of_read in E. destruct E as [p ->]. constructor.
  Qed.
  Lemma wsim_slow : forall d r, wsim csim (slow d r) (slow d r).
  Proof.
    intros d r. unfold slow. destruct (eff d r) as [r'|e|]; cbn [rbind]; try constructor. apply wsim_read.
  Qed.
  Lemma ref_tree_name : forall i n,
    ref_tree W i (RName n) = match find W (norm n) (i_env W i) with
                             | Some (BVal _ v) => Ok (CPlain W (PScalar v))
                             | Some (BClo _ c) => Ok (CClo W c)
                             | None => read_ref W (RName n)
                             end.
  Proof.
    intros [e dr dc] n. unfold ref_tree. cbn [i_env].
    assert (HE : effective W (mkInterp W e dr dc) (RName n) = Ok (RName n))
      by (unfold effective; cbn [i_dr i_dc relocate]; now destruct ((dr =? 0)%Z && (dc =? 0)%Z)).
    rewrite HE. cbn [rbind]. destruct e as [|b e]; [reflexivity|].
    unfold local_ref, lookup. cbn [i_env]. now destruct (find W (norm n) (b :: e)) as [[v|c]|].
  Qed.
  Lemma ref_sim : forall r1 r2 (P : scope) i1 i2, off i1 = d1 -> off i2 = d2 -> rsim r1 r2 ->
    (forall n, r1 = RName n -> P (norm n)) -> agree P (i_env W i1) (i_env W i2) ->
    wsim csim (ref_tree W i1 r1) (ref_tree W i2 r2).
  Proof.
    intros r1 r2 P i1 i2 H1 H2 HS HP HA. inversion HS as [n|x1 x2 HN1 HN2 HE HT1 HT2]; subst.
    - rewrite !ref_tree_name. specialize (HA (norm n) (HP n eq_refl)).
      inversion HA as [|b c HB]; [apply wsim_read|]. inversion HB as [v|Q ps b1 b2 e1 e2 HB1 HY0 HB2]; subst; constructor; constructor.
      econstructor; eauto.
    - rewrite (ref_tree_other i1 r1 HN1), (ref_tree_other i2 r2 HN2); rewrite ?H1, ?H2; auto.
      unfold slow. rewrite HE. apply (wsim_slow d2 r2).
  Qed.

  (** The pieces of a step. *)
  Section Pieces.
    Variables ev1 ev2 : interp W -> expr T -> option (res N (calc W)).
    Hypothesis HEV : forall (P : scope) i1 i2 e1 e2, off i1 = d1 -> off i2 = d2 -> agree P (i_env W i1) (i_env W i2) ->
      esim P e1 e2 -> rrel csim (ev1 i1 e1) (ev2 i2 e2).

    Lemma obind_rrel : forall A B (R : A -> A -> Prop) (Q : B -> B -> Prop) a b f g, rrel R a b ->
      (forall x y, R x y -> rrel Q (f x) (g y)) -> rrel Q (obind a f) (obind b g).
    Proof.
      intros A B R Q a b f g H HF. inversion H as [|x y HW]; subst; cbn; [constructor|].
      inversion HW; subst; auto; constructor; constructor.
    Qed.
    Lemma literals_sim : forall (P : scope) i1 i2, off i1 = d1 -> off i2 = d2 -> agree P (i_env W i1) (i_env W i2) ->
      forall a1 a2, Forall2 (esim P) a1 a2 -> rrel eq (literals W ev1 i1 a1) (literals W ev2 i2 a2).
    Proof.
      intros P i1 i2 H1 H2 HA a1 a2 HF. induction HF as [|x y l1 l2 HE HF IH]; cbn; [constructor; constructor; reflexivity|].
      eapply obind_rrel; [exact (HEV P i1 i2 x y H1 H2 HA HE)|].
      intros c d HC. eapply obind_rrel; [exact IH|]. intros v w ->. rewrite (into_csim _ _ HC). constructor. constructor. reflexivity.
    Qed.
    Lemma rows_sim : forall (P : scope) i1 i2, off i1 = d1 -> off i2 = d2 -> agree P (i_env W i1) (i_env W i2) ->
      forall a1 a2, Forall2 (Forall2 (esim P)) a1 a2 -> rrel eq (rows_of W ev1 i1 a1) (rows_of W ev2 i2 a2).
    Proof.
      intros P i1 i2 H1 H2 HA a1 a2 HF. induction HF as [|x y l1 l2 HE HF IH]; cbn; [constructor; constructor; reflexivity|].
      eapply obind_rrel; [exact (literals_sim P i1 i2 H1 H2 HA x y HE)|].
      intros c d ->. eapply obind_rrel; [exact IH|]. intros v w ->. constructor. constructor. reflexivity.
    Qed.
    Lemma results_sim : forall (P : scope) i1 i2, off i1 = d1 -> off i2 = d2 -> agree P (i_env W i1) (i_env W i2) ->
      forall a1 a2, Forall2 (esim P) a1 a2 ->
      match results W ev1 i1 a1, results W ev2 i2 a2 with
      | Some l1, Some l2 => Forall2 (wsim csim) l1 l2
      | None, None => True
      | _, _ => False
      end.
    Proof.
      intros P i1 i2 H1 H2 HA a1 a2 HF. induction HF as [|x y l1 l2 HE HF IH]; cbn; [constructor|].
      destruct (HEV P i1 i2 x y H1 H2 HA HE) as [|r s HR]; auto.
      destruct (results W ev1 i1 l1), (results W ev2 i2 l2); try contradiction; auto.
    Qed.
    Lemma handle_sim : forall (P : scope) i1 i2 e1 e2 v1 v2, off i1 = d1 -> off i2 = d2 -> esim P e1 e2 -> wsim csim v1 v2 ->
      handle W i1 e1 v1 = handle W i2 e2 v2.
    Proof.
      intros P i1 i2 e1 e2 v1 v2 H1 H2 HE HV.
      assert (HO : (match e1 with EOmit => true | _ => false end) = (match e2 with EOmit => true | _ => false end))
        by (destruct HE; reflexivity).
      assert (HS : rmap (see W) v1 = rmap (see W) v2) by (destruct HV; cbn; auto; f_equal; now apply see_csim).
      assert (HR : rmap (fun c : calc W => match c with
                          | CPlain _ (PRange g) => ResRange g
                          | CPlain _ (PScalar (VA g)) => ResRange (owned W (map (map VS) g))
                          | _ => ResValue (see W c)
                          end) v1 =
                   rmap (fun c : calc W => match c with
                          | CPlain _ (PRange g) => ResRange g
                          | CPlain _ (PScalar (VA g)) => ResRange (owned W (map (map VS) g))
                          | _ => ResValue (see W c)
                          end) v2)
        by (destruct HV as [a b HC| |]; cbn; auto; destruct HC; reflexivity).
      pose proof (as_ref_sim e1 e2 P i1 i2 H1 H2 HE) as HQ.
      unfold handle. rewrite HO, HS. f_equal. unfold resolve. rewrite HQ.
      destruct HE; auto. destruct op; auto.
    Qed.
    Lemma settle_sim : forall l1 l2 a, Forall2 (wsim csim) l1 l2 -> wsim csim (settle W l1 a) (settle W l2 a).
    Proof.
      intros l1 l2 a HF. destruct a as [r|k]; cbn; [apply csim_refl_plain|].
      revert k. induction HF as [|x y l1 l2 HX HF IH]; intros [|k]; cbn; auto; constructor.
    Qed.
    Lemma handles_sim : forall (P : scope) i1 i2, off i1 = d1 -> off i2 = d2 ->
      forall a1 a2, Forall2 (esim P) a1 a2 -> forall l1 l2, Forall2 (wsim csim) l1 l2 ->
      map (fun '(e, v) => handle W i1 e v) (combine a1 l1) = map (fun '(e, v) => handle W i2 e v) (combine a2 l2).
    Proof.
      intros P i1 i2 H1 H2 a1 a2 HF. induction HF as [|x y a1 a2 HE HF IH]; intros l1 l2 HL; [reflexivity|].
      inversion HL as [|u v m1 m2 HU HM]; subst; [reflexivity|]. cbn [combine map].
      f_equal; [now apply (handle_sim P)|now apply IH].
    Qed.

    Lemma lsim_length : forall l1 P l2, lsim P l1 l2 -> length l1 = length l2.
    Proof.
      fix IH 4. intros l1 P l2 H. destruct H; cbn; auto; try congruence.
      do 2 f_equal. eapply IH. eassumption.
    Qed.
    Lemma let_sim : forall l1 l2 P i1 i2 e1 e2, off i1 = d1 -> off i2 = d2 -> agree P e1 e2 -> lsim P l1 l2 ->
      rrel csim (let_go W ev1 i1 e1 l1) (let_go W ev2 i2 e2 l2).
    Proof.
      fix IH 1. intros l1 l2 P i1 i2 e1 e2 H1 H2 HA HL.
      destruct l1 as [|x1 [|a1 r1]].
      - inversion HL; subst. cbn. constructor. constructor. constructor.
      - inversion HL as [|b1 b2 HB| |]; subst. cbn. eapply HEV; eauto.
      - inversion HL as [| |x y u1 u2 v1 v2 n HX HY HU HV|x y u1 u2 v1 v2 HX HY HN]; subst.
        + cbn [let_go]. rewrite HX, HY.
          eapply obind_rrel; [eapply HEV; [..|exact HU]; eauto|].
          intros c d HC. eapply IH; eauto. apply agree_plus; auto. now apply binding_csim.
        + cbn [let_go]. rewrite HX, HY. constructor. constructor. constructor.
    Qed.
    Lemma lambda_parts_cons : forall s x y r, lambda_parts W s (x :: y :: r) =
      match local_name W x with
      | None => None
      | Some n => if existsb (text_eqb (norm n)) s then None
                  else match lambda_parts W (norm n :: s) (y :: r) with Some (ps, body) => Some (n :: ps, body) | None => None end
      end.
    Proof. reflexivity. Qed.
    Lemma lambda_sim : forall l1 l2 P s, msim P l1 l2 ->
      match lambda_parts W s l1, lambda_parts W s l2 with
      | Some (ps1, b1), Some (ps2, b2) => ps1 = ps2 /\ exists Q : scope, esim Q b1 b2 /\ Y Q b1 b2 /\
          (forall k, Q k -> (forall p, In p ps1 -> k <> norm p) -> P k)
      | None, None => True
      | _, _ => False
      end.
    Proof.
      induction l1 as [|x1 r1 IH]; intros l2 P s HM;
        inversion HM as [|b1 b2 HB HY0|x y u1 u2 v1 v2 n HX HY HV|x y u1 u2 v1 v2 HX HY]; subst.
      - exact I.
      - cbn. split; auto. exists P. auto.
      - specialize (IH (u2 :: v2) (plus P n) (norm n :: s) HV).
        rewrite !lambda_parts_cons, HX, HY. destruct (existsb (text_eqb (norm n)) s); [exact I|].
        destruct (lambda_parts W (norm n :: s) (u1 :: v1)) as [[ps1 b1]|];
          destruct (lambda_parts W (norm n :: s) (u2 :: v2)) as [[ps2 b2]|]; auto.
        destruct IH as [-> [Q [HQ [HYQ HK]]]]. split; auto. exists Q. split; [|split]; auto.
        intros k Hk Hp. destruct (HK k Hk) as [HP|HP]; auto.
        + intros p HI. apply Hp. now right.
        + exfalso. apply (Hp n); auto. now left.
      - rewrite !lambda_parts_cons, HX, HY. exact I.
    Qed.

    Lemma agree_bind_all : forall ps vs (P : scope) e1 e2, length vs = length ps ->
      (forall k, P k -> (forall p, In p ps -> k <> norm p) -> osim (find W k e1) (find W k e2)) ->
      agree P (bind_all W ps vs e1) (bind_all W ps vs e2).
    Proof.
      induction ps as [|p ps IH]; intros [|v vs] P e1 e2 HL HA; try discriminate.
      - intros k HK. apply HA; auto.
      - cbn [bind_all]. apply IH; [now inversion HL|].
        intros k HK HN. unfold bind. cbn [find]. destruct (text_eqb k (norm p)) eqn:E; [constructor; constructor|].
        apply HA; auto. intros q [<-|HI]; [|auto]. now apply tneq.
    Qed.
    Lemma invoke_sim : forall i1 i2 c1 c2 vs, off i1 = d1 -> off i2 = d2 -> bsim (BClo W c1) (BClo W c2) ->
      rrel csim (invoke W ev1 i1 c1 vs) (invoke W ev2 i2 c2 vs).
    Proof.
      intros i1 i2 c1 c2 vs H1 H2 HB. inversion HB as [|P ps b1 b2 e1 e2 HE HY0 HK]; subst. cbn [invoke].
      destruct (length vs =? length ps) eqn:E; [|constructor; constructor; constructor].
      apply Nat.eqb_eq in E. eapply HEV; [exact H1|exact H2| |exact HE]. apply agree_bind_all; auto.
    Qed.
    Lemma callable_sim : forall (P : scope) i1 i2 name, agree P (i_env W i1) (i_env W i2) -> P (norm name) ->
      match local_callable W i1 name, local_callable W i2 name with
      | Some c1, Some c2 => bsim (BClo W c1) (BClo W c2)
      | None, None => True
      | _, _ => False
      end.
    Proof.
      intros P i1 i2 name HA HP. specialize (HA _ HP). unfold local_callable, lookup.
      inversion HA as [|b c HB]; subst; auto. inversion HB; subst; auto.
    Qed.
    Lemma fn_sim : forall P i1 i2 name f a1 a2, off i1 = d1 -> off i2 = d2 -> agree P (i_env W i1) (i_env W i2) ->
      w_fn W name = Some f -> esim P (EFun name a1) (EFun name a2) ->
      rrel csim (eval_fn W ev1 i1 f a1) (eval_fn W ev2 i2 f a2).
    Proof.
      intros P i1 i2 name f a1 a2 H1 H2 HA HF HE.
      inversion HE as [ | | | | | | |nm g l1 l2 HG HL Q1 Q2|nm l1 l2 HG HP HL Q1 Q2|nm l1 l2 HG HL Q1 Q2|nm l1 l2 HG HL Q1 Q2]; subst;
        rewrite HF in HG; inversion HG; subst; cbn [eval_fn].
      - pose proof (results_sim P i1 i2 H1 H2 HA a1 a2 HL) as HR.
        destruct (results W ev1 i1 a1) as [r1|], (results W ev2 i2 a2) as [r2|]; try contradiction; [|constructor].
        constructor. rewrite (handles_sim P i1 i2 H1 H2 a1 a2 HL r1 r2 HR). now apply settle_sim.
      - unfold eval_let. rewrite <- (lsim_length _ _ _ HL).
        destruct ((length a1 <? 3) || Nat.even (length a1)); [constructor; constructor; constructor|].
        eapply let_sim; eauto.
      - unfold eval_lambda. pose proof (lambda_sim a1 a2 P [] HL) as HM.
        destruct (lambda_parts W [] a1) as [[ps1 b1]|], (lambda_parts W [] a2) as [[ps2 b2]|]; try contradiction;
          [|constructor; constructor; constructor].
        destruct HM as [-> [Q [HQ [HYQ HK]]]]. constructor. constructor. constructor. econstructor; [exact HQ|exact HYQ|].
        intros k Hk Hp. apply HA. auto.
    Qed.

    Lemma step_sim : forall (P : scope) i1 i2 e1 e2, off i1 = d1 -> off i2 = d2 -> agree P (i_env W i1) (i_env W i2) ->
      esim P e1 e2 -> rrel csim (tree_step W ev1 i1 e1) (tree_step W ev2 i2 e2).
    Proof.
      intros P i1 i2 e1 e2 H1 H2 HA HS.
      assert (HV : forall r : res N (value T), rrel csim (Some (rmap (fun v => CPlain W (PScalar v)) r)) (Some (rmap (fun v => CPlain W (PScalar v)) r)))
        by (intros [v|e|]; constructor; constructor; constructor).
      assert (HC : forall s : scalar T, rrel csim (Some (Ok (scal W s))) (Some (Ok (scal W s)))) by (intros s; constructor; constructor; constructor).
      inversion HS as [v| |r1 r2 HR HN Q1 Q2|op a1 a2 HE Q1 Q2|op a1 a2 b1 b2 HE HB Q1 Q2|c1 l1 c2 l2 Q1 Q2|l1 l2 HL Q1 Q2
                      |nm f l1 l2 HF HL Q1 Q2|nm l1 l2 HF HP HL Q1 Q2|nm l1 l2 HF HL Q1 Q2|nm l1 l2 HF HL Q1 Q2]; subst.
      - cbn. constructor. constructor. constructor.
      - cbn. constructor. constructor. constructor.
      - cbn. constructor. eapply ref_sim; eauto.
      - assert (HX : rrel csim (ev1 i1 a1) (ev2 i2 a2)) by (eapply HEV; eauto).
        destruct op; cbn [tree_step].
        all: try (eapply obind_rrel; [exact HX|]; intros c d HD; rewrite (into_csim _ _ HD); apply HV).
        destruct HE as [ | |r1 r2 HR HN| | | | | | | | ].
        3: { rewrite !eff_off, H1, H2, (rsim_eff _ _ HR). destruct (eff d2 r2); constructor; constructor; constructor. }
        all: eapply obind_rrel; [exact HX|]; intros c d HD; rewrite (at_csim _ _ HD); apply HC.
      - cbn [tree_step]. eapply obind_rrel; [eapply HEV; [..|exact HE]; eauto|]. intros c d HD.
        eapply obind_rrel; [eapply HEV; [..|exact HB]; eauto|]. intros c' d' HD'.
        rewrite (into_csim _ _ HD), (into_csim _ _ HD').
        destruct op; try apply HV.
        rewrite (as_ref_sim _ _ P i1 i2 H1 H2 HE), (as_ref_sim _ _ P i1 i2 H1 H2 HB).
        destruct (as_reference W i2 a2); cbn [rbind]; [|constructor; constructor..].
        destruct (as_reference W i2 b2); cbn [rbind]; [|constructor; constructor..].
        destruct (w_combine W a a0); constructor; constructor; constructor.
      - cbn. constructor. constructor.
      - cbn [tree_step]. eapply obind_rrel; [exact (rows_sim P i1 i2 H1 H2 HA l1 l2 HL)|].
        intros x y ->. constructor. constructor. constructor.
      - cbn [tree_step]. rewrite HF. eapply fn_sim; eauto.
      - cbn [tree_step]. rewrite HF. pose proof (callable_sim P i1 i2 nm HA HP) as HQ.
        destruct (local_callable W i1 nm), (local_callable W i2 nm); try contradiction; [|apply HC].
        eapply obind_rrel; [exact (literals_sim P i1 i2 H1 H2 HA l1 l2 HL)|].
        intros x y ->. now apply invoke_sim.
      - cbn [tree_step]. rewrite HF. eapply fn_sim; eauto.
      - cbn [tree_step]. rewrite HF. eapply fn_sim; eauto.
    Qed.
  End Pieces.

  Theorem sim : forall n (P : scope) i1 i2 e1 e2, off i1 = d1 -> off i2 = d2 -> agree P (i_env W i1) (i_env W i2) ->
    esim P e1 e2 -> rrel csim (teval W n i1 e1) (teval W n i2 e2).
  Proof.
    induction n as [|n IH]; intros P i1 i2 e1 e2 H1 H2 HA HS; [constructor|].
    cbn [teval]. eapply step_sim; eauto.
  Qed.
End Sim.
