(** Function identities, references, expressions and labels can be read off their keys. *)
From Coq Require Import List Bool NArith ZArith String Lia ZifyN ZifyNat ZifyBool.
From Verif Require Import Base LexModel RtModel TkModel TkSpec TkProofs1.
Import ListNotations.
Open Scope N_scope.

(** * Bytes *)
Lemma le_length k n : List.length (le k n) = k.
Proof. revert n; induction k as [|k IH]; intros n; [reflexivity |]. cbn. rewrite IH. reflexivity. Qed.

Lemma le_inj k : forall a b, a < 256 ^ N.of_nat k -> b < 256 ^ N.of_nat k -> le k a = le k b -> a = b.
Proof.
  induction k as [|k IH]; intros a b Ha Hb E.
  - cbn in Ha, Hb. lia.
  - cbn [le] in E. injection E as E1 E2.
    rewrite Nat2N.inj_succ, N.pow_succ_r' in Ha, Hb.
    assert (a / 256 = b / 256).
    { apply IH; [apply N.div_lt_upper_bound; lia | apply N.div_lt_upper_bound; lia | exact E2]. }
    rewrite (N.div_mod a 256), (N.div_mod b 256) by lia. congruence.
Qed.

Lemma le8 a b r s : a < U64 -> b < U64 -> le 8 a ++ r = le 8 b ++ s -> a = b /\ r = s.
Proof.
  intros Ha Hb E. apply app_len in E; [| rewrite !le_length; reflexivity].
  destruct E as [E ->]. split; [| reflexivity]. exact (le_inj 8 a b Ha Hb E).
Qed.
Lemma le4 a b r s : a < 2 ^ 32 -> b < 2 ^ 32 -> le 4 a ++ r = le 4 b ++ s -> a = b /\ r = s.
Proof.
  intros Ha Hb E. apply app_len in E; [| rewrite !le_length; reflexivity].
  destruct E as [E ->]. split; [| reflexivity]. exact (le_inj 4 a b Ha Hb E).
Qed.

Lemma le_bytes k n : Forall (fun c => c < 256) (le k n).
Proof.
  revert n; induction k as [|k IH]; intros n; constructor; [| exact (IH _)].
  apply N.mod_upper_bound. lia.
Qed.

(** * Codes that need nothing after them *)
Definition closed {A} (P : A -> Prop) (e : A -> list N) : Prop :=
  forall a b r s, P a -> P b -> e a ++ r = e b ++ s -> a = b /\ r = s.

Lemma e_role_closed t : closed (fun _ => True) (e_role t).
Proof.
  intros a b r s _ _ E. unfold e_role in E. cbn [app] in E. injection E as E1 E2. subst s.
  split; [| reflexivity]. destruct a, b; (reflexivity || discriminate E1).
Qed.

Lemma les_closed : forall l m r s, List.length l = List.length m -> Forall (fun v => v < U64) l -> Forall (fun v => v < U64) m ->
  concat (map (le 8) l) ++ r = concat (map (le 8) m) ++ s -> l = m /\ r = s.
Proof.
  induction l as [|x l IH]; intros [|y m] r s L Hl Hm E; try discriminate L.
  - split; [reflexivity | exact E].
  - cbn [map concat] in E. rewrite <- !app_assoc in E. inversion Hl; inversion Hm; subst.
    apply le8 in E; [| assumption | assumption]. destruct E as [-> E]. injection L as L.
    destruct (IH _ _ _ L ltac:(assumption) ltac:(assumption) E) as [-> ->]. split; reflexivity.
Qed.

Lemma cons_eq {A} (x y : A) a b : x :: a = y :: b -> x = y /\ a = b.
Proof. intros E. injection E as E1 E2. split; assumption. Qed.
Ltac heads E := apply cons_eq in E; let H := fresh in destruct E as [H E]; try discriminate H; clear H.

Lemma e_rule_closed : closed arity_ok e_rule.
Proof.
  intros a b r s Ha Hb E. destruct a, b; cbn [arity_ok] in Ha, Hb; unfold e_rule, e_arity in E;
    cbn [app] in E; heads E;
    try (apply le8 in E; [| assumption | assumption]; destruct E as [-> ->]; split; reflexivity).
  rewrite <- !app_assoc in E. destruct Ha as [Ha Ha2], Hb as [Hb Hb2].
  apply le8 in E; [| assumption | assumption]. destruct E as [L E].
  apply les_closed in E; [| exact (len_inj _ _ L) | assumption | assumption].
  destruct E as [-> ->]. split; reflexivity.
Qed.

Lemma e_vrange_closed : closed vrange_ok e_vrange.
Proof.
  intros a b r s Ha Hb E. destruct a, b; cbn [vrange_ok] in Ha, Hb; unfold e_vrange, e_arity in E;
    rewrite <- ?app_assoc in E; cbn [app] in E; heads E.
  - subst s. split; reflexivity.
  - apply le8 in E; [| assumption | assumption]; destruct E as [-> ->]; split; reflexivity.
  - destruct Ha, Hb.
    apply le8 in E; [| assumption | assumption]; destruct E as [-> E].
    apply le8 in E; [| assumption | assumption]; destruct E as [-> ->]; split; reflexivity.
Qed.

Lemma e_args_closed : closed args_ok e_args.
Proof.
  intros a b r s Ha Hb E. destruct a, b; cbn [args_ok] in Ha, Hb; unfold e_args in E;
    cbn [app e_role] in E; try discriminate E.
  - apply (e_role_closed 0) in E; [| exact I | exact I]. destruct E as [-> ->]; split; reflexivity.
  - apply (e_role_closed 1) in E; [| exact I | exact I]. destruct E as [-> ->]; split; reflexivity.
  - heads E. rewrite <- !app_assoc in E. destruct Ha as [Ha Ha2], Hb as [Hb Hb2].
    apply e_vrange_closed in E; [| assumption | assumption]. destruct E as [-> E].
    apply le8 in E; [| assumption | assumption]; destruct E as [-> ->]; split; reflexivity.
  - injection E as ->. split; reflexivity.
  - injection E as ->. split; reflexivity.
Qed.

Lemma e_prec_closed : closed (fun p => arity_ok (p_arity p) /\ args_ok (p_args p)) e_prec.
Proof.
  intros [c a g] [c' a' g'] r s [H1 H2] [H3 H4] E. unfold e_prec in E. cbn [p_class p_arity p_args] in *.
  cbn [app] in E. apply cons_eq in E. destruct E as [E1 E]. rewrite <- !app_assoc in E.
  apply e_rule_closed in E; [| assumption | assumption]. destruct E as [-> E].
  apply e_args_closed in E; [| assumption | assumption]. destruct E as [-> ->].
  split; [| reflexivity]. destruct c, c'; (reflexivity || discriminate E1).
Qed.

Lemma e_contract_closed : closed contract_ok e_contract.
Proof.
  intros [d v q n c p] [d' v' q' n' c' p'] r s Ha Hb E. unfold e_contract, contract_ok in *.
  cbn [k_dep k_eval k_res k_env k_ctx k_prec] in *. cbn [app] in E.
  apply cons_eq in E. destruct E as [E1 E]. apply cons_eq in E. destruct E as [E2 E].
  apply cons_eq in E. destruct E as [E3 E]. apply cons_eq in E. destruct E as [E4 E].
  apply cons_eq in E. destruct E as [E5 E].
  assert (d = d') as <- by (destruct d, d'; (reflexivity || discriminate E1)).
  assert (v = v') as <- by (destruct v, v'; (reflexivity || discriminate E2)).
  assert (q = q') as <- by (destruct q, q'; (reflexivity || discriminate E3)).
  assert (n = n') as <- by (destruct n, n'; (reflexivity || discriminate E4)).
  assert (c = c') as <- by (destruct c, c'; (reflexivity || discriminate E5)).
  destruct p, p'; cbn [app] in E; heads E.
  - apply e_prec_closed in E; [| assumption | assumption]. destruct E as [-> ->]. split; reflexivity.
  - subst s. split; reflexivity.
Qed.

Lemma e_bytes_closed : closed bytes_ok e_bytes.
Proof.
  intros a b r s [_ Ha] [_ Hb] E. unfold e_bytes in E. rewrite <- !app_assoc in E.
  apply le8 in E; [| assumption | assumption]. destruct E as [L E].
  apply app_len in E; [exact E | exact (len_inj _ _ L)].
Qed.

Lemma flags_inj : forall a b, map e_flag a = map e_flag b -> a = b.
Proof.
  induction a as [|x a IH]; intros [|y b] E; try discriminate E; [reflexivity |].
  cbn in E. injection E as E1 E. rewrite (IH _ E). destruct x, y; (reflexivity || discriminate E1).
Qed.

Lemma encode_inj f g k l : identity_ok f -> identity_ok g -> f_con f = Some k -> f_con g = Some l ->
  encode f k = encode g l -> f = g.
Proof.
  intros (A1 & A2 & A3 & A4 & A5 & A6) (B1 & B2 & B3 & B4 & B5 & B6) Hf Hg E.
  rewrite Hf in A6. rewrite Hg in B6. unfold encode in E.
  destruct f as [fn fm fg fc fk fb], g as [gn gm gg gc gk gb]. cbn in *. subst fk gk.
  rewrite <- (app_nil_r (map e_flag fb)), <- (app_nil_r (map e_flag gb)) in E.
  apply e_bytes_closed in E; [| assumption | assumption]. destruct E as [-> E].
  apply e_bytes_closed in E; [| assumption | assumption]. destruct E as [-> E].
  apply le8 in E; [| assumption | assumption]. destruct E as [-> E].
  apply le4 in E; [| assumption | assumption]. destruct E as [-> E].
  apply e_contract_closed in E; [| assumption | assumption]. destruct E as [-> E].
  apply le8 in E; [| assumption | assumption]. destruct E as [L E].
  rewrite !app_nil_r in E. apply flags_inj in E. subst gb. reflexivity.
Qed.

(** * Hexadecimal text *)
Lemma hex1_range d : d < 16 -> 48 <= hex1 d <= 57 \/ 97 <= hex1 d <= 102.
Proof. intros H. unfold hex1. destruct (N.ltb_spec d 10); lia. Qed.
Lemma hex1_inj a b : a < 16 -> b < 16 -> hex1 a = hex1 b -> a = b.
Proof. intros Ha Hb. unfold hex1. destruct (N.ltb_spec a 10), (N.ltb_spec b 10); lia. Qed.
Lemma hex2_bounds a : a < 256 -> a / 16 < 16 /\ a mod 16 < 16.
Proof. intros H. split; [apply N.div_lt_upper_bound; lia | apply N.mod_upper_bound; lia]. Qed.

Lemma hexes_tell : forall l m r s, Forall (fun c => c < 256) l -> Forall (fun c => c < 256) m -> stop r -> stop s ->
  flat_map hex2 l ++ r = flat_map hex2 m ++ s -> l = m /\ r = s.
Proof.
  induction l as [|x l IH]; intros [|y m] r s Hl Hm Hr Hs E; cbn [flat_map hex2 app] in E.
  - split; [reflexivity | exact E].
  - exfalso. apply Forall_inv in Hm. exact (no_hex _ _ _ Hr E (hex1_range _ (proj1 (hex2_bounds _ Hm)))).
  - exfalso. apply Forall_inv in Hl. exact (no_hex _ _ _ Hs (eq_sym E) (hex1_range _ (proj1 (hex2_bounds _ Hl)))).
  - inversion Hl as [|? ? Hx Hl']; inversion Hm as [|? ? Hy Hm']; subst.
    injection E as E1 E2 E. destruct (hex2_bounds x Hx), (hex2_bounds y Hy).
    apply hex1_inj in E1; [| assumption | assumption]. apply hex1_inj in E2; [| assumption | assumption].
    destruct (IH _ _ _ Hl' Hm' Hr Hs E) as [-> ->]. split; [| reflexivity]. f_equal.
    rewrite (N.div_mod x 16), (N.div_mod y 16) by lia. congruence.
Qed.

Definition small (l : list N) : Prop := Forall (fun c => c < 256) l.
Lemma small_app a b : small a -> small b -> small (a ++ b).
Proof. intros A B. apply Forall_app. split; assumption. Qed.

Lemma e_rule_small a : small (e_rule a).
Proof.
  destruct a; cbn [e_rule]; unfold e_arity; try (constructor; [lia | exact (le_bytes _ _)]).
  constructor; [lia |]. apply small_app; [exact (le_bytes _ _) |].
  induction l; [constructor |]. cbn [map concat]. apply small_app; [exact (le_bytes _ _) | assumption].
Qed.
Lemma role_small r : role_code r < 256.
Proof. destruct r; cbn; lia. Qed.
Lemma e_args_small a : small (e_args a).
Proof.
  destruct a as [r | r | v first | |]; unfold e_args, e_role; try (repeat constructor; (lia || apply role_small)).
  constructor; [lia |]. apply small_app; [| exact (le_bytes _ _)].
  destruct v; unfold e_vrange, e_arity.
  - repeat constructor; lia.
  - constructor; [lia | exact (le_bytes _ _)].
  - apply small_app; [| exact (le_bytes _ _)]. constructor; [lia | exact (le_bytes _ _)].
Qed.
Lemma e_contract_small k : small (e_contract k).
Proof.
  unfold e_contract. apply small_app.
  - destruct k as [d v q n c p]; cbn [k_dep k_eval k_res k_env k_ctx].
    constructor; [destruct d; cbn; lia |]. constructor; [destruct v; cbn; lia |].
    constructor; [destruct q; cbn; lia |]. constructor; [destruct n; cbn; lia |].
    constructor; [destruct c; cbn; lia |]. constructor.
  - destruct (k_prec k) as [p|]; [| repeat constructor; lia].
    constructor; [lia |]. unfold e_prec. constructor; [destruct (p_class p); cbn; lia |].
    apply small_app; [apply e_rule_small | apply e_args_small].
Qed.
Lemma encode_small f k : identity_ok f -> small (encode f k).
Proof.
  intros ([A1 _] & [A2 _] & _). unfold encode, e_bytes.
  apply small_app; [apply small_app; [exact (le_bytes _ _) | exact A1] |].
  apply small_app; [apply small_app; [exact (le_bytes _ _) | exact A2] |].
  apply small_app; [exact (le_bytes _ _) |]. apply small_app; [exact (le_bytes _ _) |].
  apply small_app; [apply e_contract_small |]. apply small_app; [exact (le_bytes _ _) |].
  apply Forall_forall. intros x Hx. apply in_map_iff in Hx. destruct Hx as (b & <- & _). destruct b; cbn; lia.
Qed.

(** The common first characters. *)
Ltac peel E :=
  repeat match type of E with
         | ?x :: _ = ?x :: _ => apply cons_eq in E; destruct E as [_ E]
         end.

(** * Identities in a template *)
(** An identity of the provider, or the one made from an unknown name. *)
Definition fid_ok (f : fid) : Prop :=
  match f_con f with
  | Some _ => identity_ok f
  | None => f_ns f = [] /\ f_gen f = 0 /\ f_caps f = 0 /\ f_byref f = []
  end.

Lemma w_fid_tells f g r s : fid_ok f -> fid_ok g -> stop r -> stop s -> w_fid f ++ r = w_fid g ++ s -> f = g /\ r = s.
Proof.
  intros Hf Hg Hr Hs E. unfold fid_ok, w_fid in *.
  destruct (f_con f) as [k|] eqn:Kf, (f_con g) as [l|] eqn:Kg; untag E; try discriminate E; peel E.
  - apply hexes_tell in E; [| exact (encode_small f k Hf) | exact (encode_small g l Hg) | exact Hr | exact Hs].
    destruct E as [E ->]. split; [| reflexivity]. exact (encode_inj f g k l Hf Hg Kf Kg E).
  - apply w_string_code in E. destruct E as [E ->]. split; [| reflexivity].
    destruct f, g; cbn in *. destruct Hf as (-> & -> & -> & ->), Hg as (-> & -> & -> & ->). congruence.
Qed.

(** * References *)
Definition ctx_ok (c : refctx) : Prop := match c with CFnArg f _ => fid_ok f | _ => True end.

Lemma w_ctx_tells a b r s : ctx_ok a -> ctx_ok b -> stop r -> stop s -> w_ctx a ++ r = w_ctx b ++ s -> a = b /\ r = s.
Proof.
  intros Ha Hb Hr Hs E. destruct a, b; cbn [w_ctx ctx_ok] in *; untag E; try discriminate E; peel E.
  - split; [reflexivity | exact E].
  - split; [reflexivity | exact E].
  - apply w_fid_tells in E; [| assumption | assumption | apply stop_colon | apply stop_colon].
    destruct E as [-> E]. unfold colon in E. cbn [app] in E. peel E.
    apply dec_tells in E; [| exact Hr | exact Hs]. destruct E as [-> ->]. split; reflexivity.
  - apply dec_tells in E; [| exact Hr | exact Hs]. destruct E as [-> ->]. split; reflexivity.
Qed.

Lemma w_sheet_tells a : tells w_sheet a.
Proof.
  intros b r s Hr Hs E. destruct a, b; cbn [w_sheet] in E; untag E; try discriminate E; peel E.
  - split; [reflexivity | exact E].
  - apply w_string_code in E. destruct E as [-> ->]. split; reflexivity.
Qed.

Lemma w_axis_tells a : tells w_axis a.
Proof.
  intros b r s Hr Hs E. destruct a, b; cbn [w_axis] in E; untag E; try discriminate E; peel E;
    try (split; [reflexivity | exact E]).
  - apply zdec_tells in E; [| exact Hr | exact Hs]. destruct E as [-> ->]. split; reflexivity.
  - apply dec_tells in E; [| exact Hr | exact Hs]. destruct E as [-> ->]. split; reflexivity.
Qed.

Lemma w_unsup_tells a : tells w_unsup a.
Proof.
  intros b r s Hr Hs E. destruct a, b; cbn [w_unsup] in E; untag E; try discriminate E; peel E;
    split; reflexivity || exact E.
Qed.

Ltac next E L := apply L in E; [| first [apply stop_semi | apply stop_close | apply stop_comma] | first [apply stop_semi | apply stop_close | apply stop_comma]];
  destruct E as [-> E]; unfold semi, close in E; cbn [app] in E; peel E.

Lemma w_ref_closed a b r s : w_ref a ++ r = w_ref b ++ s -> a = b /\ r = s.
Proof.
  intros E. destruct a, b; cbn [w_ref] in E; untag E; try discriminate E; peel E.
  - next E w_sheet_tells. next E w_axis_tells. next E w_axis_tells. subst s. split; reflexivity.
  - next E w_sheet_tells. do 4 next E w_axis_tells. subst s. split; reflexivity.
  - apply w_string_code in E. destruct E as [-> E]. injection E as ->. split; reflexivity.
  - next E w_unsup_tells. apply w_string_code in E. destruct E as [-> E]. injection E as ->. split; reflexivity.
Qed.
