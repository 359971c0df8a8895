(** Expressions and labels can be read off their keys. *)
From Coq Require Import List Bool NArith ZArith String Lia ZifyN ZifyNat ZifyBool.
From Verif Require Import Base LexModel RtModel TkModel TkSpec TkProofs1 TkProofs2.
Import ListNotations.
Open Scope N_scope.

(** Every identity in the expression is one of [fid_ok]. *)
Fixpoint expr_ok (e : cexpr) : Prop :=
  match e with
  | ELit _ | EOmit => True
  | ERef c _ => ctx_ok c
  | EUn _ x => expr_ok x
  | EBin _ l r => expr_ok l /\ expr_ok r
  | EFn f args => fid_ok f /\ (fix go l := match l with [] => True | x :: r => expr_ok x /\ go r end) args
  | ECall x args => expr_ok x /\ (fix go l := match l with [] => True | x :: r => expr_ok x /\ go r end) args
  | EArr rows =>
      (fix rws l := match l with
                    | [] => True
                    | row :: rest => (fix go l := match l with [] => True | x :: r => expr_ok x /\ go r end) row /\ rws rest
                    end) rows
  end.
Lemma go_ok l : (fix go l := match l with [] => True | x :: r => expr_ok x /\ go r end) l <-> Forall expr_ok l.
Proof.
  induction l as [|x l IH]; [split; constructor |]. rewrite Forall_cons_iff. rewrite IH. tauto.
Qed.
Lemma rws_ok l :
  (fix rws l := match l with
                | [] => True
                | row :: rest => (fix go l := match l with [] => True | x :: r => expr_ok x /\ go r end) row /\ rws rest
                end) l <-> Forall (Forall expr_ok) l.
Proof.
  induction l as [|x l IH]; [split; constructor |]. rewrite Forall_cons_iff. rewrite IH, go_ok. tauto.
Qed.

(** [w a] needs nothing after it, among arguments that satisfy [P]. *)
Definition clear {A} (P : A -> Prop) (w : A -> text) (a : A) : Prop :=
  forall b r s, P b -> w a ++ r = w b ++ s -> a = b /\ r = s.

Lemma items_clear {A} (P : A -> Prop) (w : A -> text) (sep : text) : forall l, Forall (clear P w) l ->
  forall m r s, Forall P m -> List.length l = List.length m ->
    flat_map (fun x => w x ++ sep) l ++ r = flat_map (fun x => w x ++ sep) m ++ s -> l = m /\ r = s.
Proof.
  intros l Hl. induction Hl as [|x l Hx Hl IH]; intros [|y m] r s Hm L E; try discriminate L.
  - split; [reflexivity | exact E].
  - cbn [flat_map] in E. rewrite <- !app_assoc in E. apply Forall_cons_iff in Hm. destruct Hm as [Hy Hm].
    destruct (Hx _ _ _ Hy E) as [-> E2]. apply app_inv_head in E2. injection L as L.
    destruct (IH _ _ _ Hm L E2) as [-> ->]. split; reflexivity.
Qed.
Lemma counted_clear {A} (P : A -> Prop) (w : A -> text) (sep : text) l m r s : Forall (clear P w) l -> Forall P m ->
  dec (len l) ++ colon ++ flat_map (fun x => w x ++ sep) l ++ r =
  dec (len m) ++ colon ++ flat_map (fun x => w x ++ sep) m ++ s -> l = m /\ r = s.
Proof.
  intros Hl Hm E.
  destruct (dec_tells _ _ _ _ (stop_colon _) (stop_colon _) E) as [L E2].
  apply app_inv_head in E2.
  exact (items_clear P w sep l Hl m r s Hm (len_inj _ _ L) E2).
Qed.

Lemma Forall_mp {A} (P Q : A -> Prop) l : Forall (fun x => P x -> Q x) l -> Forall P l -> Forall Q l.
Proof. intros H. induction H; intros K; constructor; inversion K; subst; auto. Qed.

Definition w_row (row : list cexpr) : text := dec (len row) ++ colon ++ flat_map (fun x => w_expr x ++ comma) row.
Lemma rows_text rows :
  flat_map (fun row => dec (len row) ++ colon ++ flat_map (fun x => w_expr x ++ comma) row ++ semi) rows =
  flat_map (fun row => w_row row ++ semi) rows.
Proof. apply flat_map_ext. intros x. unfold w_row. rewrite <- !app_assoc. reflexivity. Qed.

Theorem w_expr_clear : forall e, expr_ok e -> clear expr_ok w_expr e.
Proof.
  apply (cexpr_ind' (fun e => expr_ok e -> clear expr_ok w_expr e)).
  - intros v _ b r s Hb E. destruct b; cbn [w_expr] in E; untag E; try discriminate E. peel E.
    apply w_lit_tells in E; [| apply stop_close | apply stop_close]. destruct E as [-> E].
    apply app_inv_head in E. subst s. split; reflexivity.
  - intros _ b r s Hb E. destruct b; cbn [w_expr] in E; untag E; try discriminate E. peel E. subst s. split; reflexivity.
  - intros c k Ha b r s Hb E. destruct b; cbn [w_expr expr_ok] in *; untag E; try discriminate E. peel E.
    apply w_ctx_tells in E; [| assumption | assumption | apply stop_semi | apply stop_semi]. destruct E as [-> E].
    apply app_inv_head in E. apply w_ref_closed in E. destruct E as [-> E].
    apply app_inv_head in E. subst s. split; reflexivity.
  - intros op e IH Ha b r s Hb E. destruct b; cbn [w_expr expr_ok] in *; untag E; try discriminate E. peel E.
    apply w_string_code in E. destruct E as [-> E]. apply app_inv_head in E.
    apply (IH Ha) in E; [| assumption]. destruct E as [-> E].
    apply app_inv_head in E. subst s. split; reflexivity.
  - intros op l r0 IHl IHr Ha b r s Hb E. destruct b; cbn [w_expr expr_ok] in *; untag E; try discriminate E. peel E.
    destruct Ha as [Ha1 Ha2], Hb as [Hb1 Hb2].
    apply w_string_code in E. destruct E as [-> E]. apply app_inv_head in E.
    apply (IHl Ha1) in E; [| assumption]. destruct E as [-> E]. apply app_inv_head in E.
    apply (IHr Ha2) in E; [| assumption]. destruct E as [-> E]. apply app_inv_head in E. subst s. split; reflexivity.
  - intros f args IH Ha b r s Hb E. destruct b; cbn [w_expr expr_ok] in *; untag E; try discriminate E. peel E.
    destruct Ha as [Ha1 Ha2], Hb as [Hb1 Hb2]. apply go_ok in Ha2. apply go_ok in Hb2.
    apply w_fid_tells in E; [| assumption | assumption | apply stop_semi | apply stop_semi]. destruct E as [-> E].
    apply app_inv_head in E.
    apply (counted_clear expr_ok) in E; [| exact (Forall_mp _ _ _ IH Ha2) | exact Hb2].
    destruct E as [-> E]. apply app_inv_head in E. subst s. split; reflexivity.
  - intros x args IHx IH Ha b r s Hb E. destruct b; cbn [w_expr expr_ok] in *; untag E; try discriminate E. peel E.
    destruct Ha as [Ha1 Ha2], Hb as [Hb1 Hb2]. apply go_ok in Ha2. apply go_ok in Hb2.
    apply (IHx Ha1) in E; [| assumption]. destruct E as [-> E]. apply app_inv_head in E.
    apply (counted_clear expr_ok) in E; [| exact (Forall_mp _ _ _ IH Ha2) | exact Hb2].
    destruct E as [-> E]. apply app_inv_head in E. subst s. split; reflexivity.
  - intros rows IH Ha b r s Hb E. destruct b; cbn [w_expr expr_ok] in *; untag E; try discriminate E. peel E.
    apply rws_ok in Ha. apply rws_ok in Hb.
    rewrite !rows_text in E.
    apply (counted_clear (Forall expr_ok)) in E; [| | exact Hb].
    + destruct E as [-> E]. apply app_inv_head in E. subst s. split; reflexivity.
    + clear E Hb r s rows0. revert Ha. induction IH as [|row rest Hrow Hrows IH2]; intros Ha; [constructor |].
      apply Forall_cons_iff in Ha. destruct Ha as [Ha1 Ha2]. constructor; [| exact (IH2 Ha2)].
      intros m r s Hm E. unfold w_row in E. rewrite <- !app_assoc in E.
      apply (counted_clear expr_ok) in E; [exact E | exact (Forall_mp _ _ _ Hrow Ha1) | exact Hm].
Qed.

(** * Labels *)
Lemma w_reason_tells a : tells w_reason a.
Proof.
  intros b r s Hr Hs E.
  destruct a as [x y | k t | k], b as [x' y' | k' t' | k']; cbn [w_reason] in E;
    try destruct k; try destruct k'; cbn [w_tkind w_bkind] in E; untag E; try discriminate E; peel E;
    try (apply w_string_code in E; destruct E as [-> ->]; split; reflexivity);
    try (split; [reflexivity | exact E]).
  apply dec_tells in E; [| apply stop_colon | apply stop_colon]. destruct E as [-> E].
  apply app_inv_head in E. apply dec_tells in E; [| exact Hr | exact Hs]. destruct E as [-> ->]. split; reflexivity.
Qed.
Lemma w_flag_tells a : tells w_flag a.
Proof.
  intros b r s Hr Hs E. destruct a, b; cbn [w_flag] in E; untag E; try discriminate E; peel E;
    split; reflexivity || exact E.
Qed.
Lemma w_labels_inj a b : w_labels a = w_labels b -> a = b.
Proof.
  intros E. unfold w_labels in E. destruct a as [ra fa], b as [rb fb]. cbn [l_rejects l_flags] in E.
  untag E. peel E. unfold semi in E.
  apply counted_tell in E; [| cbn; tauto | apply Forall_forall; intros; apply w_reason_tells].
  destruct E as [-> E]. peel E.
  apply counted_tell in E; [| cbn; tauto | apply Forall_forall; intros; apply w_flag_tells].
  destruct E as [-> _]. reflexivity.
Qed.

Theorem exact_key_inj t u : expr_ok (t_expr t) -> expr_ok (t_expr u) -> exact_key t = exact_key u ->
  t_expr t = t_expr u /\ t_labels t = t_labels u.
Proof.
  intros Ht Hu E. unfold exact_key in E. apply app_inv_head in E.
  apply (w_expr_clear _ Ht) in E; [| exact Hu]. destruct E as [-> E]. apply app_inv_head in E.
  split; [reflexivity | exact (w_labels_inj _ _ E)].
Qed.

(** * Parameterized keys *)
(** What a parameterized key forgets: the literals outside of arrays. *)
Fixpoint erase (e : cexpr) : cexpr :=
  match e with
  | ELit v => if is_array v then e else ELit LPending
  | EOmit | ERef _ _ | EArr _ => e
  | EUn op x => EUn op (erase x)
  | EBin op l r => EBin op (erase l) (erase r)
  | EFn f args => EFn f (map erase args)
  | ECall x args => ECall (erase x) (map erase args)
  end.

Fixpoint w_pars (l : list cexpr) (n : N) (par : bool) : text * N :=
  match l with
  | [] => ([], n)
  | x :: r => let '(t, n) := w_par x n par in let '(u, n) := w_pars r n par in (t ++ comma ++ u, n)
  end.
Lemma w_pars_eq par : forall l n,
  (fix go (l : list cexpr) (n : N) : text * N :=
     match l with
     | [] => ([], n)
     | x :: r => let '(t, n) := w_par x n par in let '(u, n) := go r n in (t ++ comma ++ u, n)
     end) l n = w_pars l n par.
Proof.
  induction l as [|x l IH]; intros n; [reflexivity |]. cbn [w_pars]. destruct (w_par x n par) as [t m].
  rewrite IH. reflexivity.
Qed.
Lemma w_par_fn f args n par : w_par (EFn f args) n par =
  (tx "fn(" ++ w_fid f ++ semi ++ (dec (len args) ++ colon ++ fst (w_pars args n par)) ++ close, snd (w_pars args n par)).
Proof. cbn [w_par]. rewrite w_pars_eq. destruct (w_pars args n par). reflexivity. Qed.
Lemma w_par_call x args n par : w_par (ECall x args) n par =
  let s := fst (w_par x n par) in let m := snd (w_par x n par) in
  (tx "call(" ++ s ++ semi ++ (dec (len args) ++ colon ++ fst (w_pars args m par)) ++ close, snd (w_pars args m par)).
Proof. cbn [w_par]. destruct (w_par x n par) as [s m]. rewrite w_pars_eq. cbn. destruct (w_pars args m par). reflexivity. Qed.
Lemma w_par_un op x n par : w_par (EUn op x) n par =
  (tx "unary(" ++ w_string op ++ semi ++ fst (w_par x n par) ++ close, snd (w_par x n par)).
Proof. cbn [w_par]. destruct (w_par x n par). reflexivity. Qed.
Lemma w_par_bin op l r n par : w_par (EBin op l r) n par =
  let m := snd (w_par l n par) in
  (tx "binary(" ++ w_string op ++ semi ++ fst (w_par l n par) ++ semi ++ fst (w_par r m par) ++ close, snd (w_par r m par)).
Proof. cbn [w_par]. destruct (w_par l n par) as [t m]. cbn. destruct (w_par r m par). reflexivity. Qed.

(** Without parameters it is the exact key. *)
Lemma w_pars_false l : Forall (fun e => forall n, w_par e n false = (w_expr e, n)) l ->
  forall n, w_pars l n false = (flat_map (fun x => w_expr x ++ comma) l, n).
Proof.
  intros H. induction H as [|x l Hx Hl IH]; intros n; [reflexivity |].
  cbn [w_pars flat_map]. rewrite Hx, IH, <- app_assoc. reflexivity.
Qed.
Lemma rows_false par rows : Forall (Forall (fun e => forall n, w_par e n false = (w_expr e, n))) rows ->
  forall n, w_par (EArr rows) n par = (w_expr (EArr rows), n).
Proof.
  intros H n. cbn [w_par w_expr].
  match goal with |- (let '(t, n) := ?F rows n in _) = _ =>
    assert (K : forall n, F rows n =
      (flat_map (fun row => dec (len row) ++ colon ++ flat_map (fun x => w_expr x ++ comma) row ++ semi) rows, n)) end.
  { clear n. induction H as [|row rest Hrow Hrows IH]; intros n; [reflexivity |].
    rewrite w_pars_eq, (w_pars_false row Hrow), IH. cbn [flat_map]. rewrite <- !app_assoc. reflexivity. }
  rewrite K. reflexivity.
Qed.
Lemma w_par_false : forall e n, w_par e n false = (w_expr e, n).
Proof.
  apply (cexpr_ind' (fun e => forall n, w_par e n false = (w_expr e, n))); try reflexivity.
  - intros op e IH n. rewrite w_par_un, IH. reflexivity.
  - intros op l r IHl IHr n. rewrite w_par_bin, IHl. cbn [snd]. cbv zeta. rewrite IHr. reflexivity.
  - intros f args IH n. rewrite w_par_fn, (w_pars_false args IH). reflexivity.
  - intros x args IHx IH n. rewrite w_par_call, IHx. cbn [fst snd]. cbv zeta. rewrite (w_pars_false args IH). reflexivity.
  - intros rs H n. apply rows_false. exact H.
Qed.
Lemma w_par_arr rows n par : w_par (EArr rows) n par = (w_expr (EArr rows), n).
Proof.
  apply rows_false. apply Forall_forall. intros row _. apply Forall_forall. intros e _. apply w_par_false.
Qed.

Definition pclear (e : cexpr) : Prop :=
  forall b n r s, expr_ok b -> fst (w_par e n true) ++ r = fst (w_par b n true) ++ s ->
    erase e = erase b /\ snd (w_par e n true) = snd (w_par b n true) /\ r = s.

Lemma pars_clear l : Forall pclear l -> forall m n r s, Forall expr_ok m -> List.length l = List.length m ->
  fst (w_pars l n true) ++ r = fst (w_pars m n true) ++ s ->
  map erase l = map erase m /\ snd (w_pars l n true) = snd (w_pars m n true) /\ r = s.
Proof.
  intros H. induction H as [|x l Hx Hl IH]; intros [|y m] n r s Hm L E; try discriminate L.
  - split; [reflexivity |]. split; [reflexivity | exact E].
  - apply Forall_cons_iff in Hm. destruct Hm as [Hy Hm]. cbn [w_pars map] in *. specialize (Hx y n).
    destruct (w_par x n true) as [t k], (w_par y n true) as [t' k']. cbn [fst snd] in Hx.
    specialize (IH m k). 
    destruct (w_pars l k true) as [u j] eqn:E1. destruct (w_pars m k' true) as [u' j'] eqn:E2.
    cbn [fst snd] in *. rewrite <- !app_assoc in E.
    destruct (Hx _ _ Hy E) as (-> & -> & E'). apply app_inv_head in E'. rewrite E2 in IH. cbn [fst snd] in IH.
    injection L as L. destruct (IH _ _ Hm L E') as (-> & -> & ->). split; [reflexivity |]. split; reflexivity.
Qed.

Theorem w_par_clear : forall e, expr_ok e -> pclear e.
Proof.
  apply (cexpr_ind' (fun e => expr_ok e -> pclear e)).
  - intros v _ b n r s Hb E. destruct b; rewrite ?w_par_un, ?w_par_bin, ?w_par_fn, ?w_par_call, ?w_par_arr in *; cbv zeta in *;
      cbn [w_par fst snd] in *; destruct (is_array v) eqn:Hv; cbn [andb negb fst snd] in *;
      cbn [w_expr] in E; cbn [erase]; rewrite ?Hv;
      try (untag E; discriminate E); destruct (is_array v0) eqn:Hw; cbn [andb negb fst snd] in *.
    + untag E; peel E. apply w_lit_tells in E; [| apply stop_close | apply stop_close]. destruct E as [-> E].
      apply app_inv_head in E. subst s. repeat split.
    + untag E; discriminate E.
    + untag E; discriminate E.
    + untag E; peel E. apply app_inv_head in E. apply app_inv_head in E. subst s. repeat split.
  - intros _ b n r s Hb E. destruct b; rewrite ?w_par_un, ?w_par_bin, ?w_par_fn, ?w_par_call, ?w_par_arr in *; cbv zeta in *;
      cbn [w_par fst snd] in *; try destruct (is_array v); cbn [andb negb fst snd w_expr] in *;
      untag E; try discriminate E. peel E. subst s. repeat split.
  - intros c k Ha b n r s Hb E. destruct b; rewrite ?w_par_un, ?w_par_bin, ?w_par_fn, ?w_par_call, ?w_par_arr in *; cbv zeta in *;
      cbn [w_par fst snd expr_ok] in *; try destruct (is_array v); cbn [andb negb fst snd w_expr] in *;
      untag E; try discriminate E. peel E.
    apply w_ctx_tells in E; [| assumption | assumption | apply stop_semi | apply stop_semi]. destruct E as [-> E].
    apply app_inv_head in E. apply w_ref_closed in E. destruct E as [-> E].
    apply app_inv_head in E. subst s. repeat split.
  - intros op e IH Ha b n r s Hb E. rewrite w_par_un in *. destruct b; rewrite ?w_par_un, ?w_par_bin, ?w_par_fn, ?w_par_call, ?w_par_arr in *; cbv zeta in *;
      cbn [w_par fst snd expr_ok] in *; try destruct (is_array v); cbn [andb negb fst snd w_expr] in *;
      untag E; try discriminate E. peel E.
    apply w_string_code in E. destruct E as [-> E]. apply app_inv_head in E.
    apply (IH Ha) in E; [| assumption]. destruct E as (E1 & -> & E). cbn [erase]. rewrite E1.
    apply app_inv_head in E. subst s. repeat split.
  - intros op l r0 IHl IHr Ha b n r s Hb E. rewrite w_par_bin in *. destruct b; rewrite ?w_par_un, ?w_par_bin, ?w_par_fn, ?w_par_call, ?w_par_arr in *; cbv zeta in *;
      cbn [w_par fst snd expr_ok] in *; try destruct (is_array v); cbn [andb negb fst snd w_expr] in *;
      untag E; try discriminate E. peel E.
    destruct Ha as [Ha1 Ha2], Hb as [Hb1 Hb2].
    apply w_string_code in E. destruct E as [-> E]. apply app_inv_head in E.
    apply (IHl Ha1) in E; [| assumption]. destruct E as (E1 & E2 & E). rewrite E2 in *. apply app_inv_head in E.
    apply (IHr Ha2) in E; [| assumption]. destruct E as (E3 & E4 & E). cbn [erase]. rewrite E1, E3, E4.
    apply app_inv_head in E. subst s. repeat split.
  - intros f args IH Ha b n r s Hb E. rewrite w_par_fn in *. destruct b; rewrite ?w_par_un, ?w_par_bin, ?w_par_fn, ?w_par_call, ?w_par_arr in *; cbv zeta in *;
      cbn [w_par fst snd expr_ok] in *; try destruct (is_array v); cbn [andb negb fst snd w_expr] in *;
      untag E; try discriminate E. peel E.
    destruct Ha as [Ha1 Ha2], Hb as [Hb1 Hb2]. apply go_ok in Ha2. apply go_ok in Hb2.
    apply w_fid_tells in E; [| assumption | assumption | apply stop_semi | apply stop_semi]. destruct E as [-> E].
    apply app_inv_head in E. apply dec_tells in E; [| apply stop_colon | apply stop_colon]. destruct E as [L E].
    apply app_inv_head in E.
    apply pars_clear in E; [| exact (Forall_mp _ _ _ IH Ha2) | exact Hb2 | exact (len_inj _ _ L)].
    destruct E as (E1 & E2 & E). cbn [erase]. rewrite E1, E2. apply app_inv_head in E. subst s. repeat split.
  - intros x args IHx IH Ha b n r s Hb E. rewrite w_par_call in *. destruct b; rewrite ?w_par_un, ?w_par_bin, ?w_par_fn, ?w_par_call, ?w_par_arr in *; cbv zeta in *;
      cbn [w_par fst snd expr_ok] in *; try destruct (is_array v); cbn [andb negb fst snd w_expr] in *;
      untag E; try discriminate E. peel E.
    destruct Ha as [Ha1 Ha2], Hb as [Hb1 Hb2]. apply go_ok in Ha2. apply go_ok in Hb2.
    apply (IHx Ha1) in E; [| assumption]. destruct E as (E0 & E00 & E). rewrite E00 in *.
    apply app_inv_head in E. apply dec_tells in E; [| apply stop_colon | apply stop_colon]. destruct E as [L E].
    apply app_inv_head in E.
    apply pars_clear in E; [| exact (Forall_mp _ _ _ IH Ha2) | exact Hb2 | exact (len_inj _ _ L)].
    destruct E as (E1 & E2 & E). cbn [erase]. rewrite E0, E1, E2. apply app_inv_head in E. subst s. repeat split.
  - intros rows _ Ha b n r s Hb E. rewrite w_par_arr in *. cbn [fst snd] in *.
    destruct b; try (rewrite ?w_par_un, ?w_par_bin, ?w_par_fn, ?w_par_call in E; cbv zeta in E;
      cbn [w_par fst snd] in E; try destruct (is_array v); cbn [andb negb fst snd w_expr] in E;
      untag E; discriminate E).
    rewrite w_par_arr in *. cbn [fst snd] in *.
    apply (w_expr_clear _ Ha) in E; [| exact Hb]. destruct E as [-> ->]. repeat split.
Qed.

Theorem par_key_inj t u : expr_ok (t_expr t) -> expr_ok (t_expr u) -> par_key t = par_key u ->
  erase (t_expr t) = erase (t_expr u) /\ t_labels t = t_labels u.
Proof.
  intros Ht Hu E. unfold par_key in E. apply app_inv_head in E.
  apply (w_par_clear _ Ht) in E; [| exact Hu]. destruct E as (E1 & _ & E). apply app_inv_head in E.
  split; [exact E1 | exact (w_labels_inj _ _ E)].
Qed.
