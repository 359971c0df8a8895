(** Nested compound actions in the change log. *)
From Verif Require Import Base UndoModel.

Inductive logop := LBegin | LEnd | LRecord (e : event).
Definition do_logop (l : clog) (o : logop) : clog :=
  match o with LBegin => begin_compound l | LEnd => end_compound l | LRecord e => record e l end.
Definition event_of (o : logop) : event := match o with LBegin => EStart | LEnd => EEnd | LRecord e => e end.
(** Properly nested sequences. *)
Inductive nested : list logop -> Prop :=
| nested_nil : nested []
| nested_record e ops : nested ops -> nested (LRecord e :: ops)
| nested_group inner ops : nested inner -> nested ops -> nested (LBegin :: inner ++ LEnd :: ops).

Lemma nested_inside : forall ops, nested ops -> forall l g gs d,
  cap l = None -> depth l = S d -> gstack l = g :: gs ->
  fold_left do_logop ops l =
  {| events := events l ++ map (fun o => (event_of o, Some g)) ops; depth := S d; gstack := g :: gs; nextg := nextg l; cap := None |}.
Proof.
  intros ops H. induction H as [|e ops H IH|inner ops H1 IH1 H2 IH2]; intros l g gs d C D G.
  - destruct l; cbn in *. rewrite app_nil_r. now subst.
  - cbn [fold_left do_logop]. unfold record, enforce_cap. cbn [cap]. rewrite C. rewrite (IH _ g gs d); cbn; auto.
    rewrite G. cbn. now rewrite <- app_assoc.
  - cbn [fold_left do_logop]. rewrite fold_left_app. cbn [fold_left do_logop].
    unfold begin_compound. rewrite D. cbn [Nat.eqb]. unfold record at 1, enforce_cap. cbn [cap events gstack depth nextg]. rewrite C, G.
    rewrite (IH1 _ g (g :: gs) (S d)) by reflexivity. cbn [events depth gstack nextg cap].
    unfold end_compound. cbn [depth Nat.eqb]. unfold record, enforce_cap. cbn [cap events gstack depth nextg hd_error tl pred].
    rewrite (IH2 _ g gs d) by reflexivity. cbn [events nextg]. f_equal.
    cbn [map]. rewrite map_app. cbn [map event_of]. rewrite <- !app_assoc. reflexivity.
Qed.
Lemma outer_group : forall l ops, nested ops -> cap l = None -> depth l = 0 -> gstack l = [] ->
  fold_left do_logop (LBegin :: ops ++ [LEnd]) l =
  {| events := events l ++ map (fun o => (event_of o, Some (nextg l))) (LBegin :: ops ++ [LEnd]);
     depth := 0; gstack := []; nextg := N.succ (nextg l); cap := None |}.
Proof.
  intros l ops H C D G. cbn [fold_left do_logop]. rewrite fold_left_app. cbn [fold_left do_logop].
  unfold begin_compound. rewrite D. cbn [Nat.eqb]. unfold record at 1, enforce_cap. cbn [cap events gstack depth nextg]. rewrite C, G.
  rewrite (nested_inside ops H _ (nextg l) [] 0) by reflexivity. unfold end_compound. cbn [depth Nat.eqb].
  unfold record, enforce_cap. cbn [cap events gstack depth nextg hd_error tl pred]. f_equal.
  cbn [map]. rewrite map_app. cbn [map event_of]. rewrite <- !app_assoc. reflexivity.
Qed.
