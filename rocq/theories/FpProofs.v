(** Axis ranges, regions and projections. *)
From Coq Require Import ZifyN ZifyNat ZifyBool.
From Verif Require Import Base Maps IntervalModel FpModel FpSpec.

Open Scope N_scope.

Ltac ax := unfold ax_ok, on, ax_meets, ax_has, ax_covers, ax_bounds, ax_norm, lo_open, hi_open, umax in *; cbn [fst snd] in *.

Lemma has_on : forall a x, ax_has a x = true <-> on a x.
Proof. intros [] x; ax; split; intros; auto; lia. Qed.

Lemma meets_on : forall a b, ax_ok a -> ax_ok b -> (ax_meets a b = true <-> exists x, x <= umax /\ on a x /\ on b x).
Proof.
  intros a b A B. split.
  - intros H. exists (N.max (fst (ax_bounds a)) (fst (ax_bounds b))). destruct a, b; ax; repeat split; auto; lia.
  - intros (x & X & H1 & H2). destruct a, b; ax; auto; lia.
Qed.

Lemma bounds_on : forall a x, x <= umax -> (on a x <-> fst (ax_bounds a) <= x <= snd (ax_bounds a)).
Proof. intros [] x X; ax; try lia; tauto. Qed.
Lemma bounds_ok : forall a, ax_ok a -> fst (ax_bounds a) <= snd (ax_bounds a) /\ snd (ax_bounds a) <= umax.
Proof. intros [] A; ax; lia. Qed.

Definition oon (o : option axis) (x : N) : Prop := match o with Some d => on d x | None => False end.
Definition o_ok (o : option axis) : Prop := match o with Some d => ax_ok d | None => True end.

Lemma inter_on : forall a b x, ax_ok a -> ax_ok b -> (oon (ax_inter a b) x <-> on a x /\ on b x).
Proof.
  intros a b x A B. unfold ax_inter. destruct (N.ltb _ _) eqn:L.
  - cbn [oon]. split; [tauto|]. intros [H1 H2]. destruct a, b; ax; lia.
  - unfold oon. destruct a, b; ax; cbn [negb orb] in *; try destruct (N.eqb _ _) eqn:E; cbn [on]; try tauto; try lia.
Qed.
Lemma inter_ok : forall a b, ax_ok a -> ax_ok b -> o_ok (ax_inter a b).
Proof.
  intros a b A B. unfold ax_inter. destruct (N.ltb _ _) eqn:L; [exact I|].
  unfold o_ok. destruct a, b; ax; cbn [negb orb] in *; try destruct (N.eqb _ _) eqn:E; cbn [ax_ok]; ax; auto; try lia.
Qed.
Lemma inter_some : forall a b d, ax_ok a -> ax_ok b -> ax_inter a b = Some d -> exists x, x <= umax /\ on d x.
Proof.
  intros a b d A B H. assert (K := inter_ok a b A B). rewrite H in K. cbn [o_ok] in K.
  exists (fst (ax_bounds d)). destruct d; ax; lia.
Qed.

Lemma covers_on : forall a b, ax_ok a -> ax_ok b -> (ax_covers a b = true <-> forall x, x <= umax -> on b x -> on a x).
Proof.
  intros a b A B. destruct (bounds_ok a A) as [P1 P2], (bounds_ok b B) as [P3 P4]. split.
  - intros H x X O. rewrite bounds_on in * by auto. unfold ax_covers in H. lia.
  - intros H. assert (H1 := H (fst (ax_bounds b))). assert (H2 := H (snd (ax_bounds b))).
    rewrite !bounds_on in H1, H2 by lia. unfold ax_covers. lia.
Qed.

Lemma norm_on : forall a x, on (ax_norm a) x <-> on a x.
Proof. intros [] x; cbn [ax_norm on]; try tauto. destruct (N.eqb s e) eqn:E; cbn [on]; lia. Qed.
Lemma norm_ok : forall a, ax_ok a -> ax_ok (ax_norm a).
Proof. intros [] H; cbn [ax_norm]; auto. destruct (N.eqb s e) eqn:E; ax; lia. Qed.

Lemma shift_on : forall off a d, ax_ok a -> ax_shift off a = Some d -> forall x y, x <= umax -> y <= umax -> (Z.of_N y = Z.of_N x + off)%Z ->
  on a x -> on d y.
Proof.
  intros off a d A H x y X Y E O. unfold ax_shift, sat_add, clamp32, i64min, i64max in H. destruct a; ax.
  - destruct (_ && _) eqn:C in H; [|discriminate]. injection H as <-. lia.
  - destruct (_ || _) eqn:C in H; [discriminate|]. injection H as <-.
    repeat match goal with |- context [Z.ltb ?u ?v] => destruct (Z.ltb u v) eqn:? end; lia.
  - destruct (Z.ltb _ 0) eqn:C in H; injection H as <-; auto.
    repeat match goal with |- context [Z.ltb ?u ?v] => destruct (Z.ltb u v) eqn:? end; lia.
  - destruct (Z.ltb _ 0) eqn:C in H; [discriminate|]; injection H as <-.
    repeat match goal with |- context [Z.ltb ?u ?v] => destruct (Z.ltb u v) eqn:? end; lia.
  - injection H as <-. auto.
Qed.
Lemma shift_none : forall off a, ax_ok a -> ax_shift off a = None -> forall x y, x <= umax -> y <= umax -> (Z.of_N y = Z.of_N x + off)%Z -> ~ on a x.
Proof.
  intros off a A H x y X Y E O. unfold ax_shift, sat_add, clamp32, i64min, i64max in H. destruct a; ax; try discriminate.
  - destruct (_ && _) eqn:C in H; [discriminate|]. lia.
  - destruct (_ || _) eqn:C in H; [|discriminate]. lia.
  - destruct (Z.ltb _ 0) eqn:C in H; discriminate.
  - destruct (Z.ltb _ 0) eqn:C in H; [|discriminate]. lia.
Qed.
Lemma shift_back : forall off a d, ax_ok a -> ax_bounded a = true -> ax_shift off a = Some d -> forall y, y <= umax -> on d y ->
  exists x, x <= umax /\ (Z.of_N y = Z.of_N x + off)%Z /\ on a x.
Proof.
  intros off a d A Bd H y Y O. exists (Z.to_N (Z.of_N y - off)).
  unfold ax_shift, sat_add, clamp32, i64min, i64max in H. destruct a; ax; try discriminate.
  - destruct (_ && _) eqn:C in H; [|discriminate]. injection H as <-. lia.
  - destruct (_ || _) eqn:C in H; [discriminate|]. injection H as <-.
    repeat match type of O with context [Z.ltb ?u ?v] => destruct (Z.ltb u v) eqn:? end; lia.
Qed.

(** The second family of operations, used by the projections. *)
Lemma norm2_on : forall a x, ax_ok a -> x <= umax -> (on (norm2 a) x <-> on a x).
Proof.
  intros [] x A X; cbn [norm2]; try tauto; destruct (N.eqb _ _) eqn:E; cbn [on]; ax; try tauto; lia.
Qed.
Lemma norm2_ok : forall a, ax_ok a -> ax_ok (norm2 a).
Proof. intros [] A; cbn [norm2]; auto; destruct (N.eqb _ _) eqn:E; ax; auto; lia. Qed.
Lemma from_bounds_on : forall l h x, l <= h -> h <= umax -> x <= umax -> (on (from_bounds l h) x <-> l <= x <= h).
Proof.
  intros l h x L H X. unfold from_bounds. rewrite norm2_on.
  - repeat match goal with |- context [if ?b then _ else _] => destruct b eqn:? end; cbn [on]; ax; lia.
  - repeat match goal with |- context [if ?b then _ else _] => destruct b eqn:? end; ax; lia.
  - auto.
Qed.
Lemma from_bounds_ok : forall l h, l <= h -> h <= umax -> ax_ok (from_bounds l h).
Proof.
  intros l h L H. unfold from_bounds. apply norm2_ok.
  repeat match goal with |- context [if ?b then _ else _] => destruct b eqn:? end; ax; lia.
Qed.

Lemma isect_gen : forall a b, ax_isect a b =
  match a, b with
  | All, r | r, All => Some (norm2 r)
  | Fr x, Fr y => Some (norm2 (Fr (N.max x y)))
  | To x, To y => Some (norm2 (To (N.min x y)))
  | _, _ =>
      let low := N.max (fst (ax_bounds a)) (fst (ax_bounds b)) in
      let high := N.min (snd (ax_bounds a)) (snd (ax_bounds b)) in
      if N.leb low high then Some (from_bounds low high) else None
  end.
Proof. reflexivity. Qed.
Lemma isect_on : forall a b x, ax_ok a -> ax_ok b -> x <= umax -> (oon (ax_isect a b) x <-> on a x /\ on b x).
Proof.
  intros a b x A B X. destruct (bounds_ok a A), (bounds_ok b B). assert (HA := bounds_on a x X). assert (HB := bounds_on b x X).
  rewrite isect_gen. cbv zeta.
  assert (G : oon (if N.leb (N.max (fst (ax_bounds a)) (fst (ax_bounds b))) (N.min (snd (ax_bounds a)) (snd (ax_bounds b)))
               then Some (from_bounds (N.max (fst (ax_bounds a)) (fst (ax_bounds b))) (N.min (snd (ax_bounds a)) (snd (ax_bounds b)))) else None) x
              <-> on a x /\ on b x).
  { destruct (N.leb _ _) eqn:L; cbn [oon]; [rewrite from_bounds_on by lia|]; rewrite HA, HB; lia. }
  destruct a, b; try exact G; cbn [oon]; rewrite norm2_on; auto; ax; try tauto; lia.
Qed.
Lemma isect_ok : forall a b, ax_ok a -> ax_ok b -> o_ok (ax_isect a b).
Proof.
  intros a b A B. destruct (bounds_ok a A), (bounds_ok b B). rewrite isect_gen. cbv zeta.
  assert (G : o_ok (if N.leb (N.max (fst (ax_bounds a)) (fst (ax_bounds b))) (N.min (snd (ax_bounds a)) (snd (ax_bounds b)))
               then Some (from_bounds (N.max (fst (ax_bounds a)) (fst (ax_bounds b))) (N.min (snd (ax_bounds a)) (snd (ax_bounds b)))) else None)).
  { destruct (N.leb _ _) eqn:L; cbn [o_ok]; [apply from_bounds_ok; lia|exact I]. }
  destruct a, b; try exact G; cbn [o_ok]; apply norm2_ok; ax; auto; lia.
Qed.

Lemma clamp_le : forall z, clamp32 z <= umax.
Proof. intros z. unfold clamp32, umax. repeat match goal with |- context [if ?b then _ else _] => destruct b eqn:? end; lia. Qed.
Lemma clamp_mono : forall z w, (z <= w)%Z -> clamp32 z <= clamp32 w.
Proof. intros z w H. unfold clamp32, umax. repeat match goal with |- context [if ?b then _ else _] => destruct b eqn:? end; lia. Qed.

Lemma from_shifted_on : forall l h x, x <= umax -> (oon (from_shifted l h) x <-> (l <= Z.of_N x <= h)%Z).
Proof.
  intros l h x X. unfold from_shifted. destruct (_ || _) eqn:C.
  - cbn [oon]. ax. lia.
  - cbn [oon]. rewrite from_bounds_on; auto using clamp_le; [|apply clamp_mono; lia].
    unfold clamp32, umax in *. repeat match goal with |- context [if ?b then _ else _] => destruct b eqn:? end; lia.
Qed.
Lemma from_shifted_ok : forall l h, o_ok (from_shifted l h).
Proof.
  intros l h. unfold from_shifted. destruct (_ || _) eqn:C; cbn [o_ok]; auto.
  apply from_bounds_ok; auto using clamp_le. apply clamp_mono. lia.
Qed.

Lemma neg_ok : forall off n, i64 off -> neg off = Ok n -> n = (- off)%Z /\ (-i64max <= n <= i64max)%Z.
Proof. unfold neg, i64. intros off n H. destruct (Z.eqb off i64min) eqn:E; [discriminate|]. intros X. injection X as <-. unfold i64min, i64max in *. lia. Qed.

(** [through]: the placements whose reads at distance [-off] fall on [a]. *)
Lemma through_ok : forall a off, ax_ok a -> o_ok (through a off).
Proof.
  intros a off A. destruct a; unfold through; cbv zeta.
  - unfold checked_shift. cbv zeta. destruct (_ && _) eqn:C; cbn [option_map o_ok]; auto. ax. lia.
  - apply from_shifted_ok.
  - destruct (Z.ltb _ 0); cbn [o_ok]; [exact I|]. apply norm2_ok. apply clamp_le.
  - destruct (Z.ltb _ 0); cbn [o_ok]; [exact I|]. apply norm2_ok. apply clamp_le.
  - exact I.
Qed.
Lemma clip_spec : forall v off, (-i64max <= off <= i64max)%Z ->
  (clip_shift v off = Z.of_N v + off /\ Z.of_N v + off <= i64max)%Z \/ (clip_shift v off = i64max /\ i64max < Z.of_N v + off)%Z.
Proof. intros v off H. unfold clip_shift, is_i64, i64min, i64max in *. cbv zeta. destruct (_ && _) eqn:C; lia. Qed.
Lemma clamp_spec : forall z, (z < 0)%Z /\ clamp32 z = 0 \/ (0 <= z <= Z.of_N umax)%Z /\ Z.of_N (clamp32 z) = z \/ (Z.of_N umax < z)%Z /\ clamp32 z = umax.
Proof. intros z. unfold clamp32, umax. destruct (Z.ltb z 0) eqn:E; [lia|]. destruct (Z.ltb _ z) eqn:F; lia. Qed.
Lemma through_on : forall a off x y, ax_ok a -> (-i64max <= off <= i64max)%Z -> x <= umax -> y <= umax -> (Z.of_N x = Z.of_N y + off)%Z ->
  on a y -> oon (through a off) x.
Proof.
  intros a off x y A I X Y E O. destruct a; unfold through; cbv zeta.
  - unfold checked_shift, is_i64, i64min, i64max in *. cbv zeta. destruct (_ && _) eqn:C; cbn [option_map oon on]; ax; lia.
  - apply from_shifted_on; auto. destruct (clip_spec s off I), (clip_spec e off I); unfold i64max in *; ax; lia.
  - destruct (clip_spec s off I); unfold i64max in *; destruct (clamp_spec (clip_shift s off));
    (destruct (Z.ltb _ 0) eqn:L; cbn [oon]; [exact Logic.I|]; rewrite norm2_on; [|apply clamp_le|auto]; ax; lia).
  - destruct (clip_spec e off I); unfold i64max in *; destruct (clamp_spec (clip_shift e off));
    (destruct (Z.ltb _ 0) eqn:L; cbn [oon]; [ax; lia|]; rewrite norm2_on; [|apply clamp_le|auto]; ax; lia).
  - exact Logic.I.
Qed.
Lemma through_back : forall a off x y, ax_ok a -> (-i64max <= off <= i64max)%Z -> x <= umax -> y <= umax -> (Z.of_N x = Z.of_N y + off)%Z ->
  (forall s, a = Fr s -> (Z.of_N s + off <= Z.of_N umax)%Z) -> oon (through a off) x -> on a y.
Proof.
  intros a off x y A I X Y E K O. destruct a; unfold through in O; cbv zeta in O.
  - unfold checked_shift in O. cbv zeta in O. destruct (_ && _) eqn:C in O; cbn [option_map oon on] in *; [|contradiction]. ax. lia.
  - apply from_shifted_on in O; [|lia]. destruct (clip_spec s off I), (clip_spec e off I); unfold i64max in *; ax; lia.
  - specialize (K s eq_refl). destruct (clip_spec s off I); unfold i64max in *; destruct (clamp_spec (clip_shift s off));
    (destruct (Z.ltb _ 0) eqn:L in O; cbn [oon] in O; [ax; lia|]; rewrite norm2_on in O; [|apply clamp_le|lia]; ax; lia).
  - clear K. destruct (clip_spec e off I); unfold i64max in *; destruct (clamp_spec (clip_shift e off));
    (destruct (Z.ltb _ 0) eqn:L in O; cbn [oon] in O; [contradiction|]; rewrite norm2_on in O; [|apply clamp_le|lia]; ax; lia).
  - exact Logic.I.
Qed.

Lemma Ok_inj : forall E A (a b : A), @Ok E A a = Ok b -> a = b.
Proof. congruence. Qed.

(** Dirty axes. *)
Lemma dirty_axis_ok : forall p ch re o, ax_ok ch -> ax_ok re -> dirty_axis p ch re = Ok o -> o_ok o.
Proof.
  intros [off|i] ch re o A B H; cbn [dirty_axis] in H.
  - destruct (neg off) as [n| |]; try discriminate. cbn [rbind] in H. apply Ok_inj in H; subst o.
    assert (T := through_ok ch n A). destruct (through ch n) as [d|]; cbn [obind]; [apply isect_ok; auto|exact I].
  - apply Ok_inj in H; subst o. destruct (ax_has ch i); cbn [o_ok]; auto.
Qed.
Lemma dirty_axis_result : forall p ch re o x, ax_ok ch -> ax_ok re -> x <= umax -> dirty_axis p ch re = Ok o -> oon o x -> on re x.
Proof.
  intros [off|i] ch re o x A B X H O; cbn [dirty_axis] in H.
  - destruct (neg off) as [n| |]; try discriminate. cbn [rbind] in H. apply Ok_inj in H; subst o.
    assert (T := through_ok ch n A). destruct (through ch n) as [d|]; cbn [obind] in *; [|contradiction].
    apply isect_on in O; tauto.
  - apply Ok_inj in H; subst o. destruct (ax_has ch i); cbn [oon] in *; tauto.
Qed.
Lemma dirty_axis_sound : forall p ch re o x y, ax_ok ch -> ax_ok re -> pi64 p -> x <= umax -> y <= umax -> dirty_axis p ch re = Ok o ->
  Z.of_N y = at_axis p x -> on ch y -> on re x -> oon o x.
Proof.
  intros [off|i] ch re o x y A B P X Y H E C R; cbn [dirty_axis at_axis pi64] in *.
  - destruct (neg off) as [n| |] eqn:G; try discriminate. cbn [rbind] in H. apply Ok_inj in H; subst o.
    apply neg_ok in G; auto. destruct G as [-> G].
    assert (T := through_on ch (- off) x y A G X Y ltac:(lia) C).
    assert (K := through_ok ch (- off) A). destruct (through ch (- off)) as [d|]; cbn [obind oon o_ok] in *; [|contradiction].
    apply isect_on; auto.
  - apply Ok_inj in H; subst o. assert (y = i) by lia. subst y. apply has_on in C. rewrite C. auto.
Qed.
Lemma dirty_axis_exact : forall p ch re o x y, ax_ok ch -> ax_ok re -> pi64 p -> x <= umax -> y <= umax -> dirty_axis p ch re = Ok o ->
  Z.of_N y = at_axis p x -> (exists x1 y1, x1 <= umax /\ on ch y1 /\ Z.of_N y1 = at_axis p x1) -> oon o x -> on ch y.
Proof.
  intros [off|i] ch re o x y A B P X Y H E (x1 & y1 & X1 & Y1 & E1) O; cbn [dirty_axis at_axis pi64] in *.
  - destruct (neg off) as [n| |] eqn:G; try discriminate. cbn [rbind] in H. apply Ok_inj in H; subst o.
    apply neg_ok in G; auto. destruct G as [-> G].
    assert (K := through_ok ch (- off) A). assert (T := through_back ch (- off) x y A G X Y ltac:(lia) ltac:(intros s ->; cbn [on] in Y1; lia)).
    destruct (through ch (- off)) as [d|]; cbn [obind oon o_ok] in *; [|contradiction].
    apply isect_on in O; [|auto|auto|lia]. tauto.
  - apply Ok_inj in H; subst o. assert (y = i) by lia. subst y. destruct (ax_has ch i) eqn:C; cbn [oon] in O; [|contradiction].
    now apply has_on.
Qed.

Lemma obind_isect_ok : forall o re, o_ok o -> ax_ok re -> o_ok (obind o (fun d => ax_isect d re)).
Proof. intros [d|] re A B; cbn [obind]; [now apply isect_ok|exact I]. Qed.
Lemma obind_isect_on : forall o re x, o_ok o -> ax_ok re -> x <= umax -> (oon (obind o (fun d => ax_isect d re)) x <-> oon o x /\ on re x).
Proof. intros [d|] re x A B X; cbn [obind oon]; [now apply isect_on|tauto]. Qed.

(** The dirty placements of a range whose bounds both move, before the result is met. *)
Definition rel_dirty (mn mx : Z) (ch : axis) : res reason (option axis) :=
  match ch with
  | All => Ok (Some All)
  | Pt p => through2 p p mx mn
  | Sp s e => through2 s e mx mn
  | Fr s => rbind (neg mx) (fun n => Ok (through (Fr s) n))
  | To e => rbind (neg mn) (fun n => Ok (through (To e) n))
  end.
Lemma through2_spec : forall s e lo hi o, i64 lo -> i64 hi -> s <= e -> e <= umax -> (hi <= lo)%Z -> through2 s e lo hi = Ok o ->
  o_ok o /\ forall x, x <= umax -> (oon o x <-> (Z.of_N s - lo <= Z.of_N x <= Z.of_N e - hi)%Z).
Proof.
  intros s e lo hi o A B S E L H. unfold through2 in H.
  destruct (neg lo) as [nl| |] eqn:G1; try discriminate. cbn [rbind] in H.
  destruct (neg hi) as [nh| |] eqn:G2; try discriminate. cbn [rbind] in H. apply Ok_inj in H; subst o.
  apply neg_ok in G1; auto. apply neg_ok in G2; auto. destruct G1 as [-> G1], G2 as [-> G2].
  split; [apply from_shifted_ok|]. intros x X. rewrite from_shifted_on by auto.
  destruct (clip_spec s (- lo) G1), (clip_spec e (- hi) G2); unfold i64max in *; ax; lia.
Qed.
Lemma rel_dirty_ok : forall mn mx ch o, i64 mn -> i64 mx -> (mn <= mx)%Z -> ax_ok ch -> rel_dirty mn mx ch = Ok o -> o_ok o.
Proof.
  intros mn mx ch o A B L C H. destruct ch; cbn [rel_dirty] in H.
  - apply through2_spec in H; auto; [tauto|lia].
  - cbn [ax_ok] in C. apply through2_spec in H; tauto.
  - destruct (neg mx); try discriminate. cbn [rbind] in H. apply Ok_inj in H; subst o. now apply through_ok.
  - destruct (neg mn); try discriminate. cbn [rbind] in H. apply Ok_inj in H; subst o. now apply through_ok.
  - apply Ok_inj in H; subst o. exact I.
Qed.
Lemma rel_dirty_sound : forall mn mx ch o x y, i64 mn -> i64 mx -> (mn <= mx)%Z -> ax_ok ch -> rel_dirty mn mx ch = Ok o ->
  x <= umax -> y <= umax -> (Z.of_N x + mn <= Z.of_N y <= Z.of_N x + mx)%Z -> on ch y -> oon o x.
Proof.
  intros mn mx ch o x y A B L C H X Y E O. destruct ch; cbn [rel_dirty] in H.
  - cbn [on] in O. subst y. apply through2_spec in H; auto; [|lia]. destruct H as [_ H]. apply H; auto. lia.
  - cbn [ax_ok on] in *. apply through2_spec in H; try tauto. destruct H as [_ H]. apply H; auto. lia.
  - destruct (neg mx) as [n| |] eqn:G; try discriminate. cbn [rbind] in H. apply Ok_inj in H; subst o. apply neg_ok in G; auto.
    destruct G as [-> G]. cbn [on] in O. unfold through. cbv zeta.
    destruct (clip_spec s (- mx) G); unfold i64max in *; destruct (clamp_spec (clip_shift s (- mx)));
    (destruct (Z.ltb _ 0) eqn:Z0; cbn [oon]; [exact I|]; rewrite norm2_on; [|apply clamp_le|auto]; ax; lia).
  - destruct (neg mn) as [n| |] eqn:G; try discriminate. cbn [rbind] in H. apply Ok_inj in H; subst o. apply neg_ok in G; auto.
    destruct G as [-> G]. cbn [on] in O. unfold through. cbv zeta.
    destruct (clip_spec e (- mn) G); unfold i64max in *; destruct (clamp_spec (clip_shift e (- mn)));
    (destruct (Z.ltb _ 0) eqn:Z0; cbn [oon]; [ax; lia|]; rewrite norm2_on; [|apply clamp_le|auto]; ax; lia).
  - apply Ok_inj in H; subst o. exact I.
Qed.
Lemma rel_dirty_exact : forall mn mx ch o x, i64 mn -> i64 mx -> (mn <= mx)%Z -> ax_ok ch -> rel_dirty mn mx ch = Ok o ->
  x <= umax -> (0 <= Z.of_N x + mn)%Z -> (Z.of_N x + mx <= Z.of_N umax)%Z ->
  (exists x1 y1, x1 <= umax /\ on ch y1 /\ (Z.of_N x1 + mn <= Z.of_N y1 <= Z.of_N x1 + mx)%Z) -> oon o x ->
  exists y, y <= umax /\ (Z.of_N x + mn <= Z.of_N y <= Z.of_N x + mx)%Z /\ on ch y.
Proof.
  intros mn mx ch o x A B L C H X V1 V2 (x1 & y1 & X1 & Y1 & E1) O. destruct ch; cbn [rel_dirty] in H.
  - exists p. apply through2_spec in H; auto; [|lia]. destruct H as [_ H]. apply H in O; [|lia]. cbn [on ax_ok] in *. lia.
  - cbn [ax_ok] in C. apply through2_spec in H; try tauto. destruct H as [_ H]. apply H in O; [|lia].
    exists (N.max s (Z.to_N (Z.of_N x + mn))). cbn [on]. ax. lia.
  - exists (Z.to_N (Z.of_N x + mx)).
    destruct (neg mx) as [n| |] eqn:G; try discriminate. cbn [rbind] in H. apply Ok_inj in H; subst o. apply neg_ok in G; auto.
    destruct G as [-> G]. split; [lia|]. split; [lia|].
    refine (through_back _ _ x _ C G X _ _ _ O); [lia|lia|]. intros k K. injection K as <-. cbn [on] in Y1. lia.
  - exists (Z.to_N (Z.of_N x + mn)).
    destruct (neg mn) as [n| |] eqn:G; try discriminate. cbn [rbind] in H. apply Ok_inj in H; subst o. apply neg_ok in G; auto.
    destruct G as [-> G]. split; [lia|]. split; [lia|].
    refine (through_back _ _ x _ C G X _ _ _ O); [lia|lia|]. intros k K. discriminate.
  - exists (Z.to_N (Z.of_N x + mn)). cbn [on]. lia.
Qed.

Lemma i64_min : forall x y, i64 x -> i64 y -> i64 (Z.min x y).
Proof. unfold i64. lia. Qed.
Lemma i64_max : forall x y, i64 x -> i64 y -> i64 (Z.max x y).
Proof. unfold i64. lia. Qed.

(** One bound moves, the other is pinned. *)
Definition mix_dirty (off : Z) (i : N) (ch : axis) : res reason (option axis) :=
  rbind (neg off) (fun n =>
    Ok (if N.leb (fst (ax_bounds ch)) i && N.leb i (snd (ax_bounds ch)) then Some All
        else if N.ltb i (fst (ax_bounds ch)) then through (Fr (fst (ax_bounds ch))) n else through (To (snd (ax_bounds ch))) n)).
Lemma mix_dirty_ok : forall off i ch o, ax_ok ch -> mix_dirty off i ch = Ok o -> o_ok o.
Proof.
  intros off i ch o A H. unfold mix_dirty in H. destruct (neg off) as [n| |]; try discriminate. cbn [rbind] in H. apply Ok_inj in H; subst o.
  destruct (bounds_ok ch A). destruct (_ && _); [exact I|]. destruct (N.ltb _ _); apply through_ok; cbn [ax_ok]; lia.
Qed.
Lemma mix_dirty_sound : forall off i ch o x y, i64 off -> ax_ok ch -> mix_dirty off i ch = Ok o -> x <= umax -> y <= umax ->
  between (Z.of_N x + off) (Z.of_N i) y -> on ch y -> oon o x.
Proof.
  intros off i ch o x y P A H X Y E O. unfold mix_dirty in H. destruct (neg off) as [n| |] eqn:G; try discriminate.
  cbn [rbind] in H. apply Ok_inj in H; subst o. apply neg_ok in G; auto. destruct G as [-> G].
  destruct (bounds_ok ch A) as [B1 B2]. rewrite bounds_on in O by auto. unfold between in E.
  destruct (_ && _) eqn:C; [exact I|]. destruct (N.ltb i _) eqn:F.
  - unfold through. cbv zeta. set (s := fst (ax_bounds ch)) in *.
    destruct (clip_spec s (- off) G); unfold i64max in *; destruct (clamp_spec (clip_shift s (- off)));
    (destruct (Z.ltb _ 0) eqn:Z0; cbn [oon]; [exact I|]; rewrite norm2_on; [|apply clamp_le|auto]; ax; lia).
  - unfold through. cbv zeta. set (e := snd (ax_bounds ch)) in *.
    destruct (clip_spec e (- off) G); unfold i64max in *; destruct (clamp_spec (clip_shift e (- off)));
    (destruct (Z.ltb _ 0) eqn:Z0; cbn [oon]; [ax; lia|]; rewrite norm2_on; [|apply clamp_le|auto]; ax; lia).
Qed.
Lemma mix_dirty_exact : forall off i ch o x, i64 off -> i <= umax -> ax_ok ch -> mix_dirty off i ch = Ok o -> x <= umax ->
  (0 <= Z.of_N x + off <= Z.of_N umax)%Z -> (exists x1 y1, x1 <= umax /\ on ch y1 /\ between (Z.of_N x1 + off) (Z.of_N i) y1) -> oon o x -> exists y, y <= umax /\ between (Z.of_N x + off) (Z.of_N i) y /\ on ch y.
Proof.
  intros off i ch o x P U A H X V (x1 & y1 & X1 & Y1 & E1) O. unfold mix_dirty in H. destruct (neg off) as [n| |] eqn:G; try discriminate.
  cbn [rbind] in H. apply Ok_inj in H; subst o. apply neg_ok in G; auto. destruct G as [-> G].
  destruct (bounds_ok ch A) as [B1 B2]. unfold between. destruct (_ && _) eqn:C.
  - exists i. split; [auto|]. split; [lia|]. apply bounds_on; auto. lia.
  - destruct (N.ltb i _) eqn:F.
    + assert (T : on (Fr (fst (ax_bounds ch))) (Z.to_N (Z.of_N x + off))).
      { apply (through_back _ (- off) x); auto; try lia; [cbn [ax_ok]; lia|].
        intros s K. injection K as <-. assert (fst (ax_bounds ch) <= y1) by (clear - Y1; destruct ch; ax; lia). unfold between in E1. lia. }
      cbn [on] in T. exists (fst (ax_bounds ch)). split; [lia|]. split; [lia|]. apply bounds_on; lia.
    + assert (T : on (To (snd (ax_bounds ch))) (Z.to_N (Z.of_N x + off))).
      { apply (through_back _ (- off) x); auto; try lia; try discriminate. }
      cbn [on] in T. exists (snd (ax_bounds ch)). split; [lia|]. split; [lia|]. apply bounds_on; lia.
Qed.

Lemma dirty_range_eq : forall a b ch re, dirty_range a b ch re =
  match a, b with
  | Rel x, Rel y => rbind (rel_dirty (Z.min x y) (Z.max x y) ch) (fun d => Ok (obind d (fun d => ax_isect d re)))
  | Abs i, Abs j => Ok (if ax_meets (Sp (N.min i j) (N.max i j)) ch then Some re else None)
  | Rel off, Abs i | Abs i, Rel off => rbind (mix_dirty off i ch) (fun d => Ok (obind d (fun d => ax_isect d re)))
  end.
Proof.
  intros [x|i] [y|j] ch re; try reflexivity; cbn [dirty_range]; unfold mix_dirty; destruct (neg _); reflexivity.
Qed.
Lemma dirty_range_ok : forall a b ch re o, pi64 a -> pi64 b -> ax_ok ch -> ax_ok re -> dirty_range a b ch re = Ok o -> o_ok o.
Proof.
  intros a b ch re o Pa Pb A B H. rewrite dirty_range_eq in H. destruct a as [x|i], b as [y|j]; cbn [pi64] in *.
  - destruct (rel_dirty _ _ ch) as [d| |] eqn:R; try discriminate. cbn [rbind] in H. apply Ok_inj in H; subst o.
    apply obind_isect_ok; auto. eapply rel_dirty_ok; [| | | |exact R]; auto using i64_min, i64_max. lia.
  - destruct (mix_dirty _ _ ch) as [d| |] eqn:R; try discriminate. cbn [rbind] in H. apply Ok_inj in H; subst o.
    apply obind_isect_ok; auto. eapply mix_dirty_ok; [|exact R]; auto.
  - destruct (mix_dirty _ _ ch) as [d| |] eqn:R; try discriminate. cbn [rbind] in H. apply Ok_inj in H; subst o.
    apply obind_isect_ok; auto. eapply mix_dirty_ok; [|exact R]; auto.
  - apply Ok_inj in H; subst o. destruct (ax_meets _ _); cbn [o_ok]; auto.
Qed.
Lemma dirty_range_result : forall a b ch re o x, pi64 a -> pi64 b -> ax_ok ch -> ax_ok re -> dirty_range a b ch re = Ok o ->
  x <= umax -> oon o x -> on re x.
Proof.
  intros a b ch re o x Pa Pb A B H X O. rewrite dirty_range_eq in H. destruct a as [u|i], b as [v|j]; cbn [pi64] in *.
  - destruct (rel_dirty _ _ ch) as [d| |] eqn:R; try discriminate. cbn [rbind] in H. apply Ok_inj in H; subst o.
    apply obind_isect_on in O; auto; [tauto|]. eapply rel_dirty_ok; [| | | |exact R]; auto using i64_min, i64_max. lia.
  - destruct (mix_dirty _ _ ch) as [d| |] eqn:R; try discriminate. cbn [rbind] in H. apply Ok_inj in H; subst o.
    apply obind_isect_on in O; auto; [tauto|]. eapply mix_dirty_ok; [|exact R]; auto.
  - destruct (mix_dirty _ _ ch) as [d| |] eqn:R; try discriminate. cbn [rbind] in H. apply Ok_inj in H; subst o.
    apply obind_isect_on in O; auto; [tauto|]. eapply mix_dirty_ok; [|exact R]; auto.
  - apply Ok_inj in H; subst o. destruct (ax_meets _ _); cbn [oon] in O; tauto.
Qed.
Lemma between_sym : forall a b y, between a b y <-> between b a y.
Proof. unfold between. lia. Qed.
Lemma dirty_range_sound : forall a b ch re o x y, pi64 a -> pi64 b -> ax_ok ch -> ax_ok re -> dirty_range a b ch re = Ok o ->
  x <= umax -> y <= umax -> between (at_axis a x) (at_axis b x) y -> on ch y -> on re x -> oon o x.
Proof.
  intros a b ch re o x y Pa Pb A B H X Y E C R. rewrite dirty_range_eq in H. destruct a as [u|i], b as [v|j]; cbn [pi64 at_axis] in *.
  - destruct (rel_dirty _ _ ch) as [d| |] eqn:RD; try discriminate. cbn [rbind] in H. apply Ok_inj in H; subst o.
    apply obind_isect_on; auto.
    + eapply rel_dirty_ok; [| | | |exact RD]; auto using i64_min, i64_max. lia.
    + split; auto. eapply (rel_dirty_sound _ _ ch d x y); [| | | |exact RD| | | |]; auto using i64_min, i64_max; [lia|].
      unfold between in E. lia.
  - destruct (mix_dirty _ _ ch) as [d| |] eqn:RD; try discriminate. cbn [rbind] in H. apply Ok_inj in H; subst o.
    apply obind_isect_on; auto; [eapply mix_dirty_ok; [|exact RD]; auto|]. split; auto. exact (mix_dirty_sound _ _ ch d x y Pa A RD X Y E C).
  - destruct (mix_dirty _ _ ch) as [d| |] eqn:RD; try discriminate. cbn [rbind] in H. apply Ok_inj in H; subst o.
    apply between_sym in E. apply obind_isect_on; auto; [eapply mix_dirty_ok; [|exact RD]; auto|]. split; auto. exact (mix_dirty_sound _ _ ch d x y Pb A RD X Y E C).
  - apply Ok_inj in H; subst o. replace (ax_meets (Sp (N.min i j) (N.max i j)) ch) with true; auto.
    symmetry. apply meets_on; auto; [cbn [ax_ok]; lia|]. exists y. cbn [on]. unfold between in E. repeat split; auto; lia.
Qed.
Lemma dirty_range_exact : forall a b ch re o x, pi64 a -> pi64 b -> ax_ok ch -> ax_ok re -> dirty_range a b ch re = Ok o ->
  x <= umax -> (0 <= at_axis a x <= Z.of_N umax)%Z -> (0 <= at_axis b x <= Z.of_N umax)%Z ->
  (exists x1 y1, x1 <= umax /\ on ch y1 /\ between (at_axis a x1) (at_axis b x1) y1) -> oon o x ->
  exists y, y <= umax /\ between (at_axis a x) (at_axis b x) y /\ on ch y.
Proof.
  intros a b ch re o x Pa Pb A B H X Va Vb HT O. rewrite dirty_range_eq in H. destruct a as [u|i], b as [v|j]; cbn [pi64 at_axis] in *.
  - destruct (rel_dirty _ _ ch) as [d| |] eqn:RD; try discriminate. cbn [rbind] in H. apply Ok_inj in H; subst o.
    apply obind_isect_on in O; [|eapply rel_dirty_ok; [| | | |exact RD]; auto using i64_min, i64_max; lia|auto|lia].
    destruct O as [O _].
    destruct (rel_dirty_exact (Z.min u v) (Z.max u v) ch d x) as (y & Y & E & C); auto using i64_min, i64_max; try lia.
    { destruct HT as (x1 & y1 & X1 & Y1 & E1). exists x1, y1. unfold between in E1. repeat split; auto; lia. }
    exists y. repeat split; auto; unfold between; lia.
  - destruct (mix_dirty _ _ ch) as [d| |] eqn:RD; try discriminate. cbn [rbind] in H. apply Ok_inj in H; subst o.
    apply obind_isect_on in O; [|eapply mix_dirty_ok; [|exact RD]; auto|auto|lia]. destruct O as [O _]. exact (mix_dirty_exact u j ch d x Pa Pb A RD X Va HT O).
  - destruct (mix_dirty _ _ ch) as [d| |] eqn:RD; try discriminate. cbn [rbind] in H. apply Ok_inj in H; subst o.
    apply obind_isect_on in O; [|eapply mix_dirty_ok; [|exact RD]; auto|auto|lia]. destruct O as [O _].
    destruct (mix_dirty_exact v i ch d x) as (y & Y & E & C); auto.
    { destruct HT as (x1 & y1 & X1 & Y1 & E1). exists x1, y1. rewrite between_sym. auto. }
    exists y. rewrite between_sym. auto.
  - apply Ok_inj in H; subst o. destruct (ax_meets _ _) eqn:M; cbn [oon] in O; [|contradiction].
    apply meets_on in M; auto; [|cbn [ax_ok]; lia]. destruct M as (y & Y & M1 & M2). exists y. cbn [on] in M1.
    repeat split; auto; unfold between; lia.
Qed.
