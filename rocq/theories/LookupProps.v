(** C43, C44, C53-C57: wildcards and lookups. *)
From Coq Require Import QArith Qabs Lqa.
From Verif Require Import Base Maps WildModel WildSpec WildProofs LookupModel LookupSpec
  LookupProofs LookupProofs2 LookupProofs3 LookupProofs4.
Close Scope Q_scope.

(** ** C43 wildcards *)

(** The matcher terminates and decides the meaning of the pattern. *)
Theorem C43_wildcard :
  forall lower pattern t, exists b,
    wildcard_pattern_match lower pattern t = Some b /\ (b = true <-> glob (lower pattern) (lower t)).
Proof. exact wildcard_spec. Qed.
Print Assumptions C43_wildcard.

Theorem C43_no_special_characters :
  forall p, plain p -> forall t, glob p t <-> p = t.
Proof. exact glob_plain. Qed.
Print Assumptions C43_no_special_characters.

Theorem C43_escaped_text_matches_only_itself :
  forall s t, exists b, matches_folded (compile (escape s)) t = Some b /\ (b = true <-> s = t).
Proof.
  intros s t. destruct (matches_spec (compile (escape s)) t) as (b & E & B). exists b. split; auto.
  rewrite B, compile_spec. apply glob_escape.
Qed.
Print Assumptions C43_escaped_text_matches_only_itself.

(** What the lookup functions do with a text needle and a text cell. *)
Theorem C43_lookup_text_cell :
  forall lower parse s w c, (plain s -> plain (lower s)) ->
    (matches lower parse (LText s) w (LText c) = true <->
     if w then glob (lower s) (lower c) else lower c = lower s).
Proof. exact matches_text. Qed.
Print Assumptions C43_lookup_text_cell.

(* "*ab*b" against "aabab": needs retries at both stars *)
Example C43_ex :
  matches_folded (compile [42; 97; 98; 42; 98]%N) [97; 97; 98; 97; 98]%N = Some true /\
  matches_folded (compile [42; 97; 98; 42; 99]%N) [97; 97; 98; 97; 98]%N = Some false /\
  matches_folded (compile [126; 42; 63]%N) [42; 120]%N = Some true /\
  matches_folded (compile [126; 42; 63]%N) [97; 120]%N = Some false.
Proof. repeat split; reflexivity. Qed.

(** ** C44 approximate lookup *)

Theorem C44_match_ascending :
  forall lower parse vs needle, clean parse (needle :: vs) -> ascending lower vs needle ->
    exists o, match_range lower parse vs needle 1 = Ok o /\ last_below lower vs needle o.
Proof. exact match_range_asc. Qed.
Print Assumptions C44_match_ascending.

Theorem C44_match_descending :
  forall lower parse vs needle, clean parse (needle :: vs) -> descending lower vs needle ->
    exists o, match_range lower parse vs needle (-1) = Ok o /\ first_equal_or_last_above lower vs needle o.
Proof. exact match_range_desc. Qed.
Print Assumptions C44_match_descending.

Theorem C44_match_unsorted_is_na :
  forall lower parse vs needle, clean parse (needle :: vs) ->
    (~ ascending lower vs needle -> match_range lower parse vs needle 1 = Ok None) /\
    (~ descending lower vs needle -> match_range lower parse vs needle (-1) = Ok None).
Proof.
  intros lower parse vs needle C. split.
  - exact (match_range_unsorted_asc lower parse vs needle C).
  - exact (match_range_unsorted_desc lower parse vs needle C).
Qed.
Print Assumptions C44_match_unsorted_is_na.

(** VLOOKUP, HLOOKUP and MATCH over an array literal. *)
Theorem C44_binary_search_ascending :
  forall lower parse vs needle, clean parse (needle :: vs) -> ascending lower vs needle ->
    exists o, binary_search_match lower parse vs needle 1 = Ok o /\ last_below lower vs needle o.
Proof. exact match_array_asc. Qed.
Print Assumptions C44_binary_search_ascending.

(** LOOKUP, when every entry is of the needle's kind. *)
Theorem C44_lookup_ascending :
  forall lower parse vs needle, clean parse (needle :: vs) ->
    (forall i, i < length vs -> exists k, cand lower vs needle i k) ->
    ascending lower vs needle ->
    exists o, approx_match_ascending lower parse vs needle = Ok o /\ last_below lower vs needle o.
Proof. exact approx_ascending. Qed.
Print Assumptions C44_lookup_ascending.

(** XMATCH, next smaller and next larger, from either end, sorted or not. *)
Theorem C44_xmatch_closest :
  forall lower parse vs needle n, clean parse (needle :: vs) -> numv needle = Some n ->
    forall first : bool,
    (exists o, xmatch lower parse vs needle (-1) (if first then 1 else -1) = xopt o /\ closest_below vs n first o) /\
    (exists o, xmatch lower parse vs needle 1 (if first then 1 else -1) = xopt o /\ closest_above vs n first o).
Proof.
  intros lower parse vs needle n C Hn first. split.
  - exact (xmatch_approx lower parse vs needle n C Hn true first).
  - exact (xmatch_approx lower parse vs needle n C Hn false first).
Qed.
Print Assumptions C44_xmatch_closest.

Theorem C44_xlookup_closest :
  forall lower parse vs needle n, clean parse (needle :: vs) -> numv needle = Some n -> ascending_numbers vs ->
    (exists o, xlookup lower parse vs needle (-1) 1 = xopt o /\ closest_below vs n true o) /\
    (exists o, xlookup lower parse vs needle 1 1 = xopt o /\ closest_above vs n true o).
Proof.
  intros lower parse vs needle n C Hn A. split.
  - exact (xlookup_approx lower parse vs needle n C Hn A true).
  - exact (xlookup_approx lower parse vs needle n C Hn A false).
Qed.
Print Assumptions C44_xlookup_closest.

(* {header, 1, blank, 3, 3, 7} with needle 5: position 4 (0-based) *)
Definition ex_vs : list lval := [LText [104%N]; LInt 1; LEmpty; LInt 3; LNum (Fin 3%Q); LInt 7].
Example C44_ex_data : clean (fun _ => None) (LInt 5 :: ex_vs) /\ ascending (fun t => t) ex_vs (LInt 5).
Proof.
  split; [split|].
  - intros v [<-|[<-|[<-|[<-|[<-|[<-|[<-|[]]]]]]]]; cbn; auto. exists 3%Q. reflexivity.
  - intros u v a b Hu Hv Ha Hb.
    repeat (destruct Hu as [<-|Hu]; [cbn in Ha; try discriminate; inversion Ha; subst a; clear Ha;
      repeat (destruct Hv as [<-|Hv]; [cbn in Hb; try discriminate; inversion Hb; subst b; clear Hb;
        (left; vm_compute; reflexivity) || (right; vm_compute; discriminate)|]); destruct Hv|]). destruct Hu.
  - intros i j a b L (v & kn & Hi & NE & Ka & KN & SC) (w & kn' & Hj & NE' & Kb & _ & _).
    cbn in KN. inversion KN; subst kn.
    do 6 (destruct i as [|i]; [cbn in Hi; inversion Hi; subst v; cbn in Ka; inversion Ka; subst a; cbn in SC; try contradiction; try congruence;
      do 6 (destruct j as [|j]; [cbn in Hj; inversion Hj; subst w; cbn in Kb; inversion Kb; subst b; try lia; try congruence; constructor; vm_compute; discriminate|]); destruct j; discriminate|]).
    destruct i; discriminate.
Qed.
Example C44_ex :
  match_range (fun t => t) (fun _ => None) ex_vs (LInt 5) 1 = Ok (Some 4) /\
  match_range (fun t => t) (fun _ => None) (rev ex_vs) (LInt 5) (-1) = Ok (Some 0) /\
  xmatch (fun t => t) (fun _ => None) ex_vs (LInt 5) (-1) 1 = XPos 3 /\
  xmatch (fun t => t) (fun _ => None) ex_vs (LInt 5) (-1) (-1) = XPos 4 /\
  xmatch (fun t => t) (fun _ => None) ex_vs (LInt 5) 1 1 = XPos 5.
Proof. repeat split; reflexivity. Qed.

(** A text needle never finds its neighbour in XMATCH. *)
Theorem C44_xmatch_text_neighbour_refuted :
  exists vs needle, forall lower parse, parse [98%N] = None -> parse [97%N] = None -> parse [99%N] = None ->
    (forall t, lower t = t) ->
    clean parse (needle :: vs) /\ ascending lower vs needle /\
    (exists k, cand lower vs needle 0 k /\ below lower needle k) /\
    xmatch lower parse vs needle (-1) 1 = XNa.
Proof.
  exists [LText [97%N]; LText [99%N]], (LText [98%N]). intros lower parse Pb Pa Pc Low. split; [split|split; [|split]].
  - intros v [<-|[<-|[<-|[]]]]; cbn; auto.
  - intros u v a b [<-|[<-|[<-|[]]]] _ Ha; discriminate.
  - intros i j a b L (v & kn & Hi & _ & Ka & _) (w & kn' & Hj & _ & Kb & _).
    destruct i as [|[|i]]; destruct j as [|[|j]]; try lia; try (destruct i; discriminate); try (destruct j; discriminate).
    cbn in Hi, Hj. inversion Hi; subst v. inversion Hj; subst w. cbn in Ka, Kb. rewrite Low in *. inversion Ka; inversion Kb.
    apply kle_text_lt. constructor. reflexivity.
  - exists (KText [97%N]). split.
    + exists (LText [97%N]), (KText [98%N]). cbn. rewrite !Low. repeat split; auto. discriminate.
    + exists (KText [98%N]). cbn. rewrite Low. split; auto. apply kle_text_lt. constructor. reflexivity.
  - apply (xmatch_text lower parse _ _ Pb) with (smaller := true) (first := true).
    intros c [<-|[<-|[]]]; unfold cmp_for_lookup; cbn [value_to_f64_lenient]; rewrite ?Pa, ?Pc, ?Pb, !Low; reflexivity.
Qed.
Print Assumptions C44_xmatch_text_neighbour_refuted.

(** In general: a text needle that does not read as a number and occurs nowhere
    has no approximate match at all. *)
Theorem C44_xmatch_text_only_exact :
  forall lower parse vs s, parse s = None ->
    (forall c, In c vs -> is_eq (cmp_for_lookup lower parse c (LText s)) = false) ->
    forall smaller first : bool,
      xmatch lower parse vs (LText s) (if smaller then -1 else 1) (if first then 1 else -1) = XNa.
Proof. exact xmatch_text. Qed.
Print Assumptions C44_xmatch_text_only_exact.

(** ** C53 the comparison is a consistent order *)

(** On clean data it is the order of the keys. *)
Theorem C53_clean_order :
  forall lower parse l, clean parse l -> forall u v a b, In u l -> In v l ->
    key_of lower u = Some a -> key_of lower v = Some b ->
    (is_le (cmp_for_lookup lower parse u v) = true <-> key_le a b) /\
    (cmp_for_lookup lower parse u v = Some Eq <-> key_le a b /\ key_le b a) /\
    (cmp_for_lookup lower parse u v = None <-> ~ same_class a b).
Proof.
  intros lower parse l C u v a b Iu Iv Ka Kb. rewrite (cmp_key lower parse l C u v Iu Iv), Ka, Kb.
  split; [apply kcmp_le|split; [apply kcmp_eq|apply kcmp_none]].
Qed.
Print Assumptions C53_clean_order.

Theorem C53_clean_transitive :
  forall lower parse l, clean parse l -> forall u v w, In u l -> In v l -> In w l ->
    is_le (cmp_for_lookup lower parse u v) = true -> is_le (cmp_for_lookup lower parse v w) = true ->
    is_le (cmp_for_lookup lower parse u w) = true.
Proof.
  intros lower parse l C u v w Iu Iv Iw. rewrite !(cmp_key lower parse l C) by auto.
  destruct (key_of lower u) as [a|]; [|discriminate]. destruct (key_of lower v) as [b|]; [|discriminate].
  destruct (key_of lower w) as [c|]; [|discriminate]. rewrite !kcmp_le. apply key_le_trans.
Qed.
Print Assumptions C53_clean_transitive.

(** "2" < "10" (as numbers), "10" < "1a" and "1a" < "2" (as text). *)
Theorem C53_text_cycle_refuted :
  exists a b c, forall lower parse,
    (forall t, lower t = t) -> parse [50%N] = Some (Fin 2%Q) -> parse [49%N; 48%N] = Some (Fin 10%Q) ->
    parse [49%N; 97%N] = None ->
    cmp_for_lookup lower parse a b = Some Lt /\ cmp_for_lookup lower parse b c = Some Lt /\
    cmp_for_lookup lower parse c a = Some Lt.
Proof.
  exists (LText [50%N]), (LText [49%N; 48%N]), (LText [49%N; 97%N]). intros lower parse Low P1 P2 P3.
  unfold cmp_for_lookup. cbn [value_to_f64_lenient]. rewrite P1, P2, P3, !Low. repeat split; reflexivity.
Qed.
Print Assumptions C53_text_cycle_refuted.

(** A text that reads as infinity or not-a-number is not equal to itself, so an
    approximate MATCH for it misses the very cell that holds it. *)
Theorem C53_reflexive_refuted :
  exists v, forall lower parse, parse [105%N; 110%N; 102%N] = Some PInf ->
    cmp_for_lookup lower parse v v = Some Gt /\ match_range lower parse [v] v 1 = Ok None.
Proof.
  exists (LText [105%N; 110%N; 102%N]). intros lower parse P.
  assert (E : cmp_for_lookup lower parse (LText [105; 110; 102]%N) (LText [105; 110; 102]%N) = Some Gt)
    by (unfold cmp_for_lookup; cbn [value_to_f64_lenient]; rewrite P; reflexivity).
  split; [exact E|]. unfold match_range, searched_new. cbn [position is_searchable]. rewrite E. cbn [negb option_map].
  unfold sorted_by, sv_len. cbn [sv_positions sv_values length Z.eqb Pos.eqb Nat.sub seq forallb negb Nat.ltb Nat.leb rbind].
  cbn [linear_asc]. unfold cmp_at, sv_get, original_position. cbn [sv_positions sv_values nth_error]. rewrite E. reflexivity.
Qed.
Print Assumptions C53_reflexive_refuted.

(** Numbers closer than the tolerance are equal without this being transitive. *)
Theorem C53_equality_not_transitive_refuted :
  exists a b c, forall lower parse,
    cmp_for_lookup lower parse a b = Some Eq /\ cmp_for_lookup lower parse b c = Some Eq /\
    cmp_for_lookup lower parse a c = Some Lt.
Proof.
  exists (LNum (Fin 0%Q)), (LNum (Fin (6 # 10000000000000)%Q)), (LNum (Fin (12 # 10000000000000)%Q)).
  intros lower parse. repeat split; reflexivity.
Qed.
Print Assumptions C53_equality_not_transitive_refuted.

(** ** C54 a repeated exact lookup gives the same answer *)

(** The index built on the fourth lookup of a range agrees with the scan used
    before, on clean data; a time of zero must not meet blank cells. *)
Theorem C54_index_agrees :
  forall lower parse vs needle entries,
    clean parse (needle :: vs) -> index_build lower vs = Some entries ->
    (forall e, needle <> LErr e) -> (forall q, needle = LSerial q -> ~ (q == 0)%Q \/ ~ In LEmpty vs) ->
    find_exact_index_in_view lower vs needle false = Ok (find_first_exact lower parse entries vs needle).
Proof. exact index_agrees. Qed.
Print Assumptions C54_index_agrees.

Example C54_ex :
  clean (fun _ => None) [LInt 3; LText [97%N]; LInt 3; LEmpty] /\
  exists e, index_build (fun t => t) [LText [97%N]; LInt 3; LEmpty] = Some e /\
    find_first_exact (fun t => t) (fun _ => None) e [LText [97%N]; LInt 3; LEmpty] (LInt 3) = Some 1.
Proof.
  split; [split|].
  - intros v [<-|[<-|[<-|[<-|[]]]]]; cbn; auto.
  - intros u v a b Hu Hv Ha Hb.
    repeat (destruct Hu as [<-|Hu]; [cbn in Ha; try discriminate; inversion Ha; subst a; clear Ha;
      repeat (destruct Hv as [<-|Hv]; [cbn in Hb; try discriminate; inversion Hb; subst b; clear Hb;
        (left; vm_compute; reflexivity) || (right; vm_compute; discriminate)|]); destruct Hv|]). destruct Hu.
  - eexists. split; reflexivity.
Qed.

(** Numbers within the tolerance: found by the scan, not by the index. *)
Theorem C54_tolerance_refuted :
  exists vs needle, forall lower parse, exists entries,
    index_build lower vs = Some entries /\
    find_exact_index_in_view lower vs needle false = Ok (Some 0) /\
    find_first_exact lower parse entries vs needle = None.
Proof.
  exists [LNum (Fin (1 # 10)%Q)], (LNum (Fin (1000000000005 # 10000000000000)%Q)). intros lower parse.
  eexists. repeat split; reflexivity.
Qed.
Print Assumptions C54_tolerance_refuted.

(** Midnight against a blank cell. *)
Theorem C54_midnight_refuted :
  exists vs needle, forall lower parse, exists entries,
    clean parse (needle :: vs) /\ index_build lower vs = Some entries /\
    find_exact_index_in_view lower vs needle false = Ok (Some 0) /\
    find_first_exact lower parse entries vs needle = None.
Proof.
  exists [LEmpty], (LSerial 0%Q). intros lower parse. eexists. split; [split|].
  - intros v [<-|[<-|[]]]; exact I.
  - intros u v a b [<-|[<-|[]]] [<-|[<-|[]]] Ha Hb; inversion Ha; inversion Hb; left; reflexivity.
  - repeat split; reflexivity.
Qed.
Print Assumptions C54_midnight_refuted.

(** The text "inf". *)
Theorem C54_inf_text_refuted :
  exists vs needle, forall lower parse, parse [105%N; 110%N; 102%N] = Some PInf -> exists entries,
    index_build lower vs = Some entries /\
    find_exact_index_in_view lower vs needle false = Ok (Some 0) /\
    find_first_exact lower parse entries vs needle = None.
Proof.
  exists [LText [105%N; 110%N; 102%N]], (LText [105%N; 110%N; 102%N]). intros lower parse P. eexists. split; [reflexivity|]. split.
  - cbn [find_exact_index_in_view]. unfold find_exact_text. cbn [andb position].
    now rewrite (proj2 (text_eqb_spec _ _) eq_refl).
  - unfold find_first_exact. cbn [key_of_literal index_entries mget mput mdel filter hkey_eqb app].
    rewrite (proj2 (text_eqb_spec _ _) eq_refl). cbn [find nth_error]. unfold cmp_for_lookup. cbn [value_to_f64_lenient]. rewrite P. reflexivity.
Qed.
Print Assumptions C54_inf_text_refuted.

(** ** C55 exact search from either end *)

(** For a text that does not read as a number: forwards gives the first match,
    backwards the last, of the same test. *)
Theorem C55_text_both_directions :
  forall lower parse vs s (w : bool), parse s = None ->
    xmatch lower parse vs (LText s) (if w then 2 else 0) 1 = xopt (find_exact_index lower parse vs (LText s) w) /\
    xmatch lower parse vs (LText s) (if w then 2 else 0) (-1) = xopt (find_last lower parse (LText s) w vs) /\
    (find_exact_index lower parse vs (LText s) w = None <-> find_last lower parse (LText s) w vs = None).
Proof.
  intros lower parse vs s w P. split; [|split].
  - unfold xmatch. destruct w; cbn [Z.eqb Pos.eqb orb]; rewrite (text_view_eq lower parse vs s _ P); reflexivity.
  - unfold xmatch. destruct w; reflexivity.
  - unfold find_exact_index, find_last. rewrite (position_rev _ vs). destruct (position _ (rev vs)); split; intros X; try discriminate; auto.
Qed.
Print Assumptions C55_text_both_directions.

Theorem C55_last_match :
  forall lower parse needle w vs,
  match find_last lower parse needle w vs with
  | Some i => (exists v, nth_error vs i = Some v /\ matches lower parse needle w v = true) /\
              (forall j v, i < j -> nth_error vs j = Some v -> matches lower parse needle w v = false)
  | None => forall j v, nth_error vs j = Some v -> matches lower parse needle w v = false
  end.
Proof. exact find_last_spec. Qed.
Print Assumptions C55_last_match.

(** The number 1 is found in {TRUE} backwards but not forwards. *)
Theorem C55_number_directions_refuted :
  exists vs needle, forall lower parse,
    clean parse (needle :: vs) /\
    xmatch lower parse vs needle 0 1 = XNa /\ xmatch lower parse vs needle 0 (-1) = XPos 0.
Proof.
  exists [LBool true], (LInt 1). intros lower parse. split; [split|].
  - intros v [<-|[<-|[]]]; exact I.
  - intros u v a b [<-|[<-|[]]] [<-|[<-|[]]] Ha Hb; inversion Ha; inversion Hb; left; reflexivity.
  - split; reflexivity.
Qed.
Print Assumptions C55_number_directions_refuted.

(** ** C56 an error in the searched vector is reported *)
Theorem C56_error_reported_refuted :
  exists vs needle e, In (LErr e) vs /\ forall lower parse,
    binary_search_match lower parse vs needle 1 = Ok (Some 1) /\ match_range lower parse vs needle 1 = Ok (Some 1).
Proof.
  exists [LErr 7%N; LInt 1], (LInt 1), 7%N. split; [now left|]. intros lower parse. split; reflexivity.
Qed.
Print Assumptions C56_error_reported_refuted.

(** What does hold: an error is never selected. *)
Theorem C56_error_never_selected :
  forall lower parse vs needle i, clean parse (needle :: vs) -> ascending lower vs needle ->
    match_range lower parse vs needle 1 = Ok (Some i) -> forall e, nth_error vs i <> Some (LErr e).
Proof.
  intros lower parse vs needle i C A H e E. destruct (match_range_asc lower parse vs needle C A) as (o & H' & L).
  rewrite H in H'. inversion H'; subst o. destruct L as [(k & (v & kn & Hv & _ & K & _) & _) _].
  rewrite E in Hv. inversion Hv; subst v. discriminate.
Qed.
Print Assumptions C56_error_never_selected.

(** ** C57 MATCH over an array literal and over a range *)
Theorem C57_same_on_sorted :
  forall lower parse vs needle, clean parse (needle :: vs) -> ascending lower vs needle ->
    match_array lower parse vs needle 1 = match_range lower parse vs needle 1.
Proof.
  intros lower parse vs needle C A.
  destruct (match_range_asc lower parse vs needle C A) as (o & E & L).
  destruct (match_array_asc lower parse vs needle C A) as (o' & E' & L'). rewrite E, E'. f_equal.
  destruct o as [i|], o' as [j|]; cbn in L, L'; auto.
  - f_equal. destruct L as [(k & Ck & Bk) M], L' as [(k' & Ck' & Bk') M']. specialize (M j k' Ck' Bk'). specialize (M' i k Ck Bk). lia.
  - destruct L as [(k & Ck & Bk) _]. exfalso. exact (L' i k Ck Bk).
  - destruct L' as [(k & Ck & Bk) _]. exfalso. exact (L j k Ck Bk).
Qed.
Print Assumptions C57_same_on_sorted.

Theorem C57_unsorted_refuted :
  exists vs needle, forall lower parse,
    clean parse (needle :: vs) /\
    match_range lower parse vs needle 1 = Ok None /\ match_array lower parse vs needle 1 = Ok (Some 1).
Proof.
  exists [LInt 3; LInt 1], (LInt 2). intros lower parse. split; [split|].
  - intros v [<-|[<-|[<-|[]]]]; exact I.
  - intros u v a b [<-|[<-|[<-|[]]]] [<-|[<-|[<-|[]]]] Ha Hb; inversion Ha; inversion Hb; try (left; reflexivity); right; vm_compute; discriminate.
  - split; reflexivity.
Qed.
Print Assumptions C57_unsorted_refuted.
