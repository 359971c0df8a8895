(** What reference adjustment ought to do, in terms of the cells a reference denotes.
    Positions are (sheet, row, column), counted from 0; the bounds written in a
    reference count from 1. *)
From Verif Require Import Base Maps RefModel.
Open Scope N_scope.

Definition pos : Type := N * N * N.

Definition in_axis (s e : option N) (i : N) : Prop :=
  match s with Some s => s <= i + 1 | None => True end /\
  match e with Some e => i + 1 <= e | None => True end.

Section Spec.
  Variable get_id : text -> option N.

  Definition sheet_of (f : N) (s : option text) : option N :=
    match s with Some n => get_id n | None => Some f end.

  (** [refers f r k]: written in a formula on sheet [f], [r] denotes a region containing [k]. *)
  Definition refers (f : N) (r : refty) (k : pos) : Prop :=
    let '(s, row, col) := k in
    match r with
    | RCell c => sheet_of f (c_sheet c) = Some s /\ c_row c = row + 1 /\ c_col c = col + 1
    | RRange g => sheet_of f (r_sheet g) = Some s
                  /\ in_axis (r_sr g) (r_er g) row /\ in_axis (r_sc g) (r_ec g) col
    | ROther _ => False
    end.

  (** Where the structural edit takes the line [i] of the edited axis. *)
  Definition pushed (op : shift_op) (i : N) : option N :=
    match o_kind op with
    | Insert => Some (if i <? o_at op then i else i + o_count op)
    | Delete => if i <? o_at op then Some i
                else if i <? o_at op + o_count op then None
                else Some (i - o_count op)
    end.

  (** Where it takes a cell; [None]: the cell is deleted. *)
  Definition goes (op : shift_op) (k : pos) : option pos :=
    let '(s, row, col) := k in
    if s =? o_sheet op then
      match o_axis op with
      | Rows => match pushed op row with Some row' => Some (s, row', col) | None => None end
      | Cols => match pushed op col with Some col' => Some (s, row, col') | None => None end
      end
    else Some k.

  (** [r'] denotes what [r] denoted, at its new place. *)
  Definition same_cells (op : shift_op) (f : N) (r r' : refty) : Prop :=
    forall k k', goes op k = Some k' -> (refers f r' k' <-> refers f r k).

  (** The sheet name and the dollar signs are as they were. *)
  Definition same_dress (r r' : refty) : Prop :=
    match r, r' with
    | RCell c, RCell c' => c_sheet c' = c_sheet c /\ c_rabs c' = c_rabs c /\ c_cabs c' = c_cabs c
    | RRange g, RRange g' =>
        r_sheet g' = r_sheet g /\ r_sra g' = r_sra g /\ r_sca g' = r_sca g
        /\ r_era g' = r_era g /\ r_eca g' = r_eca g
    | ROther t, ROther t' => t' = t
    | _, _ => False
    end.

  (** A reference to another sheet, or to no cells at all. *)
  Definition off_sheet (op : shift_op) (f : N) (r : refty) : Prop :=
    match r with
    | RCell c => sheet_of f (c_sheet c) <> Some (o_sheet op)
    | RRange g => sheet_of f (r_sheet g) <> Some (o_sheet op)
    | ROther _ => True
    end.

  (** A region may not swallow new blank cells at its edge: a cell of the new region that
      no old cell went to lies strictly inside, after the image of the old first line. *)
  Definition lines (op : shift_op) (r : refty) : option N * option N :=
    match r with
    | RCell c => match o_axis op with
                 | Rows => (Some (c_row c), Some (c_row c))
                 | Cols => (Some (c_col c), Some (c_col c))
                 end
    | RRange g => match o_axis op with Rows => (r_sr g, r_er g) | Cols => (r_sc g, r_ec g) end
    | ROther _ => (None, None)
    end.
  Definition edge_image (op : shift_op) (b b' : option N) : Prop :=
    match b with
    | None => b' = None
    | Some v => exists v', pushed op (v - 1) = Some v' /\ b' = Some (v' + 1)
    end.
  Definition edges_follow (op : shift_op) (f : N) (r r' : refty) : Prop :=
    ~ off_sheet op f r ->
    edge_image op (fst (lines op r)) (fst (lines op r'))
    /\ edge_image op (snd (lines op r)) (snd (lines op r')).

  Definition kept_by_insert (op : shift_op) (f : N) (r : refty) (a : ast) : Prop :=
    exists r', a = ARef r' /\ same_dress r r' /\ same_cells op f r r' /\ edges_follow op f r r'
               /\ (off_sheet op f r -> r' = r).

  Definition all_gone (op : shift_op) (f : N) (r : refty) : Prop :=
    (exists k, refers f r k) /\ (forall k, refers f r k -> goes op k = None).

  Definition kept_by_delete (op : shift_op) (f : N) (r : refty) (a : ast) : Prop :=
    (all_gone op f r /\ a = ALit LRef)
    \/ (~ all_gone op f r
        /\ exists r', a = ARef r' /\ same_dress r r' /\ same_cells op f r r'
                      /\ (off_sheet op f r -> r' = r)).

  (** * Trees *)
  (** [lift P a a']: the same tree, except that each reference [r] was replaced by a
      subtree [b] with [P r b]. *)
  Inductive lift (P : refty -> ast -> Prop) : ast -> ast -> Prop :=
  | lift_lit : forall l, lift P (ALit l) (ALit l)
  | lift_omit : lift P AOmitted AOmitted
  | lift_ref : forall r b, P r b -> lift P (ARef r) b
  | lift_un : forall o e e', lift P e e' -> lift P (AUnary o e) (AUnary o e')
  | lift_bin : forall o l r l' r', lift P l l' -> lift P r r' -> lift P (ABinary o l r) (ABinary o l' r')
  | lift_fun : forall n l l', Forall2 (lift P) l l' -> lift P (AFunction n l) (AFunction n l')
  | lift_call : forall c c' l l', lift P c c' -> Forall2 (lift P) l l' -> lift P (ACall c l) (ACall c' l')
  | lift_arr : forall l l', Forall2 (Forall2 (lift P)) l l' -> lift P (AArray l) (AArray l').

  (** Every reference of the tree satisfies [Q]. *)
  Inductive every (Q : refty -> Prop) : ast -> Prop :=
  | ev_lit : forall l, every Q (ALit l)
  | ev_omit : every Q AOmitted
  | ev_ref : forall r, Q r -> every Q (ARef r)
  | ev_un : forall o e, every Q e -> every Q (AUnary o e)
  | ev_bin : forall o l r, every Q l -> every Q r -> every Q (ABinary o l r)
  | ev_fun : forall n l, Forall (every Q) l -> every Q (AFunction n l)
  | ev_call : forall c l, every Q c -> Forall (every Q) l -> every Q (ACall c l)
  | ev_arr : forall l, Forall (Forall (every Q)) l -> every Q (AArray l).

  (** Trees without lambda calls, and without calls or array literals. *)
  Inductive callfree : ast -> Prop :=
  | cf_lit : forall l, callfree (ALit l)
  | cf_omit : callfree AOmitted
  | cf_ref : forall r, callfree (ARef r)
  | cf_un : forall o e, callfree e -> callfree (AUnary o e)
  | cf_bin : forall o l r, callfree l -> callfree r -> callfree (ABinary o l r)
  | cf_fun : forall n l, Forall callfree l -> callfree (AFunction n l)
  | cf_arr : forall l, Forall (Forall callfree) l -> callfree (AArray l).
  Inductive plain : ast -> Prop :=
  | pl_lit : forall l, plain (ALit l)
  | pl_omit : plain AOmitted
  | pl_ref : forall r, plain (ARef r)
  | pl_un : forall o e, plain e -> plain (AUnary o e)
  | pl_bin : forall o l r, plain l -> plain r -> plain (ABinary o l r)
  | pl_fun : forall n l, Forall plain l -> plain (AFunction n l).

  (** * Well-formed references *)
  Definition bound_ok (mx : N) (b : option N) : Prop :=
    match b with Some v => 1 <= v <= mx + 1 | None => True end.
  Definition ord_ok (s e : option N) : Prop :=
    match s, e with Some s, Some e => s <= e | _, _ => True end.

  (** A reference the parser can produce from a formula text, with its corners in order. *)
  Definition on_sheet (r : refty) : Prop :=
    match r with
    | RCell c => 1 <= c_row c <= ROW_MAX + 1 /\ 1 <= c_col c <= COL_MAX + 1
    | RRange g => bound_ok ROW_MAX (r_sr g) /\ bound_ok ROW_MAX (r_er g)
                  /\ bound_ok COL_MAX (r_sc g) /\ bound_ok COL_MAX (r_ec g)
                  /\ ord_ok (r_sr g) (r_er g) /\ ord_ok (r_sc g) (r_ec g)
    | ROther _ => True
    end.

  (** A range bounded at both ends of the edited axis. *)
  Definition bounded (ax : axis) (r : refty) : Prop :=
    match r with
    | RRange g => match ax with
                  | Rows => r_sr g <> None /\ r_er g <> None
                  | Cols => r_sc g <> None /\ r_ec g <> None
                  end
    | _ => True
    end.

  (** The edit does not push the referenced cell off the sheet. *)
  Definition room (op : shift_op) (r : refty) : Prop :=
    match r with
    | RCell c => match o_axis op with
                 | Rows => c_row c + o_count op <= ROW_MAX + 1
                 | Cols => c_col c + o_count op <= COL_MAX + 1
                 end
    | _ => True
    end.

  (** * Copying *)
  Definition shifted_index (mx : N) (abs : bool) (off : Z) (i : N) : option N :=
    if abs then Some i
    else let j := (Z.of_N i + off)%Z in
         if (1 <=? j)%Z && (j <=? Z.of_N mx + 1)%Z then Some (Z.to_N j) else None.
  Definition shifted_bound (mx : N) (abs : bool) (off : Z) (b : option N) : option (option N) :=
    match b with
    | None => Some None
    | Some i => match shifted_index mx abs off i with Some j => Some (Some j) | None => None end
    end.
  Definition copied (ro co : Z) (r : refty) (a : ast) : Prop :=
    match r with
    | RCell c =>
        match shifted_index ROW_MAX (c_rabs c) ro (c_row c), shifted_index COL_MAX (c_cabs c) co (c_col c) with
        | Some i, Some j => a = ARef (RCell (mkCell (c_sheet c) i j (c_rabs c) (c_cabs c)))
        | _, _ => a = ALit LRef
        end
    | RRange g =>
        match shifted_bound ROW_MAX (r_sra g) ro (r_sr g), shifted_bound COL_MAX (r_sca g) co (r_sc g),
              shifted_bound ROW_MAX (r_era g) ro (r_er g), shifted_bound COL_MAX (r_eca g) co (r_ec g) with
        | Some sr, Some sc, Some er, Some ec =>
            exists g', a = ARef (RRange g') /\ r_sheet g' = r_sheet g
                       /\ r_sr g' = sr /\ r_sc g' = sc /\ r_er g' = er /\ r_ec g' = ec
                       /\ (sr <> None -> r_sra g' = r_sra g) /\ (sc <> None -> r_sca g' = r_sca g)
                       /\ (er <> None -> r_era g' = r_era g) /\ (ec <> None -> r_eca g' = r_eca g)
        | _, _, _, _ => a = ALit LRef
        end
    | ROther t => a = ARef r
    end.

  (** The shifted reference is still on the sheet. *)
  Definition stays (ro co : Z) (r : refty) : Prop :=
    match r with
    | RCell c => shifted_index ROW_MAX (c_rabs c) ro (c_row c) <> None
                 /\ shifted_index COL_MAX (c_cabs c) co (c_col c) <> None
    | RRange g => shifted_bound ROW_MAX (r_sra g) ro (r_sr g) <> None
                  /\ shifted_bound COL_MAX (r_sca g) co (r_sc g) <> None
                  /\ shifted_bound ROW_MAX (r_era g) ro (r_er g) <> None
                  /\ shifted_bound COL_MAX (r_eca g) co (r_ec g) <> None
    | ROther _ => True
    end.

  Definition absolute (r : refty) : Prop :=
    match r with
    | RCell c => c_rabs c = true /\ c_cabs c = true
    | RRange g => r_sra g = true /\ r_sca g = true /\ r_era g = true /\ r_eca g = true
                  /\ r_sr g <> None /\ r_sc g <> None /\ r_er g <> None /\ r_ec g <> None
    | ROther _ => True
    end.

  (** * Moving *)
  Definition in_block (m : move) (k : pos) : Prop :=
    let '(s, row, col) := k in
    s = v_from m /\ v_r0 m <= row <= v_r1 m /\ v_c0 m <= col <= v_c1 m.
  Definition carried (m : move) (k : pos) : pos :=
    let '(s, row, col) := k in
    (v_to m, Z.to_N (Z.of_N row + v_ro m), Z.to_N (Z.of_N col + v_co m)).
  Definition inside (m : move) (f : N) (r : refty) : Prop :=
    (exists k, refers f r k) /\ (forall k, refers f r k -> in_block m k).
  Definition redirected (m : move) (f : N) (r : refty) (a : ast) : Prop :=
    (inside m f r -> exists r', a = ARef r'
        /\ forall k', refers f r' k' <-> exists k, refers f r k /\ k' = carried m k)
    /\ (~ inside m f r -> a = ARef r).

  (** The move describes an existing block and destination of the workbook. *)
  Definition good_move (m : move) : Prop :=
    get_id (v_from_name m) = Some (v_from m) /\ get_id (v_to_name m) = Some (v_to m)
    /\ (0 <= Z.of_N (v_r0 m) + v_ro m)%Z /\ (0 <= Z.of_N (v_c0 m) + v_co m)%Z
    /\ (Z.of_N (v_r1 m) + v_ro m <= Z.of_N ROW_MAX)%Z
    /\ (Z.of_N (v_c1 m) + v_co m <= Z.of_N COL_MAX)%Z.

  (** A reference to the source sheet is spelled as the sheet is. *)
  Definition spelled (m : move) (r : refty) : Prop :=
    match r with
    | RCell c => forall n, c_sheet c = Some n -> get_id n = Some (v_from m) -> n = v_from_name m
    | RRange g => forall n, r_sheet g = Some n -> get_id n = Some (v_from m) -> n = v_from_name m
    | ROther _ => True
    end.

  (** What moving a cell should do to the formula inside it: references into the block
      follow the block, every other reference denotes the cells it denoted. *)
  Definition carried_along (m : move) (r : refty) (a : ast) : Prop :=
    exists r', a = ARef r'
      /\ forall k', refers (v_to m) r' k' <->
           exists k, refers (v_from m) r k
                     /\ ((in_block m k /\ inside m (v_from m) r /\ k' = carried m k)
                         \/ (~ inside m (v_from m) r /\ k' = k)).

  (** * Names *)
  Definition name_refers (d : named) (k : pos) : Prop :=
    let '(s, row, col) := k in
    match d with
    | NCell c => s = k_sheet c /\ row = k_row c /\ col = k_col c
    | NRange a b => s = k_sheet a /\ k_row a <= row <= k_row b /\ k_col a <= col <= k_col b
    | _ => False
    end.
  Definition name_ok (d : named) : Prop :=
    match d with
    | NCell c => k_row c <= ROW_MAX /\ k_col c <= COL_MAX
    | NRange a b => k_sheet b = k_sheet a /\ k_row a <= k_row b <= ROW_MAX /\ k_col a <= k_col b <= COL_MAX
    | _ => True
    end.
  Definition name_kept (op : shift_op) (d d' : named) : Prop :=
    (forall k, name_refers d k -> goes op k = None) /\ d' = NFormula (ALit LRef)
    \/ (exists k k', name_refers d k /\ goes op k = Some k')
       /\ forall k k', goes op k = Some k' -> (name_refers d' k' <-> name_refers d k).
End Spec.

(** A range open below whose last line is deleted. *)
Definition tail_cut (op : shift_op) (r : refty) : Prop :=
  match r with
  | RRange g =>
      let '(s, e) := match o_axis op with Rows => (r_sr g, r_er g) | Cols => (r_sc g, r_ec g) end in
      match s, e with
      | None, Some e => o_at op <= e - 1 < o_at op + o_count op
      | _, _ => False
      end
  | _ => False
  end.

(** A range with a last line on an axis has a first one. *)
Definition headed (r : refty) : Prop :=
  match r with
  | RRange g => (r_sr g = None -> r_er g = None) /\ (r_sc g = None -> r_ec g = None)
  | _ => True
  end.
