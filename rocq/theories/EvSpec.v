(** What the claims about evaluation say. *)
From Verif Require Import Base Maps LookupModel BcastModel EvModel.

Section Spec.
  Variable W : world.
  Let T := T W.

  (** ** Names that occur free in a formula *)
  (** LET and LAMBDA are recognised by what their names are registered as.  A name
      counts in upper case. *)
  Fixpoint occurs (k : text) (e : expr T) : bool :=
    let in_let := fix go (l : list (expr T)) : bool :=
      match l with
      | [] => false
      | [b] => occurs k b
      | x :: a :: rest =>
          match local_name W x with
          | Some n => occurs k a || (negb (text_eqb k (norm n)) && go rest)
          | None => false
          end
      end in
    let in_lambda := fix go (l : list (expr T)) : bool :=
      match l with
      | [] => false
      | [b] => occurs k b
      | x :: rest =>
          match local_name W x with
          | Some n => negb (text_eqb k (norm n)) && go rest
          | None => false
          end
      end in
    match e with
    | ERef (RName n) => text_eqb k (norm n)
    | EUn _ a => occurs k a
    | EBin _ a b => occurs k a || occurs k b
    | EFun name args =>
        match w_fn W name with
        | Some FLet => in_let args
        | Some FLambda => in_lambda args
        | Some (FPrim _) => existsb (occurs k) args
        | None => text_eqb k (norm name) || existsb (occurs k) args
        end
    | EArr rows => existsb (existsb (occurs k)) rows
    | _ => false
    end.

  (** Rows and columns of cells count from one. *)
  Definition placed_ref (r : ref) : bool :=
    match r with
    | RCell _ row col _ _ => ((1 <=? row) && (row <? 2 ^ 32) && (1 <=? col) && (col <? 2 ^ 32))%Z
    | _ => true
    end.
  Fixpoint placed (e : expr T) : bool :=
    match e with
    | ERef r => placed_ref r
    | EUn _ a => placed a
    | EBin _ a b => placed a && placed b
    | EFun _ args => forallb placed args
    | EArr rows => forallb (forallb placed) rows
    | _ => true
    end.

  (** ** Results that no formula can tell apart *)
  (** Two values are alike when they are the same or are functions with the same
      parameters and body whose environments are alike on the names the body uses. *)
  Inductive like_b : binding W -> binding W -> Prop :=
  | like_val : forall v, like_b (BVal W v) (BVal W v)
  | like_clo : forall ps body e1 e2, placed body = true ->
      (forall k, occurs k body = true -> (forall p, In p ps -> k <> norm p) -> like_o (find W k e1) (find W k e2)) ->
      like_b (BClo W (Clo W ps body e1)) (BClo W (Clo W ps body e2))
  with like_o : option (binding W) -> option (binding W) -> Prop :=
  | like_none : like_o None None
  | like_some : forall a b, like_b a b -> like_o (Some a) (Some b).
  Inductive like : option (res N (calc W)) -> option (res N (calc W)) -> Prop :=
  | like_out : like None None
  | like_err : forall e, like (Some (Err e)) (Some (Err e))
  | like_panic : like (Some Panic) (Some Panic)
  | like_plain : forall p, like (Some (Ok (CPlain W p))) (Some (Ok (CPlain W p)))
  | like_call : forall c d, like_b (BClo W c) (BClo W d) -> like (Some (Ok (CClo W c))) (Some (Ok (CClo W d))).

  (** Environments in which every function has a body with placed cells. *)
  Definition usable (e : env W) : Prop := forall k, like_o (find W k e) (find W k e).

  (** ** Formulas moved by an offset *)
  Definition moved_ref (dr dc : Z) (r r' : ref) : Prop := relocate r dr dc = Ok r'.
  Inductive moved (dr dc : Z) : expr T -> expr T -> Prop :=
  | mv_lit : forall v, moved dr dc (ELit v) (ELit v)
  | mv_omit : moved dr dc EOmit EOmit
  | mv_ref : forall r r', moved_ref dr dc r r' -> moved dr dc (ERef r) (ERef r')
  | mv_un : forall op a a', moved dr dc a a' -> moved dr dc (EUn op a) (EUn op a')
  | mv_bin : forall op a a' b b', moved dr dc a a' -> moved dr dc b b' -> moved dr dc (EBin op a b) (EBin op a' b')
  | mv_fun : forall name args args', Forall2 (moved dr dc) args args' -> moved dr dc (EFun name args) (EFun name args')
  | mv_call : forall c args c' args', moved dr dc (ECall c args) (ECall c' args')
  | mv_arr : forall rows rows', Forall2 (Forall2 (moved dr dc)) rows rows' -> moved dr dc (EArr rows) (EArr rows').

  (** Environments and results that differ only by where their formulas were written. *)
  Inductive shift_b (dr dc : Z) : binding W -> binding W -> Prop :=
  | sh_val : forall v, shift_b dr dc (BVal W v) (BVal W v)
  | sh_clo : forall ps b1 b2 e1 e2, moved dr dc b1 b2 ->
      (forall k, (forall p, In p ps -> k <> norm p) -> shift_o dr dc (find W k e1) (find W k e2)) ->
      shift_b dr dc (BClo W (Clo W ps b1 e1)) (BClo W (Clo W ps b2 e2))
  with shift_o (dr dc : Z) : option (binding W) -> option (binding W) -> Prop :=
  | sh_none : shift_o dr dc None None
  | sh_some : forall a b, shift_b dr dc a b -> shift_o dr dc (Some a) (Some b).
  Inductive shifted (dr dc : Z) : option (res N (calc W)) -> option (res N (calc W)) -> Prop :=
  | sf_out : shifted dr dc None None
  | sf_err : forall e, shifted dr dc (Some (Err e)) (Some (Err e))
  | sf_panic : shifted dr dc (Some Panic) (Some Panic)
  | sf_plain : forall p, shifted dr dc (Some (Ok (CPlain W p))) (Some (Ok (CPlain W p)))
  | sf_call : forall c d, shift_b dr dc (BClo W c) (BClo W d) -> shifted dr dc (Some (Ok (CClo W c))) (Some (Ok (CClo W d))).

  (** ** Formulas on which the two evaluators agree *)
  (** No expression is called, no colon is evaluated for its value, every function is
      registered or is a name bound to a LAMBDA, cells count from one, and what [@]
      is applied to can be read where it is written. *)
  Definition is_lambda (e : expr T) : bool :=
    match e with
    | EFun name args => match w_fn W name with
                        | Some FLambda => match lambda_parts W [] args with Some _ => true | None => false end
                        | _ => false
                        end
    | _ => false
    end.
  Definition is_ok {E A} (r : res E A) : bool := match r with Ok _ => true | _ => false end.
  Fixpoint fits (still : bool) (fs : list text) (e : expr T) : bool :=
    let in_let := fix go (fs : list text) (l : list (expr T)) : bool :=
      match l with
      | [] => true
      | [b] => fits still fs b
      | x :: a :: rest =>
          match local_name W x with
          | Some n =>
              let fs' := filter (fun f => negb (text_eqb (norm n) f)) fs in
              fits still fs a && go (if is_lambda a then norm n :: fs' else fs') rest
          | None => true
          end
      end in
    match e with
    | ELit _ | EOmit => true
    | ERef r => placed_ref r
    | EUn UAt (ERef r) => still && placed_ref r && is_ok (read_ref W r)
    | EUn _ a => fits still fs a
    | EBin ORange _ _ => false
    | EBin _ a b => fits still fs a && fits still fs b
    | EFun name args =>
        match w_fn W name with
        | Some FLet => in_let fs args
        | Some FLambda => true
        | Some (FPrim _) => forallb (fun a => match a with
                                              | EBin ORange _ _ => false
                                              | _ => fits still fs a end) args
        | None => existsb (text_eqb (norm name)) fs && forallb (fits still fs) args
        end
    | ECall _ _ => false
    | EArr rows => forallb (forallb (fits still fs)) rows
    end.

  (** No call of an expression anywhere. *)
  Fixpoint no_call (e : expr T) : bool :=
    match e with
    | EUn _ a => no_call a
    | EBin _ a b => no_call a && no_call b
    | EFun _ args => forallb no_call args
    | ECall _ _ => false
    | EArr rows => forallb (forallb no_call) rows
    | _ => true
    end.

  (** The result of an evaluation: what comes out once there is enough fuel. *)
  Definition tree_result (i : interp W) (e : expr T) (r : res N (calc W)) : Prop := exists n, teval W n i e = Some r.
  Definition stored_result (i : interp W) (e : expr T) (r : res N (calc W)) : Prop := exists n, store_eval W n i e = Some r.

  (** ** Implicit intersection *)
  (** The cell of a rectangle that lies on the row of the formula when the rectangle has
      several rows, and on its column when it has several columns. *)
  Definition crosses (r0 c0 r1 c1 : Z) (at_ cell : Z * Z) : Prop :=
    (r0 <= fst cell <= r1 /\ c0 <= snd cell <= c1 /\
     (r0 < r1 -> fst cell = fst at_) /\ (c0 < c1 -> snd cell = snd at_))%Z.
End Spec.

(** ** Operators *)
Section Operators.
  Variable W : world.
  Let T := T W.
  (** The cell of an operand that meets the cell in row [i] and column [j] of the
      result: a single value, row or column is repeated. *)
  Definition operand_cell (v : value T) (i j : nat) : scalar T :=
    match v with
    | VS s => s
    | VA g => nth (if length (nth 0 g []) =? 1 then 0 else j) (nth (if length g =? 1 then 0 else i) g []) SEmpty
    end.
  Definition height (v : value T) : nat := match v with VS _ => 1 | VA g => length g end.
  Definition width (v : value T) : nat := match v with VS _ => 1 | VA g => length (nth 0 g []) end.
  Definition meets (a b : nat) : Prop := a = b \/ a = 1 \/ b = 1.
  Definition is_err (s : scalar T) : Prop := exists e, s = SErr e.

  (** What a comparison says of two values in the order [c]. *)
  Definition says (o : cmpop) (c : comparison) : bool :=
    match o, c with
    | CEq, Eq | CNe, Lt | CNe, Gt | CLt, Lt | CLe, Lt | CLe, Eq | CGt, Gt | CGe, Gt | CGe, Eq => true
    | _, _ => false
    end.
End Operators.
