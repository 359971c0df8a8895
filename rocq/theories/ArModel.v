(** The arenas that hold values and formulas.
    crates/formualizer-eval/src/engine/arena/value_ref.rs 28-240 (packed references),
    scalar.rs 8-115 and array.rs 22-165 (numbers and arrays), error_arena.rs 20-98,
    ast.rs 41-138 and 232-467 (nodes with sharing), data_store.rs 88-304 (values), 380-900
    (formulas); strings are kept by the interner of [InternModel], sheets by the registry of
    [SheetModel].

    Simplifications.  An f64 is its bits.  A DateTime is a number of nanoseconds, a Date a
    day, a Time and a Duration nanoseconds; the conversions to and from an f64 serial
    (formualizer-common date_serial.rs) are parameters.  Of an error the kind and the message
    are kept apart, its context and extra data are one number, 0 for none.  Hashes are
    parameters, so nodes may collide.  References are those of [RtModel].  Integer products
    and casts wrap as in a release build.  A panic is [None]; recursion on stored data takes
    fuel. *)
From Coq Require Import String List Bool NArith ZArith.
From Verif Require Import Base Maps LexModel RtModel InternModel SheetModel.
Import ListNotations.
Open Scope N_scope.

Notation "'do' p <- e ; k" := (match e with Some p => k | None => None end)
  (at level 200, p pattern, e at level 100, k at level 200).

(** LiteralValue, formualizer-common/src/value.rs *)
Inductive val :=
| VInt (z : Z)
| VNum (bits : N)
| VText (t : text)
| VBool (b : bool)
| VErr (kind : N) (msg : option text) (rest : N)
| VArr (rows : list (list val))
| VDate (day : Z)
| VDateTime (ns : Z)
| VTime (ns : Z)
| VDur (ns : Z)
| VEmpty
| VPending.

(** * Packed references, value_ref.rs *)
Definition PAYLOAD_MASK : N := 268435455.
Definition TYPE_MASK : N := 4026531840.
Definition T_EMPTY : N := 0.
Definition T_SMALL : N := 1.
Definition T_LARGE : N := 2.
Definition T_NUM : N := 3.
Definition T_STR : N := 4.
Definition T_BOOL : N := 5.
Definition T_ERR : N := 6.
Definition T_ARR : N := 7.
Definition T_DT : N := 8.
Definition T_DUR : N := 9.
Definition T_PEND : N := 10.
Definition T_AST : N := 11.
(** value_type 82-85, payload 88-90 *)
Definition tag (r : N) : N := let t := N.shiftr (N.land r TYPE_MASK) 28 in if t <=? T_AST then t else T_EMPTY.
Definition payload (r : N) : N := N.land r PAYLOAD_MASK.
Definition pack (t p : N) : N := N.lor (N.shiftl t 28) p.
(** [number], [string], [array], …: 139-228, each asserts that the index fits. *)
Definition pack_index (t index : N) : option N := if index <=? PAYLOAD_MASK then Some (pack t index) else None.
(** [i as i32] *)
Definition as_i32 (z : Z) : Z := let m := (z mod 2 ^ 32)%Z in if (m <? 2 ^ 31)%Z then m else (m - 2 ^ 32)%Z.
(** small_int 98-109, as_small_int 112-126 *)
Definition small_int (z : Z) : option N :=
  if ((- 2 ^ 27 <=? z) && (z <=? 2 ^ 27 - 1))%Z then Some (pack T_SMALL (N.land (z_as_u32 z) PAYLOAD_MASK)) else None.
Definition as_small_int (r : N) : Z :=
  let p := payload r in
  if N.land p (2 ^ 27) =? 0 then Z.of_N p else as_i32 (Z.of_N (N.lor p TYPE_MASK)).

(** * Scalars, scalar.rs *)
Record scalars := Scalars { floats : list N; ints : list Z }.
Definition INT_BIT : N := 2 ^ 31.
Definition INDEX_MASK : N := 2 ^ 31 - 1.
(** insert_float 74-81, insert_integer 84-91: the raw ScalarRef *)
Definition insert_float (s : scalars) (f : N) : option (scalars * N) :=
  let i := trunc_u32 (N.of_nat (length (floats s))) in
  if INDEX_MASK <? i then None else Some (Scalars (floats s ++ [f]) (ints s), i).
Definition insert_integer (s : scalars) (z : Z) : option (scalars * N) :=
  let i := trunc_u32 (N.of_nat (length (ints s))) in
  if INDEX_MASK <? i then None else Some (Scalars (floats s) (ints s ++ [z]), N.lor i INT_BIT).
(** get_float 95-101, get_integer 105-111 *)
Definition get_float (s : scalars) (r : N) : option N :=
  if N.land r INT_BIT =? 0 then nth_error (floats s) (N.to_nat (N.land r INDEX_MASK)) else None.
Definition get_integer (s : scalars) (r : N) : option Z :=
  if N.land r INT_BIT =? 0 then None else nth_error (ints s) (N.to_nat (N.land r INDEX_MASK)).

(** * Arrays, array.rs *)
Record arrays := Arrays { dims : list (N * N); elems : list N; offs : list N }.
(** insert 54-83 *)
Definition insert_rows (a : arrays) (rows cols : N) (es : list N) : option (arrays * N) :=
  if N.of_nat (length es) =? (rows * cols) mod 2 ^ 32 then
    let i := trunc_u32 (N.of_nat (length (dims a))) in
    if i =? 2 ^ 32 - 1 then None
    else Some (Arrays (dims a ++ [(rows, cols)]) (elems a ++ es)
                 (offs a ++ [trunc_u32 (N.of_nat (length (elems a ++ es)))]), i)
  else None.
(** [&l[a..b]] *)
Definition slice {A} (l : list A) (a b : N) : option (list A) :=
  if (a <=? b) && (b <=? N.of_nat (length l)) then Some (firstn (N.to_nat (b - a)) (skipn (N.to_nat a) l)) else None.
(** elements 117-126 *)
Definition elements (a : arrays) (r : N) : option (list N) :=
  let i := N.to_nat r in
  do start <- nth_error (offs a) i; do stop <- nth_error (offs a) (S i); slice (elems a) start stop.
Fixpoint sequence {A} (l : list (option A)) : option (list A) :=
  match l with
  | [] => Some []
  | Some x :: r => do y <- sequence r; Some (x :: y)
  | None :: _ => None
  end.
(** get_2d 142-158 *)
Definition get_2d (a : arrays) (r : N) : option (list (list N)) :=
  do (rows, cols) <- nth_error (dims a) (N.to_nat r);
  do es <- elements a r;
  if (rows =? 0) || (cols =? 0) then Some []
  else sequence (map (fun k => let s := (N.of_nat k * cols) mod 2 ^ 32 in slice es s (s + cols)) (seq 0 (N.to_nat rows))).

(** * Errors, error_arena.rs *)
Definition ekey : Type := N * option N.
Definition ekey_eqb (a b : ekey) : bool :=
  N.eqb (fst a) (fst b) &&
  match snd a, snd b with None, None => true | Some x, Some y => N.eqb x y | _, _ => false end.
Record errors := Errors { errs : list ekey; ecache : list (ekey * N); estrs : interner }.
Definition interned (g : interner) (t : text) : option (interner * N) :=
  match intern g t with Ok x => Some x | _ => None end.
(** insert 58-83 *)
Definition insert_error (e : errors) (kind : N) (msg : option text) : option (errors * N) :=
  do (g, m) <- (match msg with
                | None => Some (estrs e, None)
                | Some t => do (g, i) <- interned (estrs e) t; Some (g, Some i)
                end);
  match mget ekey_eqb (ecache e) (kind, m) with
  | Some i => Some (Errors (errs e) (ecache e) g, i)
  | None =>
      let i := trunc_u32 (N.of_nat (length (errs e))) in
      Some (Errors (errs e ++ [(kind, m)]) (mput ekey_eqb (ecache e) (kind, m) i) g, i)
  end.
(** get 86-98; [None] inside when the index is unknown *)
Definition get_error (e : errors) (i : N) : option (option val) :=
  match nth_error (errs e) (N.to_nat i) with
  | None => Some None
  | Some (k, None) => Some (Some (VErr k None 0))
  | Some (k, Some m) => do t <- int_get (estrs e) m; Some (Some (VErr k (Some t) 0))
  end.

(** * Formula nodes, ast.rs 41-138 *)
Inductive skey := KId (id : N) | KName (name : N).
Record cbox := CBox { c_sr : N * bool; c_sc : N * bool; c_er : N * bool; c_ec : N * bool }.
Inductive cref :=
| CCell (s : option skey) (row col : N) (ra ca : bool)
| CRange (s : option skey) (b : cbox)
| CExtCell (raw book sheet : N) (row col : N) (ra ca : bool)
| CExtRange (raw book sheet : N) (b : box)
| CName (n : N)
| CTable (n : N) (spec : option N)
| CCell3 (first last : N) (row col : N) (ra ca : bool)
| CRange3 (first last : N) (b : cbox).
Inductive anode :=
| NLit (r : N)
| NOmit
| NRef (original : N) (c : cref)
| NUn (op e : N)
| NBin (op l r : N)
| NFn (name off cnt : N)
| NArr (rows cols off : N).
Definition anode_eq_dec : forall a b : anode, {a = b} + {a <> b}.
Proof. repeat decide equality. Defined.
Fixpoint tspec_eqb (a b : tspec) {struct a} : bool :=
  match a, b with
  | SpAll, SpAll | SpRow, SpRow => true
  | SpCol x, SpCol y => text_eqb x y
  | SpRange x y, SpRange z w => text_eqb x z && text_eqb y w
  | SpItem x, SpItem y =>
      match x, y with
      | IAll, IAll | IHeaders, IHeaders | IData, IData | ITotals, ITotals | IThisRow, IThisRow => true
      | _, _ => false
      end
  | SpComb l, SpComb m =>
      (fix go l m := match l, m with [], [] => true | x :: l, y :: m => tspec_eqb x y && go l m | _, _ => false end) l m
  | _, _ => false
  end.

(** ASTNodeType, formualizer-parse/src/parser.rs *)
Inductive tree :=
| TLit (v : val)
| TOmit
| TRef (original : text) (r : reft)
| TUn (op : text) (e : tree)
| TBin (op : text) (l r : tree)
| TFn (name : text) (args : list tree)
| TCall (f : tree) (args : list tree)
| TArr (rows : list (list tree)).

Record asts := Asts
  { nodes : list anode; nmap : list (N * N); fargs : list N; aelems : list N;
    astrs : interner; specs : list tspec; smap : list (N * N) }.
Record store := Store { scal : scalars; strs : interner; arrs : arrays; ers : errors; tree_arena : asts }.
Definition empty_store : store :=
  Store (Scalars [] []) int_new (Arrays [] [] [0]) (Errors [] [] int_new) (Asts [] [] [] [] int_new [] []).

(** Left to right, with a state. *)
Definition mapM {St A B} (f : St -> A -> option (St * B)) : St -> list A -> option (St * list B) :=
  fix go s l :=
    match l with
    | [] => Some (s, [])
    | x :: r => do (s, y) <- f s x; do (s, ys) <- go s r; Some (s, y :: ys)
    end.

Section Arena.
  Variable lower : text -> text.
  (** datetime_to_serial_for(Excel1900, _), serial_to_datetime, time_to_fraction *)
  Variables (serial_of : Z -> N) (serial_to : N -> Z) (fraction_of : Z -> N).
  Variables (hash_node : anode -> N) (hash_spec : tspec -> N).

  Definition DAY_NS : Z := 86400000000000.
  Definition NS : Z := 1000000000.
  (** Duration::num_seconds rounds towards zero. *)
  Definition num_seconds (ns : Z) : Z := Z.quot ns NS.

  Definition put_float (s : store) (t : N) (f : N) : option (store * N) :=
    do (c, i) <- insert_float (scal s) f;
    do r <- pack_index t i;
    Some (Store c (strs s) (arrs s) (ers s) (tree_arena s), r).

  (** store_value, data_store.rs:88-173; store_error 853-856 *)
  Fixpoint store_value (s : store) (v : val) {struct v} : option (store * N) :=
    match v with
    | VEmpty => Some (s, 0)
    | VNum f => put_float s T_NUM f
    | VText t =>
        do (g, i) <- interned (strs s) t;
        do r <- pack_index T_STR i;
        Some (Store (scal s) g (arrs s) (ers s) (tree_arena s), r)
    | VBool b => Some (s, pack T_BOOL (if b then 1 else 0))
    | VErr k m _ =>
        do (e, i) <- insert_error (ers s) k m;
        do r <- pack_index T_ERR i;
        Some (Store (scal s) (strs s) (arrs s) e (tree_arena s), r)
    | VArr rows =>
        do (s, es) <- mapM (mapM store_value) s rows;
        do (a, i) <- insert_rows (arrs s) (trunc_u32 (N.of_nat (length rows)))
                       (trunc_u32 (N.of_nat (length (hd [] rows)))) (concat es);
        do r <- pack_index T_ARR i;
        Some (Store (scal s) (strs s) a (ers s) (tree_arena s), r)
    | VDateTime ns => put_float s T_DT (serial_of ns)
    | VDate d => put_float s T_DT (serial_of (d * DAY_NS))
    | VTime t => put_float s T_DT (fraction_of t)
    | VDur ns =>
        do (c, i) <- insert_integer (scal s) (num_seconds ns);
        do r <- pack_index T_DUR (N.land i INDEX_MASK);
        Some (Store c (strs s) (arrs s) (ers s) (tree_arena s), r)
    | VInt z =>
        match small_int (as_i32 z) with
        | Some r => Some (s, r)
        | None =>
            do (c, i) <- insert_integer (scal s) z;
            do r <- pack_index T_LARGE i;
            Some (Store c (strs s) (arrs s) (ers s) (tree_arena s), r)
        end
    | VPending => Some (s, pack T_PEND 0)
    end.

  (** Kinds of errors in the order of ExcelErrorKind (common/src/error.rs:26-40). *)
  Definition K_VALUE : N := 3.
  Definition K_NIMPL : N := 8.
  Definition bad_value : val := VErr K_VALUE None 0.

  (** retrieve_value, data_store.rs:176-304 *)
  Fixpoint retrieve (n : nat) (s : store) (r : N) : option val :=
    let t := tag r in
    if t =? T_EMPTY then Some VEmpty
    else if t =? T_SMALL then Some (VInt (as_small_int r))
    else if t =? T_LARGE then
      Some (match get_integer (scal s) (N.lor (payload r) INT_BIT) with Some i => VInt i | None => bad_value end)
    else if t =? T_NUM then
      Some (match get_float (scal s) (payload r) with Some f => VNum f | None => bad_value end)
    else if t =? T_STR then
      do x <- int_get (strs s) (payload r); Some (VText x)
    else if t =? T_BOOL then Some (VBool (negb (N.land (payload r) 1 =? 0)))
    else if t =? T_ERR then
      do e <- get_error (ers s) (payload r); Some (match e with Some e => e | None => bad_value end)
    else if t =? T_ARR then
      match n with
      | O => None
      | S n =>
          match nth_error (dims (arrs s)) (N.to_nat (payload r)) with
          | None => Some bad_value
          | Some _ =>
              do rows <- get_2d (arrs s) (payload r);
              do vs <- sequence (map (fun row => sequence (map (retrieve n s) row)) rows);
              Some (VArr vs)
          end
      end
    else if t =? T_DT then
      Some (match get_float (scal s) (payload r) with Some f => VDateTime (serial_to f) | None => bad_value end)
    else if t =? T_DUR then
      Some (match get_integer (scal s) (N.lor (payload r) INT_BIT) with Some i => VDur (i * NS) | None => bad_value end)
    else if t =? T_PEND then Some VPending
    else Some bad_value.

  (** insert_entry, ast.rs:284-303 *)
  Definition insert_node (a : asts) (d : anode) : asts * N :=
    let h := hash_node d in
    let fresh :=
      let i := trunc_u32 (N.of_nat (length (nodes a))) in
      (Asts (nodes a ++ [d]) (mput N.eqb (nmap a) h i) (fargs a) (aelems a) (astrs a) (specs a) (smap a), i) in
    match mget N.eqb (nmap a) h with
    | Some i =>
        match nth_error (nodes a) (N.to_nat i) with
        | Some d' => if anode_eq_dec d' d then (a, i) else fresh
        | None => fresh   (* a panic: never reached *)
        end
    | None => fresh
    end.
  Definition with_strs (a : asts) (g : interner) : asts :=
    Asts (nodes a) (nmap a) (fargs a) (aelems a) g (specs a) (smap a).
  Definition intern_ast (a : asts) (t : text) : option (asts * N) :=
    do (g, i) <- interned (astrs a) t; Some (with_strs a g, i).
  (** intern_table_specifier, 441-462 *)
  Definition intern_spec (a : asts) (p : tspec) : asts * N :=
    let h := hash_spec p in
    let fresh :=
      let i := trunc_u32 (N.of_nat (length (specs a))) in
      (Asts (nodes a) (nmap a) (fargs a) (aelems a) (astrs a) (specs a ++ [p]) (mput N.eqb (smap a) h i), i) in
    match mget N.eqb (smap a) h with
    | Some i =>
        match nth_error (specs a) (N.to_nat i) with
        | Some q => if tspec_eqb q p then (a, i) else fresh
        | None => fresh
        end
    | None => fresh
    end.

  Definition U32_MAX : N := 2 ^ 32 - 1.
  Definition lo_of (b : bound) : N * bool := match b with Some (v, f) => (v, f) | None => (0, false) end.
  Definition hi_of (b : bound) : N * bool := match b with Some (v, f) => (v, f) | None => (U32_MAX, false) end.
  Definition of_lo (b : N * bool) : bound := if fst b =? 0 then None else Some b.
  Definition of_hi (b : N * bool) : bound := if fst b =? U32_MAX then None else Some b.
  Definition pack_box (b : box) : cbox := CBox (lo_of (b_sr b)) (lo_of (b_sc b)) (hi_of (b_er b)) (hi_of (b_ec b)).
  Definition unpack_box (c : cbox) : box := Box (of_lo (c_sr c)) (of_lo (c_sc c)) (of_hi (c_er c)) (of_hi (c_ec c)).

  Definition pack_sheet (g : registry) (a : asts) (s : option text) : option (asts * option skey) :=
    match s with
    | None => Some (a, None)
    | Some n =>
        match get_id lower g n with
        | Some id => Some (a, Some (KId id))
        | None => do (a, i) <- intern_ast a n; Some (a, Some (KName i))
        end
    end.
  (** convert_reference_type, data_store.rs:450-590 *)
  Definition pack_ref (g : registry) (a : asts) (r : reft) : option (asts * cref) :=
    match r with
    | RCell s row col ra ca => do (a, k) <- pack_sheet g a s; Some (a, CCell k row col ra ca)
    | RRange s b => do (a, k) <- pack_sheet g a s; Some (a, CRange k (pack_box b))
    | RExtCell raw book sheet row col ra ca =>
        do (a, i) <- intern_ast a raw; do (a, j) <- intern_ast a book; do (a, k) <- intern_ast a sheet;
        Some (a, CExtCell i j k row col ra ca)
    | RExtRange raw book sheet b =>
        do (a, i) <- intern_ast a raw; do (a, j) <- intern_ast a book; do (a, k) <- intern_ast a sheet;
        Some (a, CExtRange i j k b)
    | RName n => do (a, i) <- intern_ast a n; Some (a, CName i)
    | RTable n p =>
        do (a, i) <- intern_ast a n;
        match p with
        | None => Some (a, CTable i None)
        | Some p => let (a, j) := intern_spec a p in Some (a, CTable i (Some j))
        end
    | RCell3 f l row col ra ca =>
        do (a, i) <- intern_ast a f; do (a, j) <- intern_ast a l; Some (a, CCell3 i j row col ra ca)
    | RRange3 f l b =>
        do (a, i) <- intern_ast a f; do (a, j) <- intern_ast a l; Some (a, CRange3 i j (pack_box b))
    end.

  Definition on_asts (s : store) (a : asts) : store := Store (scal s) (strs s) (arrs s) (ers s) a.
  Definition put_node (s : store) (d : anode) : store * N :=
    let (a, i) := insert_node (tree_arena s) d in (on_asts s a, i).
  Definition named (s : store) (t : text) : option (store * N) :=
    do (a, i) <- intern_ast (tree_arena s) t; Some (on_asts s a, i).
  Definition trunc_u16 (n : N) : N := n mod 65536.
  (** insert_function, ast.rs:342-355; insert_array, 358-375 *)
  Definition put_function (s : store) (name : text) (args : list N) : option (store * N) :=
    do (s, n) <- named s name;
    let a := tree_arena s in
    Some (put_node (on_asts s (Asts (nodes a) (nmap a) (fargs a ++ args) (aelems a) (astrs a) (specs a) (smap a)))
            (NFn n (trunc_u32 (N.of_nat (length (fargs a)))) (trunc_u16 (N.of_nat (length args))))).
  Definition put_array (s : store) (rows cols : N) (es : list N) : option (store * N) :=
    if N.of_nat (length es) =? trunc_u16 (rows * cols) then
      let a := tree_arena s in
      Some (put_node (on_asts s (Asts (nodes a) (nmap a) (fargs a) (aelems a ++ es) (astrs a) (specs a) (smap a)))
              (NArr rows cols (trunc_u32 (N.of_nat (length (aelems a))))))
    else None.

  (** The message of the error a postfix call is stored as, data_store.rs:439-446. *)
  Definition call_error : val := VErr K_NIMPL (Some (tx "Immediate-invocation calls are not yet supported"%string)) 0.

  (** convert_ast_node, data_store.rs:384-448 *)
  Fixpoint convert (g : registry) (s : store) (t : tree) {struct t} : option (store * N) :=
    match t with
    | TLit v => do (s, r) <- store_value s v; Some (put_node s (NLit r))
    | TOmit => Some (put_node s NOmit)
    | TRef o r =>
        do (a, c) <- pack_ref g (tree_arena s) r;
        do (s, i) <- named (on_asts s a) o;
        Some (put_node s (NRef i c))
    | TUn op e =>
        do (s, i) <- convert g s e;
        do (s, n) <- named s op;
        Some (put_node s (NUn n i))
    | TBin op l r =>
        do (s, i) <- convert g s l;
        do (s, j) <- convert g s r;
        do (s, n) <- named s op;
        Some (put_node s (NBin n i j))
    | TFn name args => do (s, ids) <- mapM (convert g) s args; put_function s name ids
    | TArr rows =>
        do (s, ids) <- mapM (mapM (convert g)) s rows;
        put_array s (trunc_u16 (N.of_nat (length rows))) (trunc_u16 (N.of_nat (length (hd [] rows)))) (concat ids)
    | TCall _ _ => do (s, r) <- store_value s call_error; Some (put_node s (NLit r))
    end.

  Definition unpack_sheet (g : registry) (a : asts) (k : option skey) : option (option text) :=
    match k with
    | None => Some None
    | Some (KId id) => Some (Some (sheet_name g id))
    | Some (KName i) => do t <- int_get (astrs a) i; Some (Some t)
    end.
  (** reconstruct_reference_type, data_store.rs:697-850 *)
  Definition unpack_ref (g : registry) (a : asts) (c : cref) : option reft :=
    let str i := int_get (astrs a) i in
    match c with
    | CCell k row col ra ca => do s <- unpack_sheet g a k; Some (RCell s row col ra ca)
    | CRange k b => do s <- unpack_sheet g a k; Some (RRange s (unpack_box b))
    | CExtCell i j k row col ra ca =>
        do raw <- str i; do book <- str j; do sheet <- str k; Some (RExtCell raw book sheet row col ra ca)
    | CExtRange i j k b => do raw <- str i; do book <- str j; do sheet <- str k; Some (RExtRange raw book sheet b)
    | CName i => do n <- str i; Some (RName n)
    | CTable i p =>
        do n <- str i;
        Some (RTable n (match p with None => None | Some j => nth_error (specs a) (N.to_nat j) end))
    | CCell3 i j row col ra ca => do f <- str i; do l <- str j; Some (RCell3 f l row col ra ca)
    | CRange3 i j b => do f <- str i; do l <- str j; Some (RRange3 f l (unpack_box b))
    end.

  Fixpoint keep {A} (l : list (option A)) : list A :=
    match l with [] => [] | Some x :: r => x :: keep r | None :: r => keep r end.

  (** reconstruct_ast_node, data_store.rs:592-694 *)
  Fixpoint rebuild (n : nat) (g : registry) (s : store) (id : N) : option tree :=
    match n with
    | O => None
    | S n =>
        let a := tree_arena s in
        let str i := int_get (astrs a) i in
        do d <- nth_error (nodes a) (N.to_nat id);
        match d with
        | NLit r => do v <- retrieve n s r; Some (TLit v)
        | NOmit => Some TOmit
        | NRef o c => do t <- str o; do r <- unpack_ref g a c; Some (TRef t r)
        | NUn o e => do op <- str o; do x <- rebuild n g s e; Some (TUn op x)
        | NBin o l r => do op <- str o; do x <- rebuild n g s l; do y <- rebuild n g s r; Some (TBin op x y)
        | NFn m off cnt =>
            do name <- str m;
            do ids <- slice (fargs a) off (off + cnt);
            Some (TFn name (keep (map (rebuild n g s) ids)))
        | NArr rows cols off =>
            do ids <- slice (aelems a) off (off + trunc_u16 (rows * cols));
            Some (TArr (map (fun r =>
              keep (map (fun c =>
                do id <- nth_error ids (N.to_nat (trunc_u16 (N.of_nat r * cols + N.of_nat c)));
                rebuild n g s id) (seq 0 (N.to_nat cols)))) (seq 0 (N.to_nat rows))))
        end
    end.

  (** Stores produced by any sequence of calls that did not panic; sheets may come and go. *)
  Inductive st_reach : store -> Prop :=
  | sr_new : st_reach empty_store
  | sr_value s v s' r : st_reach s -> store_value s v = Some (s', r) -> st_reach s'
  | sr_tree s g t s' i : st_reach s -> convert g s t = Some (s', i) -> st_reach s'.
  Inductive later_store : store -> store -> Prop :=
  | ls_refl s : later_store s s
  | ls_value s s1 v s' r : later_store s s1 -> store_value s1 v = Some (s', r) -> later_store s s'
  | ls_tree s s1 g t s' i : later_store s s1 -> convert g s1 t = Some (s', i) -> later_store s s'.
End Arena.
