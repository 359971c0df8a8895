(** The text functions of the worksheet.

    crates/formualizer-eval/src/builtins/text/: len_left_right.rs (LEN, LEFT,
    RIGHT), mid_sub_replace.rs (MID, SUBSTITUTE, REPLACE), find_search_exact.rs
    (FIND, SEARCH, EXACT), trim_case_concat.rs (TRIM, UPPER, LOWER, PROPER,
    CONCAT, CONCATENATE, TEXTJOIN), char_code_rept.rs (CHAR, CODE, ASC, REPT),
    extended.rs (CLEAN, UNICHAR, UNICODE, TEXTBEFORE, TEXTAFTER), array_text.rs
    (TEXTSPLIT).  byte.rs hands every ...B function to its namesake here.

    Simplifications.  A String is the list of its code points; searches and
    slices are by byte in Rust, and byte positions appear here only where the
    code mixes those of two strings (TEXTSPLIT) or counts them (REPT).  Arguments
    are the scalars the functions receive (scalar_text_value, mod.rs 9-17), or
    the list of cells where they flatten ranges; a missing optional argument is
    [None].  [f64::to_string] is the parameter [show], [str::to_lowercase] and
    [str::to_uppercase] are [lower] and [upper], char::is_alphanumeric,
    to_uppercase and to_lowercase are [alnum], [up], [low], and
    [parse_number_invariant] is [num_of_text].  An [Err] returned and an error
    value returned are the same outcome.  [chk] says whether the build checks
    integer overflow (a debug build does, a release build wraps). *)
From Coq Require Import String QArith.
From Verif Require Import Base Maps NuModel.
From Verif Require CrModel.
Close Scope Q_scope.
Local Open Scope Z_scope.

Inductive terr := EVal | ENa | EArg (k : N).
Definition R := res terr.

Inductive val :=
| VText (s : text)
| VEmpty
| VBool (b : bool)
| VInt (z : Z)
| VNum (x : fnum)
| VCal (shown : text) (serial : fnum)      (* date, time or duration *)
| VErr (e : terr).

Definition len (s : text) : Z := Z.of_nat (length s).
Definition show_int (z : Z) : text := if z <? 0 then 45%N :: fmt 10 (- z) else fmt 10 z.

(** ** Bytes of a string: UTF-8 lengths, and slicing at a byte position, which
    panics off a character boundary or past the end. *)
Definition ulen (c : N) : Z :=
  if (c <? 128)%N then 1 else if (c <? 2048)%N then 2 else if (c <? 65536)%N then 3 else 4.
Fixpoint blen (s : text) : Z := match s with [] => 0 | c :: r => ulen c + blen r end.
Fixpoint byte_cut (s : text) (k : Z) : option (text * text) :=
  if k =? 0 then Some ([], s)
  else match s with
       | [] => None
       | c :: r => match byte_cut r (k - ulen c) with
                   | Some (a, b) => Some (c :: a, b)
                   | None => None
                   end
       end.
(** [&s[a..]] and [&s[a..b]] *)
Definition byte_from (s : text) (a : Z) : option text :=
  match byte_cut s a with Some (_, r) => Some r | None => None end.
Definition byte_slice (s : text) (a b : Z) : option text :=
  match byte_cut s a with
  | Some (_, r) => match byte_cut r (b - a) with Some (m, _) => Some m | None => None end
  | None => None
  end.

(** [s.find(p)]: what stands before the first occurrence and after it. *)
Fixpoint cut (p s : text) : option (text * text) :=
  if starts p s then Some ([], skipn (length p) s)
  else match s with
       | [] => None
       | c :: r => match cut p r with Some (a, b) => Some (c :: a, b) | None => None end
       end.

(** [s.match_indices(p)]: each occurrence, left to right and not overlapping, by
    what stands before it and after it in the whole string. *)
Fixpoint matches (fuel : nat) (p pre s : text) : list (text * text) :=
  match fuel with
  | O => []
  | S f => match cut p s with
           | None => []
           | Some (a, b) => (pre ++ a, b) :: matches f p (pre ++ a ++ p) b
           end
  end.
Definition match_indices (p s : text) : list (text * text) := matches (S (length s)) p [] s.

(** [chars[a..b]] *)
Definition slice (s : text) (a b : Z) : option text :=
  if (0 <=? a) && (a <=? b) && (b <=? len s)
  then Some (firstn (Z.to_nat (b - a)) (skipn (Z.to_nat a) s)) else None.
Definition sliced (o : option text) : R val :=
  match o with Some t => Ok (VText t) | None => Panic end.

(** [text.repeat(n)] panics when the result does not fit an allocation. *)
Fixpoint copies (n : nat) (s : text) : text :=
  match n with O => [] | S k => s ++ copies k s end.
Definition str_repeat (s : text) (n : Z) : option text :=
  if 2 ^ 63 - 1 <? blen s * n then None
  else Some (match s with [] => [] | _ => copies (Z.to_nat n) s end).

Section Text.
Variable chk : bool.
Variable show : fnum -> text.
Variable num_of_text : text -> option fnum.
Variable lower upper : text -> text.
Variable alnum : N -> bool.
Variable up low : N -> text.

(** LiteralValue's Display (common/src/value.rs 70-87). *)
Definition plain (v : val) : text :=
  match v with
  | VText s => s
  | VEmpty => []
  | VBool b => if b then tx "true" else tx "false"
  | VInt z => show_int z
  | VNum x => show x
  | VCal s _ => s
  | VErr _ => []                      (* unused: errors are returned first *)
  end.

(** The conversion of LEN, LEFT, RIGHT, CODE, ASC and REPT (len_left_right.rs
    157-166, 251-260, char_code_rept.rs 205-216, 335-341, 410-416). *)
Definition raw_text (v : val) : R text :=
  match v with VErr e => Err e | _ => Ok (plain v) end.

(** [if s.ends_with(".0") { s[..s.len() - 2] }] *)
Definition strip0 (s : text) : text :=
  match rev s with
  | 48%N :: 46%N :: r => rev r
  | _ => s
  end.

(** to_text (mid_sub_replace.rs 302-325, trim_case_concat.rs 38-64) and
    coerce_text (extended.rs 24-41, array_text.rs 25-41). *)
Definition to_text (v : val) : R text :=
  match v with
  | VText s => Ok s
  | VEmpty => Ok []
  | VBool b => Ok (if b then tx "TRUE" else tx "FALSE")
  | VInt z => Ok (show_int z)
  | VNum x => Ok (strip0 (show x))
  | VCal s _ => Ok s
  | VErr e => Err e
  end.

(** to_text (find_search_exact.rs 18-35) and the conversion of TEXTJOIN
    (trim_case_concat.rs 664-676). *)
Definition to_text_find (v : val) : R text :=
  match v with
  | VNum x => Ok (show x)
  | _ => to_text v
  end.

(** number_like (len_left_right.rs 279-296 and its copies). *)
Definition parse_i64 (s : text) : Z := match from_str_radix 10 s with Some z => z | None => 0 end.
Definition number_like (v : val) : R Z :=
  match v with
  | VInt z => Ok z
  | VNum x => Ok (as_i64 x)
  | VText t => Ok (parse_i64 t)
  | VBool b => Ok (if b then 1 else 0)
  | VEmpty => Ok 0
  | VErr e => Err e
  | VCal s _ => Ok (parse_i64 s)
  end.

(** coerce_num = to_number_lenient (coercion.rs 10-36). *)
Definition to_num (v : val) : R fnum :=
  match v with
  | VNum x => Ok x
  | VInt z => Ok (FFin (inject_Z z))
  | VBool b => Ok (FFin (inject_Z (if b then 1 else 0)))
  | VEmpty => Ok (FFin (inject_Z 0))
  | VText s => match num_of_text s with Some x => Ok x | None => Err EVal end
  | VCal _ x => Ok x
  | VErr e => Err e
  end.

Notation "'do' x <- a ; b" := (rbind a (fun x => b)) (at level 200, x name, a at level 100).

(** LEN (len_left_right.rs 72-88) *)
Definition f_len (v : val) : R val := do s <- raw_text v; Ok (VInt (len s)).

(** LEFT (147-182), RIGHT (241-276) *)
Definition count_of (n : option val) : R Z :=
  match n with Some v => number_like v | None => Ok 1 end.
Definition f_left (v : val) (n : option val) : R val :=
  do s <- raw_text v;
  do k <- count_of n;
  if k <? 0 then Err EVal
  else sliced (slice s 0 (Z.min k (len s))).
Definition f_right (v : val) (n : option val) : R val :=
  do s <- raw_text v;
  do k <- count_of n;
  if k <? 0 then Err EVal
  else sliced (slice s (Z.max 0 (len s - k)) (len s)).

(** MID (mid_sub_replace.rs 73-104); [(start - 1) + count] is an i64, cast to usize. *)
Definition f_mid (v a n : val) : R val :=
  do s <- to_text v;
  do start <- number_like a;
  do count <- number_like n;
  if (start <? 1) || (count <? 0) then Err EVal
  else if len s <? start then Ok (VText [])
  else if chk && negb (in_i64 (start - 1 + count)) then Panic
  else sliced (slice s (start - 1) (Z.min ((start - 1 + count) mod 2 ^ 64) (len s))).

(** SUBSTITUTE (165-210) *)
Fixpoint nth_go (fuel : nat) (old new whole rest out : text) (count instance : Z) : text :=
  match fuel with
  | O => whole
  | S f =>
      match cut old rest with
      | None => whole
      | Some (a, b) =>
          if count + 1 =? instance then out ++ a ++ new ++ b
          else nth_go f old new whole b (out ++ a ++ old) (count + 1) instance
      end
  end.
Definition f_substitute (v o n : val) (inst : option val) : R val :=
  do s <- to_text v;
  do old <- to_text o;
  do new <- to_text n;
  match old with
  | [] => Ok (VText s)
  | _ =>
      match inst with
      | Some i =>
          do k <- number_like i;
          if k <=? 0 then Err EVal
          else Ok (VText (nth_go (S (length s)) old new s s [] 0 k))
      | None => Ok (VText (replace old new s))
      end
  end.

(** REPLACE (269-299); [Vec::splice]. *)
Definition f_replace (v a n w : val) : R val :=
  do s <- to_text v;
  do start <- number_like a;
  do num <- number_like n;
  do new <- to_text w;
  if (start <? 1) || (num <? 0) then Err EVal
  else
    let i := Z.max 0 (start - 1) in
    if len s <? i then Ok (VText s)
    else
      let e := Z.min (i + num) (len s) in
      Ok (VText (firstn (Z.to_nat i) s ++ new ++ skipn (Z.to_nat e) s)).

(** char_find (find_search_exact.rs 252-270). *)
Fixpoint find_go (fuel : nat) (hay needle : text) (i last : Z) : option Z :=
  match fuel with
  | O => None
  | S f =>
      if i <=? last then
        if text_eqb (firstn (length needle) (skipn (Z.to_nat i) hay)) needle then Some i
        else find_go f hay needle (i + 1) last
      else None
  end.
Definition char_find (hay needle : text) (start : Z) : option Z :=
  match needle with
  | [] => Some (Z.min start (len hay))
  | _ =>
      if (len hay <? len needle) || (len hay <? start) then None
      else find_go (S (length hay)) hay needle start (len hay - len needle)
  end.

(** The start argument of FIND and SEARCH (107-119, 207-219). *)
Definition start_of (n : option val) : R Z :=
  match n with
  | None => Ok 0
  | Some v => do k <- number_like v; if k <? 1 then Err EVal else Ok (k - 1)
  end.
Definition found (o : option Z) : R val :=
  match o with Some i => Ok (VInt (i + 1)) | None => Err EVal end.

(** FIND (97-135) *)
Definition f_find (a v : val) (n : option val) : R val :=
  do needle <- to_text_find a;
  do hay <- to_text_find v;
  do start <- start_of n;
  match needle with
  | [] => Ok (VInt 1)
  | _ => found (char_find hay needle start)
  end.

(** wildcard_match_chars (284-293), char_wildcard_search (273-282).  [(0..=t.len()).any]
    over the suffixes of [t]. *)
Fixpoint suffixes (t : text) : list text :=
  t :: match t with [] => [] | _ :: r => suffixes r end.
Fixpoint wild (p t : text) : bool :=
  match p with
  | [] => true
  | c :: p' =>
      if (c =? 42)%N then existsb (wild p') (suffixes t)
      else match t with
           | [] => false
           | x :: t' => ((c =? 63)%N || (x =? c)%N) && wild p' t'
           end
  end.
Fixpoint wild_go (fuel : nat) (p hay : text) (i : Z) : option Z :=
  match fuel with
  | O => None
  | S f =>
      if i <=? len hay then
        if wild p (skipn (Z.to_nat i) hay) then Some i else wild_go f p hay (i + 1)
      else None
  end.
Definition wildcard_search (p hay : text) (start : Z) : option Z :=
  wild_go (S (length hay)) p hay start.

Definition ascii_lower (s : text) : text := map to_ascii_lower s.
Definition ascii_upper (s : text) : text := map to_ascii_upper s.

(** SEARCH (196-246) *)
Definition f_search (a v : val) (n : option val) : R val :=
  do needle0 <- to_text_find a;
  do hay0 <- to_text_find v;
  do start <- start_of n;
  let needle := ascii_lower needle0 in
  let hay := ascii_lower hay0 in
  match needle with
  | [] => Ok (VInt 1)
  | _ =>
      if len hay <? start then Err EVal
      else if existsb (fun c => (c =? 42) || (c =? 63))%N needle
      then found (wildcard_search needle hay start)
      else found (char_find hay needle start)
  end.

(** EXACT (350-361) *)
Definition f_exact (a b : val) : R val :=
  do x <- to_text_find a; do y <- to_text_find b; Ok (VBool (text_eqb x y)).

(** TRIM (trim_case_concat.rs 179-202) *)
Fixpoint trim_go (s out : text) (prev : bool) : text :=
  match s with
  | [] => out
  | c :: r =>
      if CrModel.is_ws c then trim_go r out true
      else
        let out' := if prev && negb (match out with [] => true | _ => false end)
                    then out ++ [32%N] else out in
        trim_go r (out' ++ [c]) false
  end.
Definition f_trim (v : val) : R val :=
  do s <- to_text v; Ok (VText (CrModel.trim (trim_go s [] false))).

(** UPPER (257-265), LOWER (320-328) *)
Definition f_upper (v : val) : R val := do s <- to_text v; Ok (VText (ascii_upper s)).
Definition f_lower (v : val) : R val := do s <- to_text v; Ok (VText (ascii_lower s)).

(** PROPER (384-410) *)
Fixpoint proper_go (s : text) (new_word : bool) : text :=
  match s with
  | [] => []
  | c :: r =>
      if alnum c then (if new_word then up c else low c) ++ proper_go r false
      else c :: proper_go r true
  end.
Definition f_proper (v : val) : R val := do s <- to_text v; Ok (VText (proper_go s true)).

(** append_with_limit (83-97) *)
Definition max_chars : Z := 32767.
Definition append (out t : text) : R text :=
  if max_chars <? len out + len t then Err EVal else Ok (out ++ t).

(** CONCAT (473-488); the cells of all arguments in order. *)
Fixpoint concat_go (vs : list val) (out : text) : R text :=
  match vs with
  | [] => Ok out
  | v :: r => do t <- to_text v; do o <- append out t; concat_go r o
  end.
Definition f_concat (vs : list val) : R val := do t <- concat_go vs []; Ok (VText t).

(** CONCATENATE (546-558); one scalar per argument. *)
Fixpoint concatenate_go (vs : list val) (out : text) : R text :=
  match vs with
  | [] => Ok out
  | v :: r => do t <- to_text v; concatenate_go r (out ++ t)
  end.
Definition f_concatenate (vs : list val) : R val :=
  do t <- concatenate_go vs []; Ok (VText t).

(** TEXTJOIN (621-699) *)
Definition flag_of (v : val) : R bool :=
  match v with
  | VBool b => Ok b
  | VInt z => Ok (negb (z =? 0))
  | VNum x => Ok (match x with FFin q => negb (Qnum q =? 0) | _ => true end)
  | VText t => Ok (text_eqb (upper t) (tx "TRUE"))
  | VEmpty => Ok false
  | VErr e => Err e
  | VCal _ _ => Ok false
  end.
Fixpoint textjoin_go (d : text) (ig : bool) (vs : list val) (out : text) (has : bool) : R text :=
  match vs with
  | [] => Ok out
  | VErr e :: _ => Err e
  | VEmpty :: r =>
      if ig then textjoin_go d ig r out has
      else do o <- (if has then append out d else Ok out); textjoin_go d ig r o true
  | v :: r =>
      do t <- to_text_find v;
      if negb ig || negb (match t with [] => true | _ => false end) then
        do o <- (if has then append out d else Ok out);
        do o2 <- append o t;
        textjoin_go d ig r o2 true
      else textjoin_go d ig r out has
  end.
Definition f_textjoin (d i : val) (vs : list val) : R val :=
  do s <- to_text d;
  do ig <- flag_of i;
  do t <- textjoin_go s ig vs [] false;
  Ok (VText t).

(** CHAR (char_code_rept.rs 81-140): Windows-1252 to Unicode. *)
Definition w1252 : list (Z * N) :=
  [ (128, 8364%N); (130, 8218%N); (131, 402%N); (132, 8222%N); (133, 8230%N); (134, 8224%N)
  ; (135, 8225%N); (136, 710%N); (137, 8240%N); (138, 352%N); (139, 8249%N); (140, 338%N)
  ; (142, 381%N); (145, 8216%N); (146, 8217%N); (147, 8220%N); (148, 8221%N); (149, 8226%N)
  ; (150, 8211%N); (151, 8212%N); (152, 732%N); (153, 8482%N); (154, 353%N); (155, 8250%N)
  ; (156, 339%N); (158, 382%N); (159, 376%N)
  ; (129, 65533%N); (141, 65533%N); (143, 65533%N); (144, 65533%N); (157, 65533%N) ].
Definition char_of_code (z : Z) : N :=
  match List.find (fun p => fst p =? z) w1252 with
  | Some p => snd p
  | None => Z.to_N z
  end.
Definition f_char (v : val) : R val :=
  do x <- to_num v;
  let code := as_i32 x in
  if negb ((1 <=? code) && (code <=? 255)) then Err EVal
  else Ok (VText [char_of_code code]).

(** CODE (200-259); its table is the one of CHAR without the five placeholders. *)
Definition w1252_back : list (N * Z) :=
  [ (8364%N, 128); (8218%N, 130); (402%N, 131); (8222%N, 132); (8230%N, 133); (8224%N, 134)
  ; (8225%N, 135); (710%N, 136); (8240%N, 137); (352%N, 138); (8249%N, 139); (338%N, 140)
  ; (381%N, 142); (8216%N, 145); (8217%N, 146); (8220%N, 147); (8221%N, 148); (8226%N, 149)
  ; (8211%N, 150); (8212%N, 151); (732%N, 152); (8482%N, 153); (353%N, 154); (8250%N, 155)
  ; (339%N, 156); (382%N, 158); (376%N, 159) ].
Definition code_of_char (c : N) : Z :=
  match List.find (fun p => (fst p =? c)%N) w1252_back with
  | Some p => snd p
  | None => Z.of_N c
  end.
Definition f_code (v : val) : R val :=
  do s <- raw_text v;
  match s with [] => Err EVal | c :: _ => Ok (VInt (code_of_char c)) end.

(** asc_convert (262-275), ASC (326-343) *)
Definition asc_char (c : N) : N :=
  if (c =? 12288)%N then 32%N
  else if (65281 <=? c)%N && (c <=? 65374)%N then (c - 65281 + 33)%N
  else c.
Definition f_asc (v : val) : R val := do s <- raw_text v; Ok (VText (map asc_char s)).

(** REPT (402-441); [text.len()] is in bytes, the product a usize. *)
Definition f_rept (v n : val) : R val :=
  do s <- raw_text v;
  do x <- to_num n;
  let count := as_i64 x in
  if count <? 0 then Err EVal
  else if chk && (2 ^ 64 <=? blen s * count) then Panic
  else if 32767 <? (blen s * count) mod 2 ^ 64 then Err EVal
  else sliced (str_repeat s count).

(** CLEAN (extended.rs 100-115) *)
Definition f_clean (v : val) : R val :=
  do s <- to_text v; Ok (VText (filter (fun c => (32 <=? c)%N) s)).

(** UNICHAR (175-203), UNICODE (262-281) *)
Definition f_unichar (v : val) : R val :=
  do x <- to_num v;
  let code := as_u32 x in
  if (code =? 0) || ((55296 <=? code) && (code <=? 57343)) || (1114111 <? code) then Err EVal
  else Ok (VText [Z.to_N code]).
Definition f_unicode (v : val) : R val :=
  do s <- to_text v;
  match s with [] => Err EVal | c :: _ => Ok (VInt (Z.of_N c)) end.

(** The occurrence TEXTBEFORE and TEXTAFTER cut at (379-452, 510-583). *)
Definition instance_of (n : option val) : R Z :=
  match n with None => Ok 1 | Some v => do x <- to_num v; Ok (as_i32 x) end.
Definition occurrence (s d : text) (i : Z) : R (text * text) :=
  match d with
  | [] => Err EVal
  | _ =>
      if i =? 0 then Err EVal
      else
        let ms := match_indices d s in
        if 0 <? i then
          match nth_error ms (Z.to_nat (i - 1)) with Some m => Ok m | None => Err ENa end
        else
          let k := Z.of_nat (length ms) + i in
          if k <? 0 then Err ENa
          else match nth_error ms (Z.to_nat k) with Some m => Ok m | None => Err ENa end
  end.
Definition f_textbefore (v d : val) (n : option val) : R val :=
  do s <- to_text v; do t <- to_text d; do i <- instance_of n;
  do m <- occurrence s t i; Ok (VText (fst m)).
Definition f_textafter (v d : val) (n : option val) : R val :=
  do s <- to_text v; do t <- to_text d; do i <- instance_of n;
  do m <- occurrence s t i; Ok (VText (snd m)).

(** split_by_delimiters (array_text.rs 163-228).  Positions are bytes of the
    string searched, which is lower-cased when case is ignored, and are used as
    bytes of the original. *)
Fixpoint earliest (w : text) (cs : Z) (ds : list text) (best : option (Z * Z)) : option (Z * Z) :=
  match ds with
  | [] => best
  | d :: r =>
      match d with
      | [] => earliest w cs r best
      | _ =>
          match cut d w with
          | None => earliest w cs r best
          | Some (a, _) =>
              let p := cs + blen a in
              match best with
              | None => earliest w cs r (Some (p, blen d))
              | Some (q, _) => if p <? q then earliest w cs r (Some (p, blen d))
                               else earliest w cs r best
              end
          end
      end
  end.
Fixpoint split_go (fuel : nat) (s work : text) (ds : list text) (cs : Z) : option (list text * Z) :=
  match fuel with
  | O => None
  | S f =>
      if cs <? blen s then
        match byte_from work cs with
        | None => None
        | Some w =>
            match earliest w cs ds None with
            | Some (p, l) =>
                match byte_slice s cs p with
                | None => None
                | Some part =>
                    match split_go f s work ds (p + l) with
                    | None => None
                    | Some (ps, e) => Some (part :: ps, e)
                    end
                end
            | None =>
                match byte_from s cs with
                | None => None
                | Some part => Some ([part], cs)
                end
            end
        end
      else Some ([], cs)
  end.
Definition ends_with (p s : text) : bool := starts (rev p) (rev s).
Definition split_by (s : text) (ds : list text) (ci : bool) : option (list text) :=
  match ds with
  | [] => Some [s]
  | _ =>
      let work := if ci then lower s else s in
      let dw := if ci then map lower ds else ds in
      match split_go (S (Z.to_nat (blen s))) s work dw 0 with
      | None => None
      | Some (ps, e) =>
          if (e =? blen s) && negb (match s with [] => true | _ => false end)
             && existsb (fun d => match d with [] => false | _ => ends_with d work end) dw
          then Some (ps ++ [[]]) else Some ps
      end
  end.

(** get_delimiters (44-84): the cells of the argument. *)
Fixpoint delims_of (vs : list val) : R (list text) :=
  match vs with
  | [] => Ok []
  | v :: r =>
      do t <- to_text v;
      do ts <- delims_of r;
      Ok (match t with [] => ts | _ => t :: ts end)
  end.

(** TEXTSPLIT (290-401), after its arguments are read. *)
Inductive grid := GScalar (v : val) | GRows (rows : list (list val)).
Definition nonempty (t : text) : bool := match t with [] => false | _ => true end.
Fixpoint split_rows (parts : list text) (cds : list text) (ig ci : bool) : option (list (list val)) :=
  match parts with
  | [] => Some []
  | t :: r =>
      if ig && negb (nonempty t) then split_rows r cds ig ci
      else match split_by t cds ci with
           | None => None
           | Some cols =>
               let row := map VText (if ig then filter nonempty cols else cols) in
               match split_rows r cds ig ci with
               | None => None
               | Some rest => Some (match row with [] => rest | _ => row :: rest end)
               end
           end
  end.
Definition widest (rows : list (list val)) : nat :=
  fold_right (fun row m => Nat.max (length row) m) O rows.
Definition pad_row (pad : val) (w : nat) (row : list val) : list val :=
  row ++ repeat pad (w - length row).
Definition collapse (rows : list (list val)) : grid :=
  match rows with [[v]] => GScalar v | _ => GRows rows end.
Definition f_textsplit (v : val) (cols rws : list val) (ig ci : bool) (pad : val) : R grid :=
  do s <- to_text v;
  do cds <- delims_of cols;
  do rds <- delims_of rws;
  match (match rds with [] => Some [s] | _ => split_by s rds ci end) with
  | None => Panic
  | Some parts =>
      match split_rows parts cds ig ci with
      | None => Panic
      | Some [] => Ok (GScalar (VText []))
      | Some rows => Ok (collapse (map (pad_row pad (widest rows)) rows))
      end
  end.
End Text.
