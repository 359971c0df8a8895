(** Integer worksheet functions: numeral systems, bit operations, Roman
    numerals, greatest common divisors.

    crates/formualizer-eval/src/builtins/engineering.rs (bit functions 15-481,
    base conversions 484-1815), builtins/math/numeric.rs (ROMAN, ARABIC, BASE,
    DECIMAL 2274-2790) and builtins/math/combinatorics.rs (GCD, LCM 109-325).

    Simplifications.  A scalar f64 is NaN, an infinity or a rational number, so
    comparisons, [trunc] and the saturating casts to integers are exact here.
    The conversion of a result to f64 ([x as f64]) is not modelled: results are
    integers.  Arguments are the literals the functions receive; evaluation of
    the arguments, their schemas and arrays are left out.  An [Err] returned by
    a function and an error value returned by it are the same outcome. *)
From Coq Require Import String Ascii QArith.
From Verif Require Import Base Maps.
Close Scope Q_scope.
Local Open Scope Z_scope.

Definition tx (s : string) : text := List.map N_of_ascii (list_ascii_of_string s).

(** An f64. *)
Inductive fnum :=
| FNaN
| FInf (neg : bool)
| FFin (q : Q).

Definition qtrunc (q : Q) : Z := Z.quot (Qnum q) (Zpos (Qden q)).

(** [x as iN]/[x as uN]: saturating, NaN gives 0. *)
Definition as_int (lo hi : Z) (x : fnum) : Z :=
  match x with
  | FNaN => 0
  | FInf true => lo
  | FInf false => hi
  | FFin q => Z.max lo (Z.min hi (qtrunc q))
  end.
Definition as_i64 : fnum -> Z := as_int (- 2 ^ 63) (2 ^ 63 - 1).
Definition as_i32 : fnum -> Z := as_int (- 2 ^ 31) (2 ^ 31 - 1).
Definition as_u32 : fnum -> Z := as_int 0 (2 ^ 32 - 1).
Definition as_usize : fnum -> Z := as_int 0 (2 ^ 64 - 1).

(** [LiteralValue] as far as these functions tell values apart; [LOther] is a
    date, time or duration with its serial number, or ([None]) anything else. *)
Inductive err := EValue | ENum | EGiven (k : N).
Inductive lit :=
| LInt (z : Z)
| LNum (x : fnum)
| LText (s : text)
| LBool (b : bool)
| LEmpty
| LErr (e : err)
| LOther (serial : option fnum).

Inductive out :=
| OInt (z : Z)          (* LiteralValue::Number, before [as f64] *)
| OText (s : text)
| OErr (e : err)
| OPanic.

(** Characters.  [digit_of base c] is [char::to_digit]; [char_of d] is
    [char::from_digit] in upper case, as [{:X}] and BASE print it. *)
Definition digit_val (c : N) : option Z :=
  let z := Z.of_N c in
  if (48 <=? z) && (z <=? 57) then Some (z - 48)
  else if (65 <=? z) && (z <=? 90) then Some (z - 55)
  else if (97 <=? z) && (z <=? 122) then Some (z - 87)
  else None.
Definition digit_of (base : Z) (c : N) : option Z :=
  match digit_val c with Some d => if d <? base then Some d else None | None => None end.
Definition char_of (d : Z) : N := Z.to_N (if d <? 10 then d + 48 else d + 55).

(** [i64::from_str_radix]: an optional sign, at least one digit, every step
    checked for overflow. *)
Definition in_i64 (z : Z) : bool := (- 2 ^ 63 <=? z) && (z <=? 2 ^ 63 - 1).
Fixpoint radix_go (base sgn acc : Z) (s : text) : option Z :=
  match s with
  | [] => Some acc
  | c :: r =>
      match digit_of base c with
      | None => None
      | Some d =>
          if in_i64 (acc * base) then
            if in_i64 (acc * base + sgn * d) then radix_go base sgn (acc * base + sgn * d) r
            else None
          else None
      end
  end.
Definition from_str_radix (base : Z) (s : text) : option Z :=
  match s with
  | [] => None
  | [c] => if ((c =? 43) || (c =? 45))%N then None else radix_go base 1 0 s
  | c :: r =>
      if (c =? 43)%N then radix_go base 1 0 r
      else if (c =? 45)%N then radix_go base (-1) 0 r
      else radix_go base 1 0 s
  end.

(** [format!("{:b}")], ["{:o}"], ["{:X}"] of a non-negative integer, and the
    loop of BASE (numeric.rs 2673-2690): digits from the least significant on,
    then reversed.  The fuel is one more than the binary length. *)
Fixpoint digs (fuel : nat) (base n : Z) : list Z :=
  match fuel with
  | O => []
  | S f => if n <=? 0 then [] else digs f base (n / base) ++ [n mod base]
  end.
Definition fmt (base n : Z) : text :=
  if n =? 0 then [char_of 0]
  else List.map char_of (digs (S (Z.to_nat (Z.log2 n))) base n).

(** [format!("{:0>width$}")]: zeros in front up to the width. *)
Definition pad (w : Z) (s : text) : text := repeat 48%N (Z.to_nat w - length s) ++ s.

(** [str::replace]: all non-overlapping occurrences from the left. *)
Fixpoint starts (p s : text) : bool :=
  match p, s with
  | [], _ => true
  | a :: p', b :: s' => (a =? b)%N && starts p' s'
  | _ :: _, [] => false
  end.
Fixpoint replace_go (skip : nat) (p q s : text) : text :=
  match s with
  | [] => []
  | c :: r =>
      match skip with
      | S k => replace_go k p q r
      | O => if starts p s then q ++ replace_go (length p - 1) p q r
             else c :: replace_go 0 p q r
      end
  end.
Definition replace (p q s : text) : text := replace_go 0 p q s.

(** roman_classic (numeric.rs 2274-2299). *)
Definition roman_table : list (Z * text) :=
  [ (1000, tx "M"%string); (900, tx "CM"%string); (500, tx "D"%string); (400, tx "CD"%string)
  ; (100, tx "C"%string); (90, tx "XC"%string); (50, tx "L"%string); (40, tx "XL"%string)
  ; (10, tx "X"%string); (9, tx "IX"%string); (5, tx "V"%string); (4, tx "IV"%string)
  ; (1, tx "I"%string) ].
(** The inner [while n >= value]; its number of rounds is the quotient. *)
Fixpoint roman_go (t : list (Z * text)) (n : Z) : text :=
  match t with
  | [] => []
  | (v, g) :: r => List.concat (repeat g (Z.to_nat (n / v))) ++ roman_go r (n mod v)
  end.
Definition roman_classic (n : Z) : text := roman_go roman_table n.

(** roman_apply_form (2301-2324). *)
Definition r2 (a b : string) (s : text) : text := replace (tx a) (tx b) s.
Definition form1 (s : text) : text :=
  r2 "IX"%string "IV"%string
    (r2 "XL"%string "VL"%string
      (r2 "XC"%string "VL"%string
        (r2 "CD"%string "LD"%string (r2 "CM"%string "LM"%string s)))).
Definition form2 (s : text) : text :=
  r2 "VLIV"%string "IX"%string (r2 "LM"%string "XM"%string (r2 "LD"%string "XD"%string (form1 s))).
Definition form3 (s : text) : text :=
  r2 "IX"%string "IV"%string (r2 "XM"%string "VM"%string (r2 "XD"%string "VD"%string (form2 s))).
Definition form4 (s : text) : text :=
  r2 "VMIV"%string "IM"%string (r2 "VDIV"%string "ID"%string (form3 s)).
Definition roman_apply_form (s : text) (form : Z) : text :=
  if form =? 0 then s
  else if form =? 1 then form1 s
  else if form =? 2 then form2 s
  else if form =? 3 then form3 s
  else if form =? 4 then form4 s
  else s.

(** roman_digit_value (2446-2457). *)
Definition roman_digit_value (c : N) : option Z :=
  match c with
  | 73%N => Some 1 | 86%N => Some 5 | 88%N => Some 10 | 76%N => Some 50
  | 67%N => Some 100 | 68%N => Some 500 | 77%N => Some 1000
  | _ => None
  end.

(** The loop of ARABIC over the reversed text (2553-2569). *)
Fixpoint arabic_go (total prev : Z) (s : text) : option Z :=
  match s with
  | [] => Some total
  | c :: r =>
      match roman_digit_value c with
      | None => None
      | Some v => if v <? prev then arabic_go (total - v) prev r else arabic_go (total + v) v r
      end
  end.

(** [gcd] of GCD and LCM (combinatorics.rs 149-151): recursion on the second
    argument, which decreases. *)
Fixpoint gcd_go (fuel : nat) (a b : Z) : Z :=
  match fuel with
  | O => a
  | S f => if b =? 0 then a else gcd_go f b (a mod b)
  end.
Definition gcd (a b : Z) : Z := gcd_go (S (Z.to_nat b)) a b.

(** Machine arithmetic that may overflow: with overflow checks ([true], as in
    debug builds) it panics, without them it wraps. *)
Definition u64_mul (chk : bool) (a b : Z) : option Z :=
  if a * b <? 2 ^ 64 then Some (a * b) else if chk then None else Some ((a * b) mod 2 ^ 64).
Definition i32_neg_as_u32 (chk : bool) (s : Z) : option Z :=
  if s =? - 2 ^ 31 then (if chk then None else Some (2 ^ 31)) else Some (- s).
(** [n << s] on i64 for [s < 64]: bits shifted out are lost, never checked. *)
Definition wrap_i64 (z : Z) : Z := (z + 2 ^ 63) mod 2 ^ 64 - 2 ^ 63.
Definition i64_shl (n s : Z) : Z := wrap_i64 (n * 2 ^ s).
Definition i64_shr (n s : Z) : Z := n / 2 ^ s.

Section Functions.
(** [i as f64]; [str::parse::<f64>] behind [parse_number_invariant];
    [str::trim]; [str::to_uppercase]; [i64::to_string]. *)
Variable i2f : Z -> fnum.
Variable parse_num : text -> option fnum.
Variable trim upper : text -> text.
Variable show : Z -> text.
Variable chk : bool.

(** to_number_strict/to_number_lenient (coercion.rs 10-36). *)
Definition coerce_num (v : lit) : fnum + err :=
  match v with
  | LInt z => inl (i2f z)
  | LNum x => inl x
  | LBool b => inl (FFin (if b then 1%Q else 0%Q))
  | LEmpty => inl (FFin 0%Q)
  | LText s => match parse_num s with Some x => inl x | None => inr EValue end
  | LErr e => inr e
  | LOther (Some x) => inl x
  | LOther None => inr EValue
  end.

(** to_bitwise_int (engineering.rs 15-22): [n < 0.0 || n != n.trunc() || n >= 2^48]. *)
Definition to_bitwise_int (v : lit) : Z + err :=
  match coerce_num v with
  | inr e => inr e
  | inl (FFin q) =>
      if (Qnum q <? 0) || negb (Z.rem (Qnum q) (Zpos (Qden q)) =? 0)
         || (281474976710656 * Zpos (Qden q) <=? Qnum q)
      then inr ENum
      else inl (as_i64 (FFin q))
  | inl _ => inr ENum
  end.

(** BITAND, BITOR, BITXOR (79-107, 163-191, 247-275). *)
Definition bit2 (op : Z -> Z -> Z) (a b : lit) : out :=
  match to_bitwise_int a with
  | inr e => OErr e
  | inl x => match to_bitwise_int b with inr e => OErr e | inl y => OInt (op x y) end
  end.
Definition f_bitand := bit2 Z.land.
Definition f_bitor := bit2 Z.lor.
Definition f_bitxor := bit2 Z.lxor.

(** BITLSHIFT (331-378). *)
Definition f_bitlshift (a b : lit) : out :=
  match to_bitwise_int a with
  | inr e => OErr e
  | inl n =>
      match coerce_num b with
      | inr e => OErr e
      | inl x =>
          let shift := as_i32 x in
          if 0 <=? shift then
            if 48 <=? shift then OErr ENum
            else if 281474976710656 <=? i64_shl n shift then OErr ENum
            else OInt (i64_shl n shift)
          else
            match i32_neg_as_u32 chk shift with
            | None => OPanic
            | Some r => OInt (if 48 <=? r then 0 else i64_shr n r)
            end
      end
  end.

(** BITRSHIFT (433-478). *)
Definition f_bitrshift (a b : lit) : out :=
  match to_bitwise_int a with
  | inr e => OErr e
  | inl n =>
      match coerce_num b with
      | inr e => OErr e
      | inl x =>
          let shift := as_i32 x in
          if 0 <=? shift then OInt (if 48 <=? shift then 0 else i64_shr n shift)
          else
            match i32_neg_as_u32 chk shift with
            | None => OPanic
            | Some l =>
                if 48 <=? l then OErr ENum
                else if 281474976710656 <=? i64_shl n l then OErr ENum
                else OInt (i64_shl n l)
            end
      end
  end.

(** coerce_base_text (485-493). *)
Definition coerce_base_text (v : lit) : text + err :=
  match v with
  | LText s => inl s
  | LInt z => inl (show z)
  | LNum x => inl (show (as_i64 x))
  | LErr e => inr e
  | _ => inr EValue
  end.

(** The digit tests of the three bases: [c == '0' || c == '1'],
    [('0'..='7').contains(&c)], [c.is_ascii_hexdigit()]. *)
Definition is_bin (c : N) : bool := ((c =? 48) || (c =? 49))%N.
Definition is_oct (c : N) : bool := ((48 <=? c) && (c <=? 55))%N.
Definition is_hex (c : N) : bool :=
  (((48 <=? c) && (c <=? 57)) || ((65 <=? c) && (c <=? 70)) || ((97 <=? c) && (c <=? 102)))%N.

(** Shared shape of the first half of the conversions from a base: length and
    digit test, then two's complement if the text has ten characters and
    starts at or above [neg]. *)
Definition read_base (base modulus : Z) (isd : N -> bool) (neg : N) (s : text) : option Z :=
  if (10 <? Z.of_nat (length s)) || negb (forallb isd s) then None
  else
    let v := match from_str_radix base s with Some v => v | None => 0 end in
    if (Z.of_nat (length s) =? 10) && match s with c :: _ => (neg <=? c)%N | [] => false end
    then Some (v - modulus) else Some v.
Definition read_bin := read_base 2 1024 is_bin 49.
Definition read_oct := read_base 8 (2 ^ 30) is_oct 52.
Definition read_hex := read_base 16 (2 ^ 40) is_hex 56.

(** The places argument: [Some(coerce_num(&other)? as usize)]. *)
Definition places_arg (p : option lit) : option Z + err :=
  match p with
  | None => inl None
  | Some v => match coerce_num v with inl x => inl (Some (as_usize x)) | inr e => inr e end
  end.

(** Shared shape of the second half of the conversions to a base: digits, two's
    complement with ten digits for a negative number, then the places. *)
Definition write_base (base modulus n : Z) (places : option Z) : out :=
  let t := if 0 <=? n then fmt base n else pad 10 (fmt base (n + modulus)) in
  match places with
  | Some p =>
      if (p <? Z.of_nat (length t)) || (10 <? p) then OErr ENum else OText (pad p t)
  | None => OText t
  end.

(** X2DEC (548-591, 746-789, 943-984). *)
Definition to_dec (read : text -> option Z) (up : text -> text) (v : lit) : out :=
  match coerce_base_text v with
  | inr e => OErr e
  | inl s => match read (up s) with Some n => OInt n | None => OErr ENum end
  end.
Definition f_bin2dec := to_dec read_bin (fun s => s).
Definition f_oct2dec := to_dec read_oct (fun s => s).
Definition f_hex2dec := to_dec read_hex upper.

(** DEC2X (641-690, 838-887, 1035-1084). *)
Definition of_dec (base modulus lo hi : Z) (v : lit) (p : option lit) : out :=
  match coerce_num v with
  | inr e => OErr e
  | inl x =>
      let n := as_i64 x in
      if (lo <=? n) && (n <=? hi) then
        match places_arg p with inr e => OErr e | inl pl => write_base base modulus n pl end
      else OErr ENum
  end.
Definition f_dec2bin := of_dec 2 1024 (-512) 511.
Definition f_dec2oct := of_dec 8 (2 ^ 30) (- 2 ^ 29) (2 ^ 29 - 1).
Definition f_dec2hex := of_dec 16 (2 ^ 40) (- 2 ^ 39) (2 ^ 39 - 1).

(** The six conversions between bases (1145-1815).  [range] is the test before
    the places argument; BIN2HEX, BIN2OCT and OCT2HEX have none. *)
Definition cross (read : text -> option Z) (up : text -> text) (range : option (Z * Z))
    (base modulus : Z) (v : lit) (p : option lit) : out :=
  match coerce_base_text v with
  | inr e => OErr e
  | inl s =>
      match read (up s) with
      | None => OErr ENum
      | Some n =>
          if match range with Some (lo, hi) => (lo <=? n) && (n <=? hi) | None => true end then
            match places_arg p with inr e => OErr e | inl pl => write_base base modulus n pl end
          else OErr ENum
      end
  end.
Definition f_bin2hex := cross read_bin (fun s => s) None 16 (2 ^ 40).
Definition f_hex2bin := cross read_hex upper (Some (-512, 511)) 2 1024.
Definition f_bin2oct := cross read_bin (fun s => s) None 8 (2 ^ 30).
Definition f_oct2bin := cross read_oct (fun s => s) (Some (-512, 511)) 2 1024.
Definition f_hex2oct := cross read_hex upper (Some (- 2 ^ 29, 2 ^ 29 - 1)) 8 (2 ^ 30).
Definition f_oct2hex := cross read_oct (fun s => s) None 16 (2 ^ 40).

(** ROMAN (2369-2443) with one or two arguments. *)
Definition roman_form (f : option lit) : Z + err :=
  match f with
  | None => inl 0
  | Some (LBool b) => inl (if b then 0 else 4)
  | Some (LNum x) => inl (as_i64 x)
  | Some (LInt z) => inl z
  | Some LEmpty => inl 0
  | Some (LErr e) => inr e
  | Some _ => inr EValue
  end.
Definition f_roman (v : lit) (f : option lit) : out :=
  match coerce_num v with
  | inr e => OErr e
  | inl x =>
      let n := as_i64 x in
      if (0 <=? n) && (n <=? 3999) then
        if n =? 0 then OText []
        else
          match roman_form f with
          | inr e => OErr e
          | inl form =>
              if (0 <=? form) && (form <=? 4) then OText (roman_apply_form (roman_classic n) form)
              else OErr EValue
          end
      else OErr EValue
  end.

(** ARABIC (2509-2575). *)
Definition f_arabic (v : lit) : out :=
  let go (raw : text) : out :=
    let t := upper (trim raw) in
    if 255 <? Z.of_nat (length t) then OErr EValue
    else
      match t with
      | [] => OInt 0
      | c :: r =>
          let '(sgn, body) := if (c =? 45)%N then (-1, r) else (1, t) in
          match body with
          | [] => OErr EValue
          | _ => match arabic_go 0 0 (rev body) with Some n => OInt (sgn * n) | None => OErr EValue end
          end
      end in
  match v with
  | LText s => go s
  | LEmpty => go []
  | LErr e => OErr e
  | _ => OErr EValue
  end.

(** BASE (2638-2696) with two or three arguments; [min_len] is filled up one
    zero at a time. *)
Definition f_base (v r : lit) (l : option lit) : out :=
  match coerce_num v with
  | inr e => OErr e
  | inl x =>
      match coerce_num r with
      | inr e => OErr e
      | inl y =>
          match places_arg l with
          | inr e => OErr e
          | inl ml =>
              let number := as_i64 x in
              let radix := as_i64 y in
              if negb ((2 <=? radix) && (radix <=? 36)) || (number <? 0) then OErr ENum
              else OText (pad (match ml with Some m => m | None => 0 end) (fmt radix number))
          end
      end
  end.

(** DECIMAL (2743-2789). *)
Definition f_decimal (v r : lit) : out :=
  let go (s : text) : out :=
    match coerce_num r with
    | inr e => OErr e
    | inl y =>
        let radix := as_u32 y in
        if negb ((2 <=? radix) && (radix <=? 36)) then OErr ENum
        else match from_str_radix radix (trim s) with Some n => OInt n | None => OErr ENum end
    end in
  match v with
  | LText s => go s
  | LNum x => go (show (as_i64 x))
  | LInt z => go (show z)
  | LErr e => OErr e
  | _ => OErr EValue
  end.

(** One argument of GCD and LCM (combinatorics.rs 156-172): [n.trunc()] in
    [0.0..=9.99999999e9]. *)
Definition gcd_arg (v : lit) : Z + err :=
  match coerce_num v with
  | inr e => inr e
  | inl (FFin q) =>
      if (0 <=? qtrunc q) && (qtrunc q <=? 9999999990) then inl (qtrunc q) else inr ENum
  | inl _ => inr ENum
  end.
Fixpoint gcd_loop (acc : option Z) (vs : list lit) : out :=
  match vs with
  | [] => OInt (match acc with Some r => r | None => 0 end)
  | v :: r =>
      match gcd_arg v with
      | inr e => OErr e
      | inl n => gcd_loop (Some (match acc with None => n | Some a => gcd a n end)) r
      end
  end.
Definition f_gcd (vs : list lit) : out := gcd_loop None vs.

Definition lcm (a b : Z) : option Z :=
  if (a =? 0) || (b =? 0) then Some 0 else u64_mul chk (a / gcd a b) b.
Fixpoint lcm_loop (acc : option Z) (vs : list lit) : out :=
  match vs with
  | [] => OInt (match acc with Some r => r | None => 0 end)
  | v :: r =>
      match gcd_arg v with
      | inr e => OErr e
      | inl n =>
          match acc with
          | None => lcm_loop (Some n) r
          | Some a => match lcm a n with Some m => lcm_loop (Some m) r | None => OPanic end
          end
      end
  end.
Definition f_lcm (vs : list lit) : out := lcm_loop None vs.

End Functions.
