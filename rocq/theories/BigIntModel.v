(** Model of arithmetic::big_int (sources/utilities/bigint.h, bigint.cpp).

    A big_int holds [std::vector<uint32_t> d], least significant digit first,
    interpreted in two's complement (bigint.h:27-30).  Here: [list Z], every
    element being in [0,2^32).  Iterators into [d] are modelled by splitting
    the list at the iterator position. *)

From Coq Require Import ZArith List Bool.
Import ListNotations.
Open Scope Z_scope.

(** Digit base, bigint.h:27 (std::uint32_t) and sign flag, bigint.h:41. *)
Definition B : Z := 4294967296.
Definition neg_flag : Z := 2147483648.

(** Conversion to std::uint32_t: reduction modulo 2^32. *)
Definition w32 (x : Z) : Z := x mod B.
(** Conversion to std::uint64_t. *)
Definition w64 (x : Z) : Z := x mod (B * B).
(** The operator ~ on a uint32_t value. *)
Definition cpl (x : Z) : Z := B - 1 - x.
Definition b2z (b : bool) : Z := if b then 1 else 0.

Definition bigint := list Z.

(** [d.back()]; 0 for the (invalid) empty vector. *)
Definition back (d : bigint) : Z := last d 0.

(** bigint.h:158-161, is_negative, is_zero, is_positive, is_odd. *)
Definition is_negative (d : bigint) : bool := neg_flag <=? back d.
Definition is_zero (d : bigint) : bool :=
  match d with [x] => x =? 0 | _ => false end.
Definition is_positive (d : bigint) : bool :=
  negb (is_negative d || is_zero d).
Definition is_odd (d : bigint) : bool :=
  negb (Z.land (hd 0 d) 1 =? 0).

(** bigint.h:42-43, constructor from [int]; n is a 32-bit signed value. *)
Definition of_int (n : Z) : bigint := [w32 n].

(** bigint.cpp:24-31, from_signed; n is a 64-bit signed value, [n>>32] is the
    arithmetic shift. *)
Definition from_signed (n : Z) : bigint :=
  let high := w32 (n / B) in
  let low := w32 n in
  if (if low <? neg_flag then high =? 0 else high =? B - 1)
  then [low] else [low; high].

(** bigint.cpp:33-42, from_unsigned; n is a 64-bit unsigned value. *)
Definition from_unsigned (n : Z) : bigint :=
  let high := w32 (n / B) in
  let low := w32 n in
  if neg_flag <=? high then [low; high; 0]
  else if negb (high =? 0) || (neg_flag <=? low) then [low; high]
  else [low].

(** bigint.cpp:55-68, carry.  The argument is the part of [d] from the iterator
    to the end (nonempty), the result its replacement. *)
Fixpoint carry (s : bigint) : bigint :=
  match s with
  | [] => []
  | [x] => let y := w32 (x + 1) in if y =? neg_flag then [y; 0] else [y]
  | x :: t =>
      let y := w32 (x + 1) in
      if negb (y =? 0) then
        match t with
        | [z] => if (y =? neg_flag) && (cpl z =? 0) then [y] else y :: t
        | _ => y :: t
        end
      else y :: carry t
  end.

(** bigint.cpp:71-84, borrow, same conventions. *)
Fixpoint borrow (s : bigint) : bigint :=
  match s with
  | [] => []
  | [x] => let y := w32 (x - 1) in
           if y =? cpl neg_flag then [y; B - 1] else [y]
  | x :: t =>
      let y := w32 (x - 1) in
      if negb (cpl y =? 0) then
        match t with
        | [z] => if (y =? cpl neg_flag) && (z =? 0) then [y] else y :: t
        | _ => y :: t
        end
      else y :: borrow t
  end.

(** bigint.cpp:98-102, shrink_pos, on the list of digits most significant
    first. *)
Fixpoint shrink_pos_rev (r : bigint) : bigint :=
  match r with
  | x :: ((y :: _) as t) =>
      if (x =? 0) && (y <? neg_flag) then shrink_pos_rev t else r
  | _ => r
  end.
Definition shrink_pos (d : bigint) : bigint := rev (shrink_pos_rev (rev d)).

(** bigint.cpp:104-108, shrink_neg. *)
Fixpoint shrink_neg_rev (r : bigint) : bigint :=
  match r with
  | x :: ((y :: _) as t) =>
      if (cpl x =? 0) && (neg_flag <=? y) then shrink_neg_rev t else r
  | _ => r
  end.
Definition shrink_neg (d : bigint) : bigint := rev (shrink_neg_rev (rev d)).

(** bigint.h:183, shrink. *)
Definition shrink (d : bigint) : bigint :=
  if is_negative d then shrink_neg d else shrink_pos d.

(** bigint.h:184, sign_extend; only called with [s >= size()]. *)
Definition sign_extend (d : bigint) (s : nat) : bigint :=
  d ++ repeat (if is_negative d then B - 1 else 0) (s - length d).

(** bigint.cpp:87-96, compl_neg.  [compl_neg_digits] is the loop together with
    line 92; it returns the new digits and the final [negate]. *)
Fixpoint compl_neg_digits (s : bigint) (negate : bool) : bigint * bool :=
  match s with
  | [] => ([], negate)
  | [x] => ([w32 (cpl x + b2z negate)], negate)
  | x :: t =>
      let y := w32 (cpl x + b2z negate) in
      let '(t', n') := compl_neg_digits t (negate && (y =? 0)) in
      (y :: t', n')
  end.
(** [pre] are the digits below the iterator, [s] those from it upwards. *)
Definition compl_neg (pre s : bigint) (negate : bool) : bigint :=
  let '(s', n') := compl_neg_digits s negate in
  if n' && (back s' =? neg_flag) then pre ++ s' ++ [0]
  else shrink (pre ++ s').

(** bigint.h:68-69, negate and complement. *)
Definition negate (d : bigint) : bigint := compl_neg [] d true.
Definition complement (d : bigint) : bigint := compl_neg [] d false.

(** bigint.cpp:110-119, operator<.  [lt_rev] is the loop over both vectors of
    equal size, most significant digit first. *)
Fixpoint lt_rev (r x : bigint) : bool :=
  match r, x with
  | a :: r', b :: x' => if negb (a =? b) then a <? b else lt_rev r' x'
  | _, _ => false
  end.
Definition big_lt (d x : bigint) : bool :=
  if xorb (is_negative d) (is_negative x) then is_negative d
  else if negb (Nat.eqb (length d) (length x)) then
    if is_negative d then Nat.ltb (length x) (length d)
    else Nat.ltb (length d) (length x)
  else lt_rev (rev d) (rev x).

(** bigint.cpp:121-129, operator==. *)
Fixpoint eq_digits (d x : bigint) : bool :=
  match d, x with
  | a :: d', b :: x' => if negb (a =? b) then false else eq_digits d' x'
  | _, _ => true
  end.
Definition big_eq (d x : bigint) : bool :=
  if negb (Nat.eqb (length d) (length x)) then false else eq_digits d x.

(** Reinterpretation of a 32- resp. 64-bit word as signed (static_cast<int>,
    std::int32_t, std::int64_t; two's complement). *)
Definition s32 (x : Z) : Z := if x <? neg_flag then x else x - B.
Definition s64 (x : Z) : Z := if x <? neg_flag * B then x else x - B * B.

(** bigint.h:162-163, operator==(int). *)
Definition eq_int (d : bigint) (v : Z) : bool :=
  match d with [x] => s32 x =? v | _ => false end.

(** bigint.cpp:142-170; [None] models the thrown std::runtime_error. *)
Definition int_val (d : bigint) : option Z :=
  if Nat.ltb 1 (length d) then None else Some (s32 (nth 0 d 0)).
Definition uint_val (d : bigint) : option Z :=
  if is_negative d then None
  else if negb (Nat.ltb (length d) 2
                || (Nat.eqb (length d) 2 && (nth 1 d 0 =? 0))) then None
  else Some (nth 0 d 0).
Definition long_val (d : bigint) : option Z :=
  if Nat.ltb 2 (length d) then None
  else if Nat.eqb (length d) 1 then Some (s32 (nth 0 d 0))
  else Some (s64 (w64 (nth 0 d 0 + nth 1 d 0 * B))).
Definition ulong_val (d : bigint) : option Z :=
  if is_negative d then None
  else if negb (Nat.ltb (length d) 3
                || (Nat.eqb (length d) 3 && (nth 2 d 0 =? 0))) then None
  else Some (if Nat.eqb (length d) 1 then nth 0 d 0
             else w64 (nth 0 d 0 + nth 1 d 0 * B)).

(** bigint.cpp:131-140, convert<C> for a signed C of [bits] value bits
    (instantiated with short int, bits = 15). *)
Definition convert (bits : Z) (d : bigint) : option Z :=
  let bound := w32 (2 ^ bits) in
  if Nat.ltb 1 (length d)
     || ((bound <=? nth 0 d 0) && (nth 0 d 0 <? w32 (- bound)))
  then None
  else Some (let y := nth 0 d 0 mod 2 ^ (bits + 1) in
             if y <? 2 ^ bits then y else y - 2 ^ (bits + 1)).

(** bigint.cpp:173-193, operator+=(digit x), x having a signed meaning. *)
Definition add_digit (d : bigint) (x : Z) : bigint :=
  match d with
  | [] => []
  | [d0] =>
      if neg_flag <=? Z.lxor d0 x then [w32 (d0 + x)]
      else
        let y := w32 (d0 + x) in
        if neg_flag <=? Z.lxor y x
        then [y; if x <? neg_flag then 0 else B - 1]
        else [y]
  | d0 :: t =>
      let y := w32 (d0 + x) in
      if x <? neg_flag then
        if y <? x then y :: carry t else shrink_neg (y :: t)
      else
        if x <=? y then y :: borrow t else shrink_pos (y :: t)
  end.

(** bigint.h:57-58 and 64-65: ++, --, operator-=(digit). *)
Definition incr (d : bigint) : bigint := carry d.
Definition decr (d : bigint) : bigint := borrow d.
Definition sub_digit (d : bigint) (x : Z) : bigint :=
  if negb (x =? neg_flag) then add_digit d (w32 (- x))
  else add_digit (incr d) (cpl neg_flag).

(** One step of the loops bigint.cpp:198-201, 249-252, 284-287, 446-448,
    453-455, 709-712: given digits [a], [b] and the carry [c],
    [if (digit s = b+c) c = (a+s) < s]. *)
Definition dstep (a b c : Z) : Z * Z :=
  let s := w32 (b + c) in
  if s =? 0 then (a, c)
  else let y := w32 (a + s) in (y, b2z (y <? s)).

(** The loop bigint.cpp:197-201: adds all but the last digit of [x] into [d].
    Result: new low digits, remaining suffix of [d] (from [it] on),
    the last digit of [x], the carry. *)
Fixpoint add_low (d x : bigint) (c : Z) : bigint * bigint * Z * Z :=
  match x with
  | [] => ([], d, 0, c)                   (* excluded: x is never empty *)
  | [xl] => ([], d, xl, c)
  | xi :: x' =>
      match d with
      | [] => ([], [], 0, c)              (* excluded: size() >= x.size() *)
      | di :: d' =>
          let '(y, c') := dstep di xi c in
          let '(lo, t, xl, cf) := add_low d' x' c' in
          (y :: lo, t, xl, cf)
      end
  end.

(** bigint.cpp:203-226, the second half of [add]: [lo] are the finished digits,
    [t] the digits from [it] upwards, [xl] is [x.d.back()], [c] the carry. *)
Definition add_high (lo t : bigint) (xl c : Z) : bigint :=
  match t with
  | [] => lo
  | [y] =>                                             (* equal length case *)
      if neg_flag <=? Z.lxor y xl
      then shrink (lo ++ [w32 (y + w32 (xl + c))])
      else
        let y' := w32 (y + w32 (xl + c)) in
        if neg_flag <=? Z.lxor y' xl
        then lo ++ [y'; if neg_flag <=? y' then 0 else B - 1]
        else lo ++ [y']
  | y :: r =>                                          (* x is shorter *)
      let s := w32 (xl + c) in
      let y' := w32 (y + s) in
      if xl <? neg_flag then
        if y' <? s then lo ++ y' :: carry r
        else shrink_neg (lo ++ y' :: r)
      else if negb (s =? 0) then
        if s <=? y' then lo ++ y' :: borrow r
        else shrink_pos (lo ++ y' :: r)
      else lo ++ t
  end.

(** bigint.cpp:195-228, add; precondition [length x <= length d]. *)
Definition add (d x : bigint) : bigint :=
  let '(lo, t, xl, c) := add_low d x 0 in add_high lo t xl c.

(** bigint.cpp:230-236, operator+=(const big_int&), for x not aliasing *this. *)
Definition add_assign (d x : bigint) : bigint :=
  add (if Nat.ltb (length d) (length x) then sign_extend d (length x) else d) x.

(** bigint.cpp:238-244, operator+=(big_int&&). *)
Definition add_assign_move (d x : bigint) : bigint :=
  if Nat.ltb (length d) (length x) then add x d else add d x.

(** bigint.cpp:195-211 when x is *this itself (a+=a).  In the digit loop
    [*it+=s] happens after s was read from the same place.  In line 210,
    [( *it+=x.d.back()+c ) xor x.d.back()], the right operand of [xor] is the
    digit being updated by the left one, and C++ does not say which is
    evaluated first: [left_first] selects the order. *)
Definition add_self (left_first : bool) (d : bigint) : bigint :=
  let '(lo, t, xl, c) := add_low d d 0 in
  match t with
  | [y] =>
      (* it points to x.d.back(), their xor is 0, hence line 210 is executed *)
      let y' := w32 (y + w32 (xl + c)) in
      if neg_flag <=? Z.lxor y' (if left_first then y' else y)
      then lo ++ [y'; if neg_flag <=? y' then 0 else B - 1]
      else lo ++ [y']
  | _ => lo ++ t
  end.

(** bigint.cpp:254-277, second half of [sub]; [xl] is [x.d.back()].  The code
    is that of [add] with [x.d.back()] replaced by its complement (lines
    255, 261 and 266 test the sign of [x.d.back()] instead of that of its
    complement, and are transcribed as such). *)
Definition sub_high (lo t : bigint) (xl c : Z) : bigint :=
  match t with
  | [] => lo
  | [y] =>
      if Z.lxor y xl <? neg_flag
      then shrink (lo ++ [w32 (y + w32 (cpl xl + c))])
      else
        let y' := w32 (y + w32 (cpl xl + c)) in
        if Z.lxor y' xl <? neg_flag
        then lo ++ [y'; if neg_flag <=? y' then 0 else B - 1]
        else lo ++ [y']
  | y :: r =>
      let s := w32 (cpl xl + c) in
      let y' := w32 (y + s) in
      if neg_flag <=? xl then
        if y' <? s then lo ++ y' :: carry r
        else shrink_neg (lo ++ y' :: r)
      else if negb (s =? 0) then
        if s <=? y' then lo ++ y' :: borrow r
        else shrink_pos (lo ++ y' :: r)
      else lo ++ t
  end.

(** bigint.cpp:246-252: the loop of [sub] is the one of [add] with complemented
    digits of x and initial carry 1; the last digit is complemented back. *)
Definition sub (d x : bigint) : bigint :=
  let '(lo, t, xl, c) := add_low d (map cpl x) 1 in
  sub_high lo t (cpl xl) c.

(** bigint.cpp:246-261 when x is *this itself (a-=a): the digits of x are
    read before the same digits of *this are overwritten, and the test of line
    255 compares the last digit with itself. *)
Definition sub_self (d : bigint) : bigint :=
  let '(lo, t, xl, c) := add_low d (map cpl d) 1 in
  match t with
  | [y] =>
      if Z.lxor y y <? neg_flag
      then shrink (lo ++ [w32 (y + w32 (cpl y + c))])
      else lo ++ [y]                      (* excluded: the xor is zero *)
  | _ => lo ++ t
  end.

(** bigint.cpp:320-326, operator-=(const big_int&), x not aliasing *this. *)
Definition sub_assign (d x : bigint) : bigint :=
  sub (if Nat.ltb (length d) (length x) then sign_extend d (length x) else d) x.

(** bigint.cpp:283-287, the loop of [sub_from]. *)
Fixpoint sub_from_low (d x : bigint) (c : Z) : bigint * bigint * Z * Z :=
  match x with
  | [] => ([], d, 0, c)
  | [xl] => ([], d, xl, c)
  | xi :: x' =>
      match d with
      | [] => ([], [], 0, c)
      | di :: d' =>
          let '(y, c') := dstep xi (cpl di) c in
          let '(lo, t, xl, cf) := sub_from_low d' x' c' in
          (y :: lo, t, xl, cf)
      end
  end.

(** bigint.cpp:306-311, complement-and-borrow loop over the rest of [d]. *)
Fixpoint compl_borrow (s : bigint) (bw : bool) : bigint * bool :=
  match s with
  | [] => ([], bw)
  | [x] => ([w32 (cpl x - b2z bw)], bw)
  | x :: t =>
      let y := w32 (cpl x - b2z bw) in
      let '(t', b') := compl_borrow t (bw && (y =? 0)) in
      (y :: t', b')
  end.

(** bigint.cpp:289-316, second half of [sub_from]. *)
Definition sub_from_high (lo t : bigint) (xl c : Z) : bigint :=
  match t with
  | [] => lo
  | [y] =>
      let y' := w32 (w32 (xl + cpl y) + c) in
      if Z.lxor y xl <? neg_flag then shrink (lo ++ [y'])
      else if neg_flag <=? Z.lxor y' xl
      then lo ++ [y'; if neg_flag <=? y' then 0 else B - 1]
      else lo ++ [y']
  | y :: r =>
      let s := w32 (xl + c) in
      let y' := w32 (cpl y + s) in
      if xl <? neg_flag then compl_neg (lo ++ [y']) r (y' <? s)
      else if s =? 0 then compl_neg lo t false
      else
        let '(r', bw) := compl_borrow r (s <=? y') in
        if bw && (back r' =? cpl neg_flag)
        then lo ++ y' :: r' ++ [B - 1]
        else shrink (lo ++ y' :: r')
  end.

Definition sub_from (d x : bigint) : bigint :=
  let '(lo, t, xl, c) := sub_from_low d x 1 in sub_from_high lo t xl c.

(** bigint.cpp:328-338, operator-=(big_int&&). *)
Definition sub_assign_move (d x : bigint) : bigint :=
  if Nat.leb (length x) (length d) then sub d x else sub_from x d.

(** bigint.cpp:340-346, subtract_from(const big_int&): *this becomes x - *this. *)
Definition subtract_from (d x : bigint) : bigint :=
  sub_from
    (if Nat.ltb (length d) (length x) then sign_extend d (length x) else d) x.

(** bigint.cpp:348-358, subtract_from(big_int&&). *)
Definition subtract_from_move (d x : bigint) : bigint :=
  if Nat.leb (length x) (length d) then sub_from d x else sub x d.

(** bigint.h:90-99, the eight overloads of binary + and -; "m" marks an operand
    bound to an rvalue reference.  [x += *this] on a named rvalue reference
    selects the const& overload. *)
Definition plus_cc (a x : bigint) : bigint := add_assign a x.
Definition minus_cc (a x : bigint) : bigint := sub_assign a x.
Definition plus_cm (a x : bigint) : bigint := add_assign x a.
Definition minus_cm (a x : bigint) : bigint := subtract_from x a.
Definition plus_mc (a x : bigint) : bigint := add_assign a x.
Definition minus_mc (a x : bigint) : bigint := sub_assign a x.
Definition plus_mm (a x : bigint) : bigint :=
  if Nat.ltb (length a) (length x) then add_assign x a else add_assign a x.
Definition minus_mm (a x : bigint) : bigint :=
  if Nat.ltb (length a) (length x) then subtract_from x a else sub_assign a x.

(** bigint.cpp:361-373, mult_add: unsigned [*this * x + a].  [mult_digits] is
    the loop, returning the digits and the final accumulator. *)
Fixpoint mult_digits (d : bigint) (x acc : Z) : bigint * Z :=
  match d with
  | [] => ([], acc)
  | di :: d' =>
      let acc1 := w64 (acc + di * x) in
      let '(r, f) := mult_digits d' x (acc1 / B) in
      (w32 acc1 :: r, f)
  end.
Definition mult_add (d : bigint) (x a : Z) : bigint :=
  let '(r, acc) := mult_digits d x a in
  if negb (acc =? 0) then r ++ [w32 acc]
  else if is_negative r then r ++ [0]
  else r.

(** bigint.cpp:375-385, operator*=(digit). *)
Definition mul_digit (d : bigint) (x : Z) : bigint :=
  if is_negative d then negate (mult_add (negate d) x 0) else mult_add d x 0.

(** bigint.cpp:387-396, operator*=(int x0). *)
Definition mul_int (d : bigint) (x0 : Z) : bigint :=
  let neg := xorb (x0 <? 0) (is_negative d) in
  let x := if x0 <? 0 then w32 (- w32 x0) else x0 in
  let r := mult_add (if is_negative d then negate d else d) x 0 in
  if neg then negate r else r.

(** bigint.h:32-33, char_val on character codes (ASCII).  [c='A'] is an
    assignment in the source, its value is 65. *)
Definition char_val (c : Z) : Z :=
  if c <=? 57 then w32 (c - 48) else if c <=? 90 then 65 else w32 (c - 97).

(** bigint.cpp:399-409, constructor from a string in base [base]. *)
Definition from_string (s : list Z) (base : Z) (conv : Z -> Z) : bigint :=
  fold_left (fun d c => mult_add d base (conv c)) s [0].

(** bigint.cpp:428-459, operator*.  [mul_row] is the inner loop 436-440 plus
    line 441: it adds [f*x] into the result digits [r] (starting at position
    [it-d.begin()]), and overwrites the next digit with the accumulator. *)
Fixpoint mul_row (f : Z) (x r : bigint) (acc : Z) : bigint :=
  match x with
  | [] => match r with [] => [] | _ :: r' => w32 acc :: r' end
  | xi :: x' =>
      match r with
      | [] => []                      (* excluded: result is long enough *)
      | ri :: r' =>
          let acc1 := w64 (acc + w64 (f * xi + ri)) in
          w32 acc1 :: mul_row f x' r' (acc1 / B)
      end
  end.
(** Outer loop 432-442. *)
Fixpoint mul_rows (d x r : bigint) : bigint :=
  match d with
  | [] => r
  | di :: d' =>
      match mul_row di x r 0 with
      | [] => []
      | r0 :: r' => r0 :: mul_rows d' x r'
      end
  end.
(** Loops 444-448 and 451-455: subtract [x] from the digits [r] of the same
    length, dropping the final borrow. *)
Fixpoint sub_high_digits (r x : bigint) (c : Z) : bigint :=
  match r, x with
  | ri :: r', xi :: x' =>
      let '(y, c') := dstep ri (cpl xi) c in y :: sub_high_digits r' x' c'
  | _, _ => r
  end.
Definition mul (d x : bigint) : bigint :=
  let n := length d in
  let m := length x in
  let r0 := mul_rows d x (repeat 0 (n + m)) in
  let r1 := if is_negative d
            then firstn n r0 ++ sub_high_digits (skipn n r0) x 1 else r0 in
  let r2 := if is_negative x
            then firstn m r1 ++ sub_high_digits (skipn m r1) d 1 else r1 in
  shrink r2.

(** bigint.cpp:461-472, power; e is an unsigned int, the do-while loop runs
    e-1 times for e>1. *)
Fixpoint power_loop (k : nat) (base r : bigint) : bigint :=
  match k with O => r | S k' => power_loop k' base (mul r base) end.
Definition power (d : bigint) (e : nat) : bigint :=
  match e with
  | O => of_int 1
  | S O => d
  | S (S k) => power_loop (S k) d d
  end.

(** bigint.cpp:501-522, shift_modulo.  The loops run from the most significant
    digit; [r] is the digit list most significant first.  Result: new digits
    (most significant first) and the final accumulator. *)
Fixpoint shift_mod_pos (r : bigint) (acc base : Z) : bigint * Z :=
  match r with
  | [] => ([], acc)
  | x :: r' =>
      let a := Z.lor (w64 (acc * B)) x in
      let '(q, f) := shift_mod_pos r' (a mod base) base in
      (w32 (a / base) :: q, f)
  end.
Fixpoint shift_mod_neg (r : bigint) (acc base : Z) : bigint * Z :=
  match r with
  | [] => ([], acc)
  | x :: r' =>
      let a := Z.lor (w64 (acc * B)) (cpl x) in
      let '(q, f) := shift_mod_neg r' (a mod base) base in
      (cpl (w32 (a / base)) :: q, f)
  end.
Definition shift_modulo (d : bigint) (base : Z) : bigint * Z :=
  if negb (is_negative d) then
    let '(q, acc) := shift_mod_pos (rev d) 0 base in
    (shrink_pos (rev q), w32 acc)
  else
    let '(q, acc) := shift_mod_neg (rev d) 0 base in
    (shrink_neg (rev q), w32 (base + (B * B - 1 - acc))).

(** bigint.cpp:525-549, print and operator<<, without a field width.  The output
    is a list of items: the sign, then decimal digits, most significant first.
    [dec_digits] is the decimal conversion done by std::ostream. *)
Fixpoint dec_digits_fuel (fuel : nat) (n : Z) (acc : list Z) : list Z :=
  match fuel with
  | O => acc
  | S k => if n <? 10 then n :: acc
           else dec_digits_fuel k (n / 10) (n mod 10 :: acc)
  end.
Definition dec_digits (n : Z) : list Z := dec_digits_fuel 10 n [].
(** [std::setw(9)] with fill '0'. *)
Fixpoint pad9_fuel (k : nat) (n : Z) (acc : list Z) : list Z :=
  match k with O => acc | S k' => pad9_fuel k' (n / 10) (n mod 10 :: acc) end.
Definition pad9 (n : Z) : list Z := pad9_fuel 9 n [].

(** Result of printing: whether a minus sign is shown, and the digits.  [None]
    means fuel exhausted (never, see the proofs). *)
Fixpoint print_fuel (fuel : nat) (d : bigint) (minus : bool)
  : option (bool * list Z) :=
  match fuel with
  | O => None
  | S k =>
      match d with
      | [x] => let v := if minus then - s32 x else s32 x in
               Some (v <? 0, dec_digits (Z.abs v))
      | _ => let '(q, last) := shift_modulo d 1000000000 in
             match print_fuel k q minus with
             | None => None
             | Some (sg, ds) => Some (sg, ds ++ pad9 last)
             end
      end
  end.
Definition print (d : bigint) : option (bool * list Z) :=
  let neg := is_negative d in
  let d' := if neg then negate d else d in
  print_fuel (S (2 * length d')) d' neg.

(** bits::lastBit (bits.h) on a 32-bit digit: position of the highest set bit
    plus one; 0 for 0.  (Proved about the real loop in BitsProofs.) *)
Definition lastbit32 (x : Z) : Z := if x <=? 0 then 0 else Z.log2 x + 1.

(** bigint.cpp:955-965, LSL on a fixed length array, 0 < n < 32.  [prev] is the
    original next lower digit (0 below the lowest). *)
Fixpoint lsl_digits (d : bigint) (n prev : Z) : bigint :=
  match d with
  | [] => []
  | x :: d' =>
      Z.lor (w32 (x * 2 ^ n)) (prev / 2 ^ (32 - n)) :: lsl_digits d' n x
  end.
Definition lsl (d : bigint) (n : Z) : bigint := lsl_digits d n 0.

(** bigint.cpp:645-650: the estimated quotient digit. *)
Definition q_estimate (acc lead sub_lead : Z) : Z :=
  let q := acc / lead in
  if B <=? q then B - 1
  else if acc mod lead <? w64 (q * sub_lead) / B then q - 1
  else q.

(** bigint.cpp:636-642: the leading two digits (after shifting) of the current
    remainder.  [u] is the window of [div.size()+1] digits, least significant
    first, [below] is below_0. *)
Definition lead_acc (u : bigint) (below : bool) (shift : Z) : Z :=
  let k := length u in
  let f x := if below then cpl x else x in
  let a := Z.lor (w64 (f (nth (k - 1) u 0) * B)) (f (nth (k - 2) u 0)) in
  if negb (shift =? 0)
  then Z.lor (w64 (a * 2 ^ shift)) (f (nth (k - 3) u 0) / 2 ^ (32 - shift))
  else a.

(** bigint.cpp:668-672, subtracting [q*div] in complemented form. *)
Fixpoint mul_sub (u div : bigint) (q acc : Z) : bigint * Z :=
  match div, u with
  | dv :: div', x :: u' =>
      let a := w64 (acc + w64 (cpl x + q * dv)) in
      let '(r, f) := mul_sub u' div' q (a / B) in
      (cpl (w32 a) :: r, f)
  | _, _ => ([], acc)
  end.
(** bigint.cpp:683-687, adding [q*div]. *)
Fixpoint mul_add (u div : bigint) (q acc : Z) : bigint * Z :=
  match div, u with
  | dv :: div', x :: u' =>
      let a := w64 (acc + w64 (x + q * dv)) in
      let '(r, f) := mul_add u' div' q (a / B) in
      (w32 a :: r, f)
  | _, _ => ([], acc)
  end.
(** bigint.cpp:693-695 and 704-706: decrement without change of length. *)
Fixpoint decr_fixed (d : bigint) : bigint :=
  match d with
  | [] => []
  | x :: t => let y := w32 (x - 1) in
              if negb (cpl y =? 0) then y :: t else y :: decr_fixed t
  end.

(** bigint.cpp:635-698, one iteration of the main loop.  The vector [d] is
    split as (digits not yet brought in) ++ [u] ++ [qs], with [u] the window
    of div.size()+1 digits whose top digit is [*it] on entry, and [qs] the
    quotient digits already stored above.  Result: remainder window (div.size()
    digits), quotient digits, below_0. *)
Definition div_step (u qs div : bigint) (below : bool)
    (shift lead sub_lead : Z) : bigint * bigint * bool :=
  let acc := lead_acc u below shift in
  let q := q_estimate acc lead sub_lead in
  let n := length div in
  if q =? 0 then (firstn n u, 0 :: qs, below)
  else if negb below then
    let '(w, a) := mul_sub u div q 0 in
    let a' := w64 (a + cpl (nth n u 0)) in
    (w, w32 q :: qs, w32 a' =? 0)
  else
    let '(w, a) := mul_add u div q 0 in
    let a' := w64 (a + nth n u 0) in
    (w, w32 (- q) :: decr_fixed qs, negb (w32 a' =? 0)).

(** The do-while loop 634-700: [lows] are the digits below the current window,
    most significant first. *)
Fixpoint div_loop (lows w qs div : bigint) (below : bool)
    (shift lead sub_lead : Z) : bigint * bigint * bool :=
  match lows with
  | [] => (w, qs, below)
  | l :: lows' =>
      let '(w', qs', below') :=
        div_step (l :: w) qs div below shift lead sub_lead in
      div_loop lows' w' qs' div below' shift lead sub_lead
  end.

(** bigint.cpp:708-712, adding [div] to the remainder digits. *)
Fixpoint add_fixed (w x : bigint) (c : Z) : bigint :=
  match w, x with
  | a :: w', b :: x' => let '(y, c') := dstep a b c in y :: add_fixed w' x' c'
  | _, _ => w
  end.

(** bigint.cpp:614-729: the general case; [d] and [div] as after line 612
    ([div] unsigned without leading zero digit, at least two digits).
    Result (quotient, remainder). *)
Definition long_division (d div : bigint) (neg_div : bool) : bigint * bigint :=
  let below := is_negative d in
  let dtop := back div in
  let half := dtop / 2 in
  let n := length div in
  let d1 :=
    if Nat.eqb (length d) n
       || (if below then back d <=? cpl half else half <=? back d)
    then sign_extend d (length d + 1) else d in
  let shift := 32 - lastbit32 dtop in
  let work0 :=
    skipn (n - (if (shift =? 0) || Nat.eqb n 2 then 2 else 3)) div in
  let work := if 0 <? shift then lsl work0 shift else work0 in
  let lead := nth (length work - 1) work 0 in
  let sub_lead := nth (length work - 2) work 0 in
  let k := (length d1 - n)%nat in
  let '(w, qs, below1) :=
    div_loop (rev (firstn k d1)) (skipn k d1) [] div below
             shift lead sub_lead in
  let '(w1, qs1) :=
    if below1 then (add_fixed w div 0, decr_fixed qs) else (w, qs) in
  let quotient := shrink qs1 in
  let r := shrink_pos (if is_negative w1 then w1 ++ [0] else w1) in
  (quotient, if neg_div then negate r else r).

(** bigint.cpp:555-559: the test for the easy cases of reduce_mod. *)
Definition easy_case (d divisor : bigint) : bool :=
  Nat.leb (length d) (length divisor)
  && (Nat.ltb (length d) (length divisor)
      || ((if is_negative d then w32 (- back d) else back d)
          <? (if is_negative divisor then w32 (- back divisor)
              else back divisor))).

(** bigint.cpp:552-729, reduce_mod: [Some (quotient, remainder)], or [None]
    for the exception "Division by zero". *)
Definition reduce_mod (d divisor : bigint) : option (bigint * bigint) :=
  let neg_div := is_negative divisor in
  if easy_case d divisor then
    if Bool.eqb (is_negative d) neg_div || is_zero d
    then Some (of_int 0, d)
    else Some (of_int (-1), add_assign d divisor)
  else if Nat.eqb (length divisor) 1 then
    let d0 := nth 0 divisor 0 in
    if w32 (d0 + 1) <? 3 then
      if d0 =? 0 then None
      else Some (if neg_div then negate d else d, [0])
    else
      let dv := if neg_div then w32 (- d0) else d0 in
      let d1 := if neg_div then negate d else d in
      let '(q, r) := shift_modulo d1 dv in
      Some (q, of_int (if neg_div then w32 (- r) else r))
  else
    let div0 := if neg_div then negate divisor else divisor in
    let d1 := if neg_div then negate d else d in
    let div := if back div0 =? 0 then removelast div0 else div0 in
    if (back div0 =? 0) && Nat.eqb (length div) 1 then
      let '(q, r) := shift_modulo d1 (nth 0 div 0) in
      Some (q, if neg_div then negate (from_unsigned r) else from_unsigned r)
    else Some (long_division d1 div neg_div).

(** bigint.h:103-109 and 81-82: %, /, with the shortcut for divisor 1. *)
Definition big_mod (d divisor : bigint) : option bigint :=
  match reduce_mod d divisor with Some (_, r) => Some r | None => None end.
Definition big_div (d divisor : bigint) : option bigint :=
  if eq_int divisor 1 then Some d
  else match reduce_mod d divisor with Some (q, _) => Some q | None => None end.

(** bigint.cpp:979-993, gcd.  The loop is run with fuel, 32 rounds per digit of
    [a] (always enough, see the proofs); [None] also stands for an exception
    (never raised). *)
Fixpoint gcd_loop (fuel : nat) (a b : bigint) : option bigint :=
  match fuel with
  | O => None
  | S k =>
      match big_mod b a with
      | None => None
      | Some b' =>
          if is_zero b' then Some a
          else match big_mod a b' with
               | None => None
               | Some a' => if is_zero a' then Some b' else gcd_loop k a' b'
               end
      end
  end.
Definition big_gcd (a b : bigint) : option bigint :=
  if is_zero a then Some (if is_negative b then negate b else b)
  else gcd_loop (32 * length a) (if is_negative a then negate a else a) b.

(** bigint.cpp:995-1002, lcm. *)
Definition big_lcm (a b : bigint) : option bigint :=
  match big_gcd a b with
  | None => None
  | Some d =>
      if eq_int d 1 then Some (mul a b)
      else if Nat.leb (length a) (length b) then
        match big_div a d with Some q => Some (mul q b) | None => None end
      else
        match big_div b d with Some q => Some (mul a q) | None => None end
  end.

(** bigint.cpp:731-774, operator&=.  [map2] combines the digits present in
    both arguments. *)
Fixpoint map2 (f : Z -> Z -> Z) (a b : bigint) : bigint :=
  match a, b with
  | x :: a', y :: b' => f x y :: map2 f a' b'
  | _, _ => []
  end.
(** Combination of the low digits of [d] with [x], keeping the higher digits
    of [d] (loops like bigint.cpp:745-746). *)
Definition low2 (f : Z -> Z -> Z) (d x : bigint) : bigint :=
  map2 f d x ++ skipn (length x) d.
(** Lines 766-769: drop leading digits equal to [z] but keep at least one digit,
    on a list with most significant digit first; then keep one [z] if the top
    digit has the wrong sign bit [sgn]. *)
Fixpoint strip_lead (z : Z) (r : bigint) : bigint :=
  match r with
  | x :: ((_ :: _) as t) => if x =? z then strip_lead z t else r
  | _ => r
  end.
Definition strip (z : Z) (l : bigint) : bigint :=
  let r := strip_lead z (rev l) in
  if Bool.eqb (neg_flag <=? hd 0 r) (neg_flag <=? z) then rev r
  else rev (z :: r).

Definition and_assign (d x : bigint) : bigint :=
  let neg := is_negative d in
  let xneg := is_negative x in
  let n := length d in
  let m := length x in
  if neg && xneg then
    if Nat.ltb n m then low2 Z.land (d ++ skipn n x) (firstn n x)
    else low2 Z.land d x
  else if xorb neg xneg && (if neg then Nat.ltb n m else Nat.ltb m n) then
    if neg then low2 Z.land (d ++ skipn n x) (firstn n x)
    else low2 Z.land d x
  else
    let i := if neg then m else if xneg then n else Nat.min n m in
    strip 0 (map2 Z.land (firstn i d) (firstn i x)).

(** bigint.cpp:776-819, operator|=. *)
Definition or_assign (d x : bigint) : bigint :=
  let neg := is_negative d in
  let xneg := is_negative x in
  let n := length d in
  let m := length x in
  if negb neg && negb xneg then
    if Nat.ltb n m then low2 Z.lor (d ++ skipn n x) (firstn n x)
    else low2 Z.lor d x
  else if xorb neg xneg && (if neg then Nat.ltb m n else Nat.ltb n m) then
    if xneg then low2 Z.lor (d ++ skipn n x) (firstn n x)
    else low2 Z.lor d x
  else
    let i := if neg then (if xneg then Nat.min n m else n) else m in
    strip (B - 1) (map2 Z.lor (firstn i d) (firstn i x)).

(** bigint.cpp:821-852, operator^=. *)
Definition xor_assign (d x : bigint) : bigint :=
  let n := length d in
  let m := length x in
  if Nat.eqb n m then shrink (map2 Z.lxor d x)
  else if Nat.ltb n m then
    let up := skipn n x in
    low2 Z.lxor (d ++ (if is_negative d then map cpl up else up)) (firstn n x)
  else
    let up := skipn m d in
    low2 Z.lxor
      (firstn m d ++ (if is_negative x then map cpl up else up)) x.

(** bigint.cpp:854-901, bitwise_subtract: [d & ~x]. *)
Definition andnot_digit (a b : Z) : Z := Z.land a (cpl b).
Definition andnot_assign (d x : bigint) : bigint :=
  let neg := is_negative d in
  let xneg := is_negative x in
  let n := length d in
  let m := length x in
  if neg && negb xneg then
    if Nat.ltb n m
    then low2 andnot_digit (d ++ map cpl (skipn n x)) (firstn n x)
    else low2 andnot_digit d x
  else if Bool.eqb neg xneg && (if neg then Nat.ltb n m else Nat.ltb m n) then
    if neg then low2 andnot_digit (d ++ map cpl (skipn n x)) (firstn n x)
    else low2 andnot_digit d x
  else
    let i := if neg then m else if xneg then Nat.min n m else n in
    strip 0 (map2 andnot_digit (firstn i d) (firstn i x)).

(** bigint.cpp:903-921, bitwise_subset. *)
Definition bitwise_subset (d x : bigint) : bool :=
  let neg := is_negative d in
  let xneg := is_negative x in
  let n := length d in
  let m := length x in
  if neg && negb xneg then false
  else if Bool.eqb neg xneg && (if neg then Nat.ltb n m else Nat.ltb m n)
  then false
  else
    let i := if neg then m else if xneg then Nat.min n m else n in
    forallb (fun v => v =? 0) (map2 andnot_digit (firstn i d) (firstn i x)).

(** bigint.h:118-151, the non-destructive [&], [|] and [bitwise_subtract].
    ([operator^] of lines 136-142 returns a reference to an expired temporary,
    so a call has no defined result and is not modelled.) *)
Definition and_copy (d x : bigint) : bigint :=
  if (if is_negative d then is_negative x && (length x <=? length d)%nat
      else is_negative x || (length d <=? length x)%nat)
  then and_assign d x else and_assign x d.
Definition or_copy (d x : bigint) : bigint :=
  if (if is_negative d then negb (is_negative x) || (length d <=? length x)%nat
      else negb (is_negative x) && (length x <=? length d)%nat)
  then or_assign d x else or_assign x d.
Definition andnot_copy (d x : bigint) : bigint :=
  if (if is_negative d then negb (is_negative x) && (length x <=? length d)%nat
      else negb (is_negative x) || (length d <=? length x)%nat)
  then andnot_assign d x else and_assign (complement x) d.

(** bits::bitCount and bits::firstBit on a 32-bit digit (see BitsModel for the
    loops in bits.cpp). *)
Fixpoint popcount_pos (p : positive) : Z :=
  match p with xH => 1 | xO q => popcount_pos q | xI q => 1 + popcount_pos q end.
Definition popcount (x : Z) : Z :=
  match x with Zpos p => popcount_pos p | _ => 0 end.
Fixpoint ctz_pos (p : positive) : Z :=
  match p with xO q => 1 + ctz_pos q | _ => 0 end.
Definition ctz (x : Z) : Z := match x with Zpos p => ctz_pos p | _ => 64 end.

(** bigint.cpp:923-944, index_of_set_bit. *)
Fixpoint clear_low (n : nat) (dig : Z) : Z :=
  match n with O => dig | S k => clear_low k (Z.land dig (dig - 1)) end.
Fixpoint index_loop (d : bigint) (i n : Z) (neg : bool) : Z :=
  match d with
  | [] => if neg then 32 * i + n else -1
  | dig :: d' =>
      let count := popcount dig in
      if n <? count then 32 * i + ctz (clear_low (Z.to_nat n) dig)
      else index_loop d' (i + 1) (n - count) neg
  end.
Definition index_of_set_bit (d : bigint) (n : Z) : Z :=
  index_loop d 0 n (is_negative d).

(** bigint.cpp:946-952, bit_length. *)
Definition bit_length (d : bigint) : Z :=
  if is_negative d
  then -1 - (32 * (Z.of_nat (length d) - 1) + lastbit32 (cpl (back d)))
  else 32 * (Z.of_nat (length d) - 1) + lastbit32 (back d).
