(** Machine-word arithmetic and fixed-width rationals:
    sources/utilities/arithmetic.h and arithmetic.cpp.

    Numer_t is long long int, Denom_t is unsigned long long int (arithmetic_fwd.h:21-22); only
    the instance Rational<Numer_t> is generated (arithmetic.cpp:242).  Signed
    numbers are integers in [-2^63,2^63), unsigned ones in [0,2^64).  Signed
    overflow and division by zero are undefined behaviour in C++, and give
    [None] here; unsigned arithmetic wraps; conversions are modulo 2^64. *)

From Coq Require Import ZArith List Bool.
From Verif Require Import BitsModel.
Import ListNotations.
Open Scope Z_scope.

Definition H63 : Z := 9223372036854775808.
(** conversion to unsigned, conversion to signed *)
Definition u64 (x : Z) : Z := x mod W64.
Definition s64 (x : Z) : Z := (x + H63) mod W64 - H63.
(** result of a signed operation *)
Definition chk (x : Z) : option Z :=
  if (- H63 <=? x) && (x <? H63) then Some x else None.
Notation "'let!' x ':=' e 'in' f" :=
  (match e with Some x => f | None => None end)
  (at level 200, x name, f at level 200, right associativity).

(** arithmetic.h:248-253, divide. *)
Definition divide (a b_signed : Z) : option Z :=
  let b := u64 b_signed in
  if b =? 0 then None
  else if 0 <=? a then Some (s64 (a / b)) else chk (-1 - s64 ((-1 - a) / b)).

(** arithmetic.h:273-280, remainder. *)
Definition remainder (a b_signed : Z) : option Z :=
  let b := u64 b_signed in
  if b =? 0 then None
  else Some (s64 (if 0 <=? a then a mod b else u64 (not64 ((-1 - a) mod b) + b))).

(** arithmetic.cpp:41-48, unsigned_gcd.  Fuel 64 suffices for words (proved). *)
Fixpoint ugcd_loop (fuel : nat) (a b : Z) : option Z :=
  match fuel with
  | O => None
  | S k =>
      if b =? 0 then None
      else let a' := a mod b in
           if a' =? 0 then Some b
           else let b' := b mod a' in
                if b' =? 0 then Some a' else ugcd_loop k a' b'
  end.
Definition unsigned_gcd (a b : Z) : option Z := ugcd_loop 64 a b.

(** arithmetic.h:284-292, gcd with signed first argument. *)
Definition gcd_s (a b : Z) : option Z :=
  if 0 <? a then unsigned_gcd a b
  else if a =? 0 then Some b
  else let! na := chk (- a) in unsigned_gcd na b.

(** arithmetic.h:282, div_gcd(d,a) = d/gcd(a,d). *)
Definition div_gcd (d a : Z) : option Z :=
  let! g := unsigned_gcd a d in Some (d / g).

(** arithmetic.cpp:60-75, lcm: returns (lcm, gcd, mult_a). *)
Fixpoint lcm_loop (fuel : nat) (c d mc md : Z) : option (Z * Z * Z) :=
  match fuel with
  | O => None
  | S k =>
      if c =? 0 then None
      else
        let md' := u64 (md + u64 ((d / c) * mc)) in
        let d' := d mod c in
        if d' =? 0 then Some (md', c, mc)
        else
          let mc' := u64 (mc + u64 ((c / d') * md')) in
          let c' := c mod d' in
          if 0 <? c' then lcm_loop k c' d' mc' md'
          else Some (mc', d', if md' =? 0 then 0 else u64 (mc' - md'))
  end.
Definition lcm (a b : Z) : option (Z * Z * Z) := lcm_loop 64 a b a 0.

(** arithmetic.h:294-301, modAdd. *)
Definition modAdd (a b n : Z) : Z :=
  if a <? u64 (n - b) then u64 (a + b) else u64 (a - u64 (n - b)).

(** arithmetic.cpp:87-93, modProd; [None] is the exit through
    error::NumericOverflow. *)
Definition modProd (a b n : Z) : option Z :=
  if 2 ^ 32 <? n then None
  else if n =? 0 then None else Some (u64 (a * b) mod n).

(** arithmetic.cpp:95-108, power: [l] counts down from lastBit(n). *)
Fixpoint power_bits (l : nat) (x n result : Z) : Z :=
  match l with
  | O => result
  | S l' =>
      let r := u64 (result * result) in
      power_bits l' x n
        (if negb (Z.land (n / 2 ^ Z.of_nat l') 1 =? 0) then u64 (r * x) else r)
  end.
Definition power (x n : Z) : Z :=
  if n =? 0 then 1
  else if x <=? 1 then x
  else power_bits (Z.to_nat (lastBit n)) x n 1.

(** arithmetic.h:48-50, exp_minus_1 and exp_i (the latter for even n; an odd n
    is rejected by an assert). C++ [%] truncates. *)
Definition exp_minus_1 (n : Z) : Z := if Z.rem n 2 =? 0 then 1 else -1.
Definition exp_i (n : Z) : Z := if Z.rem n 4 =? 0 then 1 else -1.

(** arithmetic.h:60-65, class Rational. *)
Record rational := mkr { rnum : Z; rden : Z }.

(** arithmetic.h:303-313, normalize. *)
Definition normalize (r : rational) : option rational :=
  let! d := gcd_s (rnum r) (rden r) in
  if 1 <? d then Some (mkr (Z.quot (rnum r) (s64 d)) (rden r / d)) else Some r.
(** arithmetic.h:67-68, the constructor; arguments already converted. *)
Definition rat_make (n d : Z) : option rational := normalize (mkr n d).

Definition abs_s (x : Z) : option Z := if x <? 0 then chk (- x) else Some x.
Definition mul_s (x y : Z) : option Z := chk (x * y).

(** arithmetic.cpp:110-126, operator*=(I). *)
Definition rat_mul_n (r : rational) (n : Z) : option rational :=
  if n =? 0 then Some (mkr 0 1)
  else
    let! r := normalize r in
    let! n' := (if n <? 0 then chk (- n) else Some n) in
    let! m := (if n <? 0 then chk (- rnum r) else Some (rnum r)) in
    let! d := unsigned_gcd (rden r) n' in
    let! p := mul_s m (s64 (n' / d)) in
    Some (mkr p (rden r / d)).

(** arithmetic.cpp:128-143, operator/=(I). *)
Definition rat_div_n (r : rational) (n : Z) : option rational :=
  let! r := normalize r in
  let! n' := (if n <? 0 then chk (- n) else Some n) in
  let! m := (if n <? 0 then chk (- rnum r) else Some (rnum r)) in
  let! am := abs_s m in
  let! d := unsigned_gcd am n' in
  Some (mkr (Z.quot m (s64 d)) (u64 (rden r * Z.quot n' (s64 d)))).

(** arithmetic.cpp:145-151, operator%=(I). *)
Definition rat_mod_n (r : rational) (n : Z) : option rational :=
  let! r := normalize r in
  let! an := abs_s n in
  let! m := remainder (rnum r) (s64 (u64 (rden r * an))) in
  Some (mkr m (rden r)).

(** arithmetic.cpp:154-171, operator+ and operator-; the sum of the two products
    is a signed operation. *)
Definition rat_addsub (op : Z -> Z -> Z) (r q : rational) : option rational :=
  let! r := normalize r in
  let! t := lcm (rden r) (rden q) in
  let '(l, _, _) := t in
  let! x := mul_s (rnum r) (s64 (l / rden r)) in
  let! y := mul_s (rnum q) (s64 (l / rden q)) in
  let! z := chk (op x y) in
  rat_make z l.
Definition rat_add := rat_addsub Z.add.
Definition rat_sub := rat_addsub Z.sub.

(** arithmetic.cpp:173-181, operator*.  In [num/d] and [q.num/=d] the divisor is
    unsigned, so the numerator is converted to unsigned first. *)
Definition rat_mul (r q : rational) : option rational :=
  let! r := normalize r in
  let! q := normalize q in
  let! d := gcd_s (rnum r) (rden q) in
  let new_num := if d =? 1 then rnum r else s64 (u64 (rnum r) / d) in
  let qden := if d =? 1 then rden q else rden q / d in
  let! e := gcd_s (rnum q) (rden r) in
  let new_den := if e =? 1 then rden r else rden r / e in
  let qnum := if e =? 1 then rnum q else s64 (u64 (rnum q) / e) in
  let! p := mul_s new_num qnum in
  rat_make p (u64 (new_den * qden)).

(** arithmetic.cpp:183-196, operator/. *)
Definition rat_div (r q : rational) : option rational :=
  let! r := normalize r in
  let! q := normalize q in
  let! d := unsigned_gcd (rden r) (rden q) in
  let new_den := if d =? 1 then rden r else rden r / d in
  let qden := if d =? 1 then rden q else rden q / d in
  let! aq := abs_s (rnum q) in
  let! g := gcd_s (rnum r) aq in
  let sd := s64 g in
  let qnum := if sd =? 1 then rnum q else Z.quot (rnum q) sd in
  let new_num := if sd =? 1 then rnum r else Z.quot (rnum r) sd in
  if 0 <? qnum then
    let! p := mul_s new_num (s64 qden) in
    rat_make p (u64 (new_den * qnum))
  else
    let! nn := chk (- new_num) in
    let! p := mul_s nn (s64 qden) in
    let! nq := chk (- qnum) in
    rat_make p (u64 (new_den * nq)).

(** arithmetic.cpp:198-216, operator% (the constructor normalises already). *)
Definition rat_mod (r q : rational) : option rational :=
  let! d := unsigned_gcd (rden r) (rden q) in
  let! aq := abs_s (rnum q) in
  if d =? 1 then
    let! x := mul_s (rnum r) (s64 (rden q)) in
    let! m := remainder x (s64 (u64 (rden r * aq))) in
    rat_make m (u64 (rden r * rden q))
  else
    let qd := rden q / d in
    let! x := mul_s (rnum r) (s64 qd) in
    let! m := remainder x (s64 (u64 (rden r / d * aq))) in
    rat_make m (u64 (rden r * qd)).

(** arithmetic.cpp:218-231, power; [None] also for the exception, and for n=INT_MIN
    which cannot be negated. *)
Definition rat_pow (r : rational) (n : Z) : option rational :=
  let! r := normalize r in
  let! an := abs_s (rnum r) in
  if (n <? 0) && ((rnum r =? 0) || (n =? - 2 ^ 31)) then None
  else
    let '(a, b, m) := if n <? 0 then (rden r, an, - n) else (an, rden r, n) in
    let a' := power a m in
    let b' := power b m in
    if (0 <=? rnum r) || (Z.rem m 2 =? 0) then Some (mkr (s64 a') b')
    else let! x := chk (- s64 a') in Some (mkr x b').

(** arithmetic.h:95-97, unary minus and inverse. *)
Definition rat_neg (r : rational) : option rational :=
  let! x := chk (- rnum r) in rat_make x (rden r).
Definition rat_inverse (r : rational) : option rational :=
  if 0 <? rnum r then rat_make (s64 (rden r)) (rnum r)
  else let! x := chk (- rnum r) in rat_make (s64 (u64 (- rden r))) x.

(** arithmetic.h:109-110, += and -= with an integer: computed in unsigned
    arithmetic because denom is unsigned. *)
Definition rat_add_n (r : rational) (n : Z) : rational :=
  mkr (s64 (u64 (rnum r) + u64 n * rden r)) (rden r).
Definition rat_sub_n (r : rational) (n : Z) : rational :=
  mkr (s64 (u64 (rnum r) - u64 n * rden r)) (rden r).
(** arithmetic.h:114, mod1; 116-119, floor, ceil, quotient. *)
Definition rat_mod1 (r : rational) : option rational :=
  let! m := remainder (rnum r) (s64 (rden r)) in Some (mkr m (rden r)).
Definition rat_floor (r : rational) : option Z := divide (rnum r) (s64 (rden r)).
Definition rat_ceil (r : rational) : option Z :=
  let! x := chk (- rnum r) in
  let! y := divide x (s64 (rden r)) in chk (- y).
Definition rat_quotient (r : rational) (n : Z) : option Z :=
  divide (rnum r) (s64 (u64 (n * rden r))).

(** arithmetic.h:122-133, comparisons. *)
Definition rat_cmp (op : Z -> Z -> bool) (r q : rational) : option bool :=
  let! x := mul_s (rnum r) (s64 (rden q)) in
  let! y := mul_s (s64 (rden r)) (rnum q) in Some (op x y).
Definition rat_eq := rat_cmp Z.eqb.
Definition rat_lt := rat_cmp Z.ltb.
Definition rat_le := rat_cmp Z.leb.

(** arithmetic.h:152-213, class Split_integer: the pair of values at s=1 and
    s=-1.  The constructor takes a+b*s; the sums and products of int can
    overflow and are modelled over unbounded integers (no overflow). *)
Record split := mks { ev1 : Z; evm1 : Z }.
Definition split_make (a b : Z) : split := mks (a + b) (a - b).
Definition split_e (x : split) : Z := Z.quot (ev1 x + evm1 x) 2.
Definition split_s (x : split) : Z := Z.quot (ev1 x - evm1 x) 2.
Definition split_add (x y : split) : split := mks (ev1 x + ev1 y) (evm1 x + evm1 y).
Definition split_sub (x y : split) : split := mks (ev1 x - ev1 y) (evm1 x - evm1 y).
Definition split_neg (x : split) : split := mks (- ev1 x) (- evm1 x).
Definition split_mul (x y : split) : split := mks (ev1 x * ev1 y) (evm1 x * evm1 y).
Definition split_mul_n (x : split) (n : Z) : split := mks (ev1 x * n) (evm1 x * n).
Definition split_times_s (x : split) : split := mks (ev1 x) (- evm1 x).
Definition split_times_1_s (x : split) : split := mks 0 (2 * evm1 x).
Definition split_times_1_plus_s (x : split) : split := mks (2 * ev1 x) 0.
