(** Model of the exact rational numbers of /repo/sources/utilities/bigint.h and
    bigint.cpp (class big_rat), on top of the model of big_int.  [None] stands
    for a thrown exception. *)

From Coq Require Import ZArith List Bool.
From Verif Require Import BigIntModel.
Import ListNotations.
Open Scope Z_scope.

Notation "'do!' x <- e ; f" := (match e with Some x => f | None => None end)
  (at level 200, x name, e at level 100, f at level 200).

(** bigint.h:212-213, class big_rat: the two data members. *)
Record big_rat := mk_rat { num : bigint; den : bigint }.

(** bigint.h:215-216, constructor from an integer. *)
Definition of_big_int (x : bigint) : big_rat := mk_rat x [1].

(** bigint.h:218-222, private constructor, throws for a zero denominator. *)
Definition big_rat_ctor (n d : bigint) : option big_rat :=
  if is_zero d then None else Some (mk_rat n d).

(** bigint.h:369-383, normalise. *)
Definition normalise (r : big_rat) : option big_rat :=
  let neg := is_negative (den r) in
  let d0 := if neg then negate (den r) else den r in
  let n0 := if neg then negate (num r) else num r in
  do! d <- big_gcd d0 n0;
  if eq_int d 1 then Some (mk_rat n0 d0)
  else do! n1 <- big_div n0 d; do! d1 <- big_div d0 d; Some (mk_rat n1 d1).

(** bigint.h:224-225, from_fraction. *)
Definition from_fraction (n d : bigint) : option big_rat :=
  do! r <- big_rat_ctor n d; normalise r.

(** bigint.h:240-252, tests and comparisons. *)
Definition rat_is_positive (r : big_rat) : bool := is_positive (num r).
Definition rat_is_negative (r : big_rat) : bool := is_negative (num r).
Definition rat_is_zero (r : big_rat) : bool := is_zero (num r).
Definition rat_eq_int (r : big_rat) (v : Z) : bool := eq_int (den r) 1 && eq_int (num r) v.
Definition rat_lt (r x : big_rat) : bool :=
  big_lt (mul (num r) (den x)) (mul (num x) (den r)).
Definition rat_eq (r x : big_rat) : bool := big_eq (num r) (num x) && big_eq (den r) (den x).

(** bigint.h:254-260, sums and differences with a big_int.  The product is a
    temporary, which selects the overloads for rvalue references. *)
Definition rat_add_int (r : big_rat) (x : bigint) : option big_rat :=
  big_rat_ctor (plus_cm (num r) (mul x (den r))) (den r).
Definition int_add_rat (x : bigint) (r : big_rat) : option big_rat :=
  big_rat_ctor (plus_cm (num r) (mul x (den r))) (den r).
Definition rat_sub_int (r : big_rat) (x : bigint) : option big_rat :=
  big_rat_ctor (minus_cm (num r) (mul x (den r))) (den r).
Definition int_sub_rat (x : bigint) (r : big_rat) : option big_rat :=
  big_rat_ctor (minus_mc (mul x (den r)) (num r)) (den r).

(** bigint.h:261-268, products with a big_int (both orders run the same code). *)
Definition rat_mul_int (r : big_rat) (x : bigint) : option big_rat :=
  do! d <- big_gcd (den r) x;
  if eq_int d 1 then big_rat_ctor (mul (num r) x) (den r)
  else do! q <- big_div x d; do! e <- big_div (den r) d; big_rat_ctor (mul (num r) q) e.
(** bigint.h:269-273, operator*=(const big_int&). *)
Definition rat_mul_int_assign (r : big_rat) (x : bigint) : option big_rat :=
  do! d <- big_gcd (den r) x;
  if eq_int d 1 then Some (mk_rat (mul (num r) x) (den r))
  else do! q <- big_div x d; do! e <- big_div (den r) d; Some (mk_rat (mul (num r) q) e).

(** bigint.h:274-281, quotient by a big_int. *)
Definition rat_div_int (r : big_rat) (x : bigint) : option big_rat :=
  if is_zero x then None
  else
    do! d <- big_gcd (num r) x;
    if is_negative x then
      if eq_int d 1 then big_rat_ctor (negate (num r)) (mul (den r) (negate x))
      else do! n <- big_div (negate (num r)) d; do! q <- big_div (negate x) d;
           big_rat_ctor n (mul (den r) q)
    else
      if eq_int d 1 then big_rat_ctor (num r) (mul (den r) x)
      else do! n <- big_div (num r) d; do! q <- big_div x d; big_rat_ctor n (mul (den r) q).
(** bigint.h:282-290, quotient of a big_int by a big_rat.  In line 287 unary
    minus binds before the product. *)
Definition int_div_rat (x : bigint) (r : big_rat) : option big_rat :=
  if rat_is_zero r then None
  else
    do! d <- big_gcd (num r) x;
    if is_negative (num r) then
      if eq_int d 1 then big_rat_ctor (mul (negate x) (den r)) (negate (num r))
      else do! q <- big_div (negate x) d; do! n <- big_div (negate (num r)) d;
           big_rat_ctor (mul q (den r)) n
    else
      if eq_int d 1 then big_rat_ctor (mul x (den r)) (num r)
      else do! q <- big_div x d; do! n <- big_div (num r) d; big_rat_ctor (mul q (den r)) n.
(** bigint.h:291-298, operator/=(const big_int&). *)
Definition rat_div_int_assign (r : big_rat) (x : bigint) : option big_rat :=
  if is_zero x then None
  else
    do! d <- big_gcd (num r) x;
    do! n <- (if eq_int d 1 then Some (num r) else big_div (num r) d);
    do! q <- (if eq_int d 1 then Some x else big_div x d);
    let e := mul (den r) q in
    if is_negative e then Some (mk_rat (negate n) (negate e)) else Some (mk_rat n e).

(** bigint.h:300-303, +=, -= and subtract_from with a big_int. *)
Definition rat_add_int_assign (r : big_rat) (x : bigint) : big_rat :=
  mk_rat (add_assign_move (num r) (mul x (den r))) (den r).
Definition rat_sub_int_assign (r : big_rat) (x : bigint) : big_rat :=
  mk_rat (sub_assign_move (num r) (mul x (den r))) (den r).
Definition rat_subtract_from (r : big_rat) (x : bigint) : big_rat :=
  mk_rat (subtract_from_move (num r) (mul x (den r))) (den r).

(** bigint.cpp:1004-1022, sum and difference; [op] is the overload of + or -
    for two temporaries. *)
Definition rat_addsub (op : bigint -> bigint -> bigint) (r x : big_rat) : option big_rat :=
  do! d <- big_gcd (den r) (den x);
  if eq_int d 1 then
    big_rat_ctor (op (mul (num r) (den x)) (mul (num x) (den r))) (mul (den r) (den x))
  else
    do! q <- big_div (den x) d;
    do! e <- big_div (den r) d;
    let numer := op (mul (num r) q) (mul (num x) e) in
    do! dd <- big_gcd numer d;
    if eq_int dd 1 then big_rat_ctor numer (mul (den r) q)
    else do! n <- big_div numer dd; do! f <- big_div (mul (den r) q) dd; big_rat_ctor n f.
Definition rat_add : big_rat -> big_rat -> option big_rat := rat_addsub plus_mm.
Definition rat_sub : big_rat -> big_rat -> option big_rat := rat_addsub minus_mm.

(** bigint.h:307 unary minus, and 322 negate. *)
Definition rat_opp (r : big_rat) : option big_rat := big_rat_ctor (negate (num r)) (den r).
Definition rat_negate (r : big_rat) : big_rat := mk_rat (negate (num r)) (den r).

(** bigint.h:309-312, product; 314-319 operator*= computes the same values. *)
Definition rat_mul (r x : big_rat) : option big_rat :=
  do! d0 <- big_gcd (num r) (den x);
  do! d1 <- big_gcd (den r) (num x);
  do! a <- big_div (num r) d0; do! b <- big_div (num x) d1;
  do! c <- big_div (den r) d1; do! e <- big_div (den x) d0;
  big_rat_ctor (mul a b) (mul c e).
Definition rat_mul_assign (r x : big_rat) : option big_rat :=
  do! d0 <- big_gcd (num r) (den x);
  do! d1 <- big_gcd (den r) (num x);
  do! a <- big_div (num r) d0; do! c <- big_div (den r) d1;
  do! b <- big_div (num x) d1; do! e <- big_div (den x) d0;
  Some (mk_rat (mul a b) (mul c e)).

(** bigint.h:323-334, invert. *)
Definition rat_invert (r : big_rat) : option big_rat :=
  if rat_is_zero r then None
  else if is_negative (num r)
       then Some (mk_rat (negate (den r)) (negate (num r)))
       else Some (mk_rat (den r) (num r)).

(** bigint.h:338-347, quotient of rationals. *)
Definition rat_div (r x : big_rat) : option big_rat :=
  if rat_is_zero x then None
  else
    do! d0 <- big_gcd (num r) (num x);
    do! d1 <- big_gcd (den r) (den x);
    let neg := is_negative (num x) in
    let xn := if neg then negate (num x) else num x in
    let xd := if neg then negate (den x) else den x in
    do! a <- big_div (num r) d0; do! b <- big_div xd d1;
    do! c <- big_div (den r) d1; do! e <- big_div xn d0;
    big_rat_ctor (mul a b) (mul c e).
(** bigint.h:348-355, operator/=. *)
Definition rat_div_assign (r x : big_rat) : option big_rat :=
  if rat_is_zero x then None
  else
    do! d0 <- big_gcd (num r) (num x);
    do! d1 <- big_gcd (den r) (den x);
    let neg := is_negative (num x) in
    let xn := if neg then negate (num x) else num x in
    let n := if neg then negate (num r) else num r in
    do! a <- big_div n d0; do! c <- big_div (den r) d1;
    do! e <- big_div xn d0; do! b <- big_div (den x) d1;
    Some (mk_rat (mul a b) (mul c e)).

(** bigint.cpp:1024-1028, floor, ceil, quotients. *)
Definition rat_floor (r : big_rat) : option bigint := big_div (num r) (den r).
Definition rat_ceil (r : big_rat) : option bigint :=
  do! q <- big_div (negate (num r)) (den r); Some (negate q).
Definition rat_quotient_int (r : big_rat) (n : bigint) : option bigint :=
  big_div (num r) (mul n (den r)).
Definition rat_quotient (r x : big_rat) : option bigint :=
  big_div (mul (num r) (den x)) (mul (den r) (num x)).
(** bigint.h:359-360, take_frac and frac; 362-363, remainder by an integer. *)
Definition rat_frac (r : big_rat) : option big_rat :=
  do! n <- big_mod (num r) (den r); Some (mk_rat n (den r)).
Definition rat_mod_int (r : big_rat) (n : bigint) : option big_rat :=
  do! m <- big_mod (num r) (mul n (den r)); Some (mk_rat m (den r)).
(** bigint.cpp:1029-1036, remainder by a rational. *)
Definition rat_mod (r x : big_rat) : option big_rat :=
  do! d <- big_gcd (den r) (den x);
  if eq_int d 1 then
    do! n <- big_mod (mul (num r) (den x)) (mul (den r) (num x));
    from_fraction n (mul (den r) (den x))
  else
    do! q <- big_div (den r) d;
    do! p <- big_div (den x) d;
    do! n <- big_mod (mul (num r) p) (mul q (num x));
    from_fraction n (mul q (den x)).

(** bigint.cpp:1038-1054, power; [e] is a C++ int.  The loop multiplies
    |e| - 1 times. *)
Definition rat_power (r : big_rat) (e : Z) : option big_rat :=
  if e =? 0 then Some (of_big_int [1])
  else
    let k := (Z.abs_nat e - 1)%nat in
    let p := mk_rat (Nat.iter k (fun a => mul a (num r)) (num r))
                    (Nat.iter k (fun a => mul a (den r)) (den r)) in
    if e <? 0 then rat_invert p else Some p.
