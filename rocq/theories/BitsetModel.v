(** Classes BitSetBase<1>, BitSetBase<2> and BitSet<n>: sources/utilities/bitset.h
    and bitset.cpp.  A bitset_chunk is a 32-bit unsigned integer; the masks
    eq_mask, lt_mask are 64-bit words, so masked values are converted back to
    32 bits on assignment ([c32]). *)

From Coq Require Import ZArith List Bool.
From Verif Require Import BitsModel BitmapModel.
Import ListNotations.
Open Scope Z_scope.

(** conversion to bitset_chunk, and ~ on a chunk (32-bit unsigned) *)
Definition c32 (x : Z) : Z := x mod 2 ^ 32.
Definition not32 (x : Z) : Z := 2 ^ 32 - 1 - x.

(** ** BitSetBase<1>, bitset.h:91-172: the single chunk d_bits. *)
(** bitset.h:105, constructor from a wide integer *)
Definition of_ulong1 (b : Z) : Z := c32 b.
(** bitset.h:110-112, comparison *)
Definition eq1 (a b : Z) : bool := a =? b.
Definition lt1 (a b : Z) : bool := a <? b.
(** bitset.h:114-120, any, none, any(b), contains *)
Definition any1 (a : Z) : bool := negb (a =? 0).
Definition none1 (a : Z) : bool := a =? 0.
Definition meets1 (a b : Z) : bool := negb (Z.land a b =? 0).
Definition contains1 (a b : Z) : bool := Z.land (not32 a) b =? 0.
(** bitset.h:122-126, count, firstBit, lastBit *)
Definition count1 (a : Z) : Z := bitCount a.
Definition firstBit1 (a : Z) : Z := firstBit a.
Definition lastBit1 (a : Z) : Z := lastBit a.
(** bitset.h:128-135, test, position, scalarProduct *)
Definition test1 (a j : Z) : bool := negb (Z.land a (eq_mask j) =? 0).
Definition position1 (a j : Z) : Z := bitCount (Z.land a (lt_mask j)).
Definition scalar1 (a b : Z) : bool := negb (bitCount (Z.land a b) mod 2 =? 0).
(** bitset.h:144-147, ^=, |=, &=, andnot *)
Definition xor1 (a b : Z) : Z := Z.lxor a b.
Definition or1 (a b : Z) : Z := Z.lor a b.
Definition and1 (a b : Z) : Z := Z.land a b.
Definition andnot1 (a b : Z) : Z := Z.land a (not32 b).
(** bitset.h:150-163, shifts *)
Definition shl1 (a c : Z) : Z := if c <? 32 then c32 (a * 2 ^ c) else 0.
Definition shr1 (a c : Z) : Z := if c <? 32 then a / 2 ^ c else 0.
(** bitset.h:165-173 *)
Definition flip1 (a j : Z) : Z := c32 (Z.lxor a (eq_mask j)).
Definition reset1 (a j : Z) : Z := c32 (Z.land a (not64 (eq_mask j))).
Definition set1 (a j : Z) : Z := c32 (Z.lor a (eq_mask j)).
Definition fill1 (a limit : Z) : Z := c32 (Z.lor a (lt_mask limit)).
Definition complement1 (a limit : Z) : Z := c32 (Z.lxor a (lt_mask limit)).
Definition truncate1 (a limit : Z) : Z := if limit <? 32 then c32 (Z.land a (lt_mask limit)) else a.

(** bitset.h:398-446, iterators: the loop
    [for (it=c.begin(); it(); ++it,++count) body( *it,count )].
    The iterator holds the not yet visited part of the set; ++ clears its
    lowest bit.  At most 64 rounds. *)
Fixpoint for_bits {A : Type} (fuel : nat) (body : Z -> Z -> A -> A) (it count : Z) (acc : A) : A :=
  match fuel with
  | O => acc
  | S k => if it =? 0 then acc
           else for_bits k body (Z.land it (it - 1)) (count + 1) (body (firstBit it) count acc)
  end.
(** bitset.cpp:46-72, slice and unslice *)
Definition slice1 (a c : Z) : Z :=
  for_bits 64 (fun i count acc => if test1 a i then set1 acc count else acc) c 0 0.
Definition unslice1 (a c : Z) : Z :=
  for_bits 64 (fun i count acc => if test1 a count then set1 acc i else acc) c 0 0.

(** ** BitSetBase<2>, bitset.h:181-258: two chunks d_bits0, d_bits1. *)
Record two := mk2 { lo : Z; hi : Z }.
(** bitset.h:200-201 *)
Definition of_ulong2 (b : Z) : two :=
  mk2 (c32 (Z.land b 4294967295)) (c32 (Z.land b 18446744069414584320 / 2 ^ 32)).
(** bitset.h:208-213, comparison *)
Definition eq2 (a b : two) : bool := (lo a =? lo b) && (hi a =? hi b).
Definition lt2 (a b : two) : bool := if hi a =? hi b then lo a <? lo b else hi a <? hi b.
(** bitset.h:215-221 *)
Definition any2 (a : two) : bool := negb (lo a =? 0) || negb (hi a =? 0).
Definition none2 (a : two) : bool := (lo a =? 0) && (hi a =? 0).
Definition meets2 (a b : two) : bool := negb (Z.land (lo a) (lo b) =? 0) || negb (Z.land (hi a) (hi b) =? 0).
Definition contains2 (a b : two) : bool :=
  (Z.land (not32 (lo a)) (lo b) =? 0) && (Z.land (not32 (hi a)) (hi b) =? 0).
(** bitset.h:223-224, count *)
Definition count2 (a : two) : Z := bitCount (lo a) + bitCount (hi a).
(** bitset.h:231-232, to_ulong *)
Definition to_ulong2 (a : two) : Z := Z.lxor (lo a) (hi a * 2 ^ 32).
(** bitset.cpp:74-86, firstBit, lastBit *)
Definition firstBit2 (a : two) : Z := if lo a =? 0 then firstBit (hi a) + 32 else firstBit (lo a).
Definition lastBit2 (a : two) : Z := if hi a =? 0 then lastBit (lo a) else lastBit (hi a) + 32.
(** bitset.cpp:88-92, test *)
Definition test2 (a : two) (j : Z) : bool :=
  negb (Z.land (if j <? 32 then lo a else hi a) (eq_mask (j mod 32)) =? 0).
(** bitset.cpp:94-102, position; the test is on j >> baseShift, with baseShift = 6 *)
Definition position2 (a : two) (j : Z) : Z :=
  if negb (j / 64 =? 0) then bitCount (Z.land (hi a) (lt_mask (j mod 32))) + bitCount (lo a)
  else bitCount (Z.land (lo a) (lt_mask j)).
(** bitset.cpp:104-107, scalarProduct *)
Definition scalar2 (a b : two) : bool :=
  negb ((bitCount (Z.land (lo a) (lo b)) + bitCount (Z.land (hi a) (hi b))) mod 2 =? 0).
(** bitset.cpp:112-128 and 174-178 *)
Definition xor2 (a b : two) : two := mk2 (Z.lxor (lo a) (lo b)) (Z.lxor (hi a) (hi b)).
Definition or2 (a b : two) : two := mk2 (Z.lor (lo a) (lo b)) (Z.lor (hi a) (hi b)).
Definition and2 (a b : two) : two := mk2 (Z.land (lo a) (lo b)) (Z.land (hi a) (hi b)).
Definition andnot2 (a b : two) : two := mk2 (Z.land (lo a) (not32 (lo b))) (Z.land (hi a) (not32 (hi b))).
(** bitset.cpp:130-150, <<= *)
Definition shl2 (a : two) (c : Z) : two :=
  if c =? 0 then a
  else if c <? 32 then
    let f := c32 (Z.land (lo a) (not64 (lt_mask (32 - c)))) in
    mk2 (c32 (lo a * 2 ^ c)) (Z.lor (c32 (hi a * 2 ^ c)) (f / 2 ^ (32 - c)))
  else if c <? 64 then mk2 0 (c32 (lo a * 2 ^ (c - 32)))
  else mk2 0 0.
(** bitset.cpp:152-172, >>= *)
Definition shr2 (a : two) (c : Z) : two :=
  if c =? 0 then a
  else if c <? 32 then
    let f := c32 (Z.land (hi a) (lt_mask c)) in
    mk2 (Z.lor (lo a / 2 ^ c) (c32 (f * 2 ^ (32 - c)))) (hi a / 2 ^ c)
  else if c <? 64 then mk2 (hi a / 2 ^ (c - 32)) 0
  else mk2 0 0.
(** bitset.cpp:180-193, flip, reset, set *)
Definition on_chunk (f : Z -> Z) (a : two) (j : Z) : two :=
  if j <? 32 then mk2 (c32 (f (lo a))) (hi a) else mk2 (lo a) (c32 (f (hi a))).
Definition flip2 (a : two) (j : Z) : two := on_chunk (fun w => Z.lxor w (eq_mask (j mod 32))) a j.
Definition reset2 (a : two) (j : Z) : two := on_chunk (fun w => Z.land w (not64 (eq_mask (j mod 32)))) a j.
Definition set2 (a : two) (j : Z) : two := on_chunk (fun w => Z.lor w (eq_mask (j mod 32))) a j.
(** bitset.cpp:195-234, fill, complement, truncate; the argument is at most 64 *)
Definition fill2 (a : two) (limit : Z) : two :=
  if limit <=? 32 then mk2 (c32 (lt_mask limit)) (hi a)
  else mk2 (not32 0) (c32 (lt_mask (limit - 32))).
Definition complement2 (a : two) (limit : Z) : two :=
  if limit <=? 32 then mk2 (c32 (Z.lxor (lo a) (lt_mask limit))) (hi a)
  else mk2 (not32 (lo a)) (c32 (Z.lxor (hi a) (lt_mask (limit - 32)))).
Definition truncate2 (a : two) (limit : Z) : two :=
  if limit <=? 32 then mk2 (c32 (Z.land (lo a) (lt_mask limit))) 0
  else mk2 (lo a) (c32 (Z.land (hi a) (lt_mask (limit - 32)))).
(** bitset.cpp:236-258, slice and unslice *)
Definition slice2 (a c : two) : two :=
  for_bits 64 (fun i count acc => if test2 a i then set2 acc count else acc) (to_ulong2 c) 0 (mk2 0 0).
Definition unslice2 (a c : two) : two :=
  for_bits 64 (fun i count acc => if test2 a count then set2 acc i else acc) (to_ulong2 c) 0 (mk2 0 0).

(** ** BitSet<n> *)
(** bitset.cpp:21-28: constructor taking the parity of each entry; [v % 2 != 0]
    for signed entries is oddness *)
Definition set_to1 (a j : Z) (v : bool) : Z := if v then set1 a j else reset1 a j.
Definition set_to2 (a : two) (j : Z) (v : bool) : two := if v then set2 a j else reset2 a j.
Fixpoint parities {A : Type} (put : A -> Z -> bool -> A) (acc : A) (i : Z) (v : list Z) : A :=
  match v with
  | [] => acc
  | x :: t => parities put (put acc i (negb (Z.rem x 2 =? 0))) (i + 1) t
  end.
Definition of_vector1 (v : list Z) : Z := parities set_to1 0 0 v.
Definition of_vector2 (v : list Z) : two := parities set_to2 (mk2 0 0) 0 v.
(** bitset.cpp:30-32, n_th_bit: advance the iterator, then dereference *)
Definition n_th_bit1 (a n : Z) : Z := firstBit (clear_low (Z.to_nat n) a).
Definition n_th_bit2 (a : two) (n : Z) : Z := firstBit (clear_low (Z.to_nat n) (to_ulong2 a)).
