(** Bit counting on 64-bit words: sources/utilities/bits.cpp and the tables of
    sources/utilities/constants.cpp.  Words are integers x with 0 <= x < 2^64. *)

From Coq Require Import ZArith List Bool.
Import ListNotations.
Open Scope Z_scope.

Definition W64 : Z := 18446744073709551616.
Definition wrap64 (x : Z) : Z := x mod W64.
(** [~x] on a 64-bit word *)
Definition not64 (x : Z) : Z := W64 - 1 - x.

(** bits.cpp:44-53, the masks. *)
Definition bc_b0 : Z := not64 (not64 0 / 3).
Definition bc_b1 : Z := not64 (not64 0 / 5).
Definition bc_b2 : Z := not64 (not64 0 / 17).
Definition bc_ones : Z := not64 0 / 255.

(** bits.cpp:28-62, bitCount. *)
Definition bitCount (x : Z) : Z :=
  let x1 := wrap64 (x - Z.land x bc_b0 / 2) in
  let x2 := wrap64 (Z.land x1 (not64 bc_b1) + Z.land x1 bc_b1 / 2 ^ 2) in
  let x3 := wrap64 (x2 + x2 / 2 ^ 4) in
  wrap64 (Z.land x3 (not64 bc_b2) * bc_ones) / 2 ^ 56.

(** Array update [t[i]=v]. *)
Fixpoint upd (t : list Z) (i : nat) (v : Z) : list Z :=
  match t, i with
  | [], _ => []
  | _ :: t', O => v :: t'
  | x :: t', S i' => x :: upd t' i' v
  end.

(** constants.cpp:70-82: the two tables, [k] rounds of the loop starting at j;
    entries not yet assigned are zero (static storage). *)
Fixpoint firstbit_fill (k j : nat) (t : list Z) : list Z :=
  match k with
  | O => t
  | S k' => firstbit_fill k' (S j)
              (upd (upd t (2 * j) (nth j t 0 + 1)) (2 * j + 1) 0)
  end.
Definition firstbit_tab : list Z :=
  firstbit_fill 127 1 (upd (upd (repeat 0 256) 0 8) 1 0).
Fixpoint lastbit_fill (k j : nat) (t : list Z) : list Z :=
  match k with
  | O => t
  | S k' => lastbit_fill k' (S j)
              (upd (upd t (2 * j + 1) (nth j t 0 + 1)) (2 * j) (nth j t 0 + 1))
  end.
Definition lastbit_tab : list Z :=
  lastbit_fill 127 1 (upd (upd (repeat 0 256) 0 0) 1 1).

(** bits.cpp:68-79, firstBit; the loop needs at most 7 shifts on a nonzero
    word, [fuel] out gives -1. *)
Fixpoint firstBit_loop (fuel : nat) (f fb : Z) : Z :=
  match fuel with
  | O => -1
  | S k => if Z.land f 255 =? 0 then firstBit_loop k (f / 2 ^ 8) (fb + 8)
           else fb + nth (Z.to_nat (Z.land f 255)) firstbit_tab 0
  end.
Definition firstBit (f : Z) : Z :=
  if f =? 0 then 64 else firstBit_loop 8 f 0.

(** bits.cpp:86-96, lastBit. *)
Fixpoint lastBit_loop (fuel : nat) (f lb : Z) : Z :=
  match fuel with
  | O => -1
  | S k => if negb (Z.land f (not64 255) =? 0) then lastBit_loop k (f / 2 ^ 8) (lb + 8)
           else lb + nth (Z.to_nat f) lastbit_tab 0
  end.
Definition lastBit (f : Z) : Z :=
  if f =? 0 then 0 else lastBit_loop 8 f 0.
