(** Property C27: classes BitSet<n> with one and two chunks (bitset.h, bitset.cpp). *)

From Coq Require Import ZArith List Bool Lia.
From Verif Require Import BitsModel BitmapModel BitmapSpec BitsetModel BitsetSpec BitsetProofs.
Import ListNotations.
Open Scope Z_scope.

Ltac ok := repeat split; try (unfold is32; cbn; lia); try (vm_compute; reflexivity).

(** ** one chunk *)
Theorem C27_xor1 a b : is32 a -> is32 b -> set_is1 (xor1 a b) (fun i => xorb (Z.testbit a i) (Z.testbit b i)).
Proof. exact (xor1_ok a b). Qed.
Print Assumptions C27_xor1.
Example C27_xor1_ex : is32 4026531845 /\ is32 7 /\ xor1 4026531845 7 = 4026531842.
Proof. ok. Qed.

Theorem C27_or1 a b : is32 a -> is32 b -> set_is1 (or1 a b) (fun i => Z.testbit a i || Z.testbit b i).
Proof. exact (or1_ok a b). Qed.
Print Assumptions C27_or1.
Example C27_or1_ex : is32 4026531845 /\ is32 7 /\ or1 4026531845 7 = 4026531847.
Proof. ok. Qed.

Theorem C27_and1 a b : is32 a -> is32 b -> set_is1 (and1 a b) (fun i => Z.testbit a i && Z.testbit b i).
Proof. exact (and1_ok a b). Qed.
Print Assumptions C27_and1.
Example C27_and1_ex : is32 4026531845 /\ is32 7 /\ and1 4026531845 7 = 5.
Proof. ok. Qed.

Theorem C27_andnot1 a b : is32 a -> is32 b -> set_is1 (andnot1 a b) (fun i => Z.testbit a i && negb (Z.testbit b i)).
Proof. exact (andnot1_ok a b). Qed.
Print Assumptions C27_andnot1.
Example C27_andnot1_ex : is32 4026531845 /\ is32 6 /\ andnot1 4026531845 6 = 4026531841.
Proof. ok. Qed.

Theorem C27_shl1 a c : 0 <= c -> set_is1 (shl1 a c) (fun i => (c <=? i) && (i <? 32) && Z.testbit a (i - c)).
Proof. exact (shl1_ok a c). Qed.
Print Assumptions C27_shl1.
Example C27_shl1_ex : shl1 4026531845 3 = 2147483688 /\ shl1 4026531845 32 = 0.
Proof. ok. Qed.

Theorem C27_shr1 a c : is32 a -> 0 <= c -> set_is1 (shr1 a c) (fun i => Z.testbit a (i + c)).
Proof. exact (fun H => shr1_ok a H c). Qed.
Print Assumptions C27_shr1.
Example C27_shr1_ex : is32 4026531845 /\ shr1 4026531845 27 = 30 /\ shr1 4026531845 40 = 0.
Proof. ok. Qed.

Theorem C27_flip1 a j : is32 a -> 0 <= j < 32 -> set_is1 (flip1 a j) (fun i => xorb (i =? j) (Z.testbit a i)).
Proof. exact (fun H => flip1_ok a H j). Qed.
Print Assumptions C27_flip1.
Example C27_flip1_ex : is32 4026531845 /\ flip1 4026531845 31 = 1879048197.
Proof. ok. Qed.

Theorem C27_reset1 a j : is32 a -> 0 <= j < 32 -> set_is1 (reset1 a j) (fun i => negb (i =? j) && Z.testbit a i).
Proof. exact (fun H => reset1_ok a H j). Qed.
Print Assumptions C27_reset1.
Example C27_reset1_ex : is32 4026531845 /\ reset1 4026531845 2 = 4026531841.
Proof. ok. Qed.

Theorem C27_set1 a j : is32 a -> 0 <= j < 32 -> set_is1 (set1 a j) (fun i => (i =? j) || Z.testbit a i).
Proof. exact (fun H => set1_ok a H j). Qed.
Print Assumptions C27_set1.
Example C27_set1_ex : is32 4026531845 /\ set1 4026531845 4 = 4026531861.
Proof. ok. Qed.

Theorem C27_set_to1 a j v : is32 a -> 0 <= j < 32 -> set_is1 (set_to1 a j v) (fun i => if i =? j then v else Z.testbit a i).
Proof. exact (fun H => set_to1_ok a H j v). Qed.
Print Assumptions C27_set_to1.
Example C27_set_to1_ex : is32 4026531845 /\ set_to1 4026531845 2 false = 4026531841 /\ set_to1 4026531845 1 true = 4026531847.
Proof. ok. Qed.

Theorem C27_fill1 a l : is32 a -> 0 <= l <= 32 -> set_is1 (fill1 a l) (fun i => (i <? l) || Z.testbit a i).
Proof. exact (fun H => fill1_ok a H l). Qed.
Print Assumptions C27_fill1.
Example C27_fill1_ex : is32 4026531845 /\ fill1 4026531845 2 = 4026531847 /\ fill1 5 32 = 4294967295.
Proof. ok. Qed.

Theorem C27_complement1 a l : is32 a -> 0 <= l <= 32 -> set_is1 (complement1 a l) (fun i => xorb (i <? l) (Z.testbit a i)).
Proof. exact (fun H => complement1_ok a H l). Qed.
Print Assumptions C27_complement1.
Example C27_complement1_ex : is32 5 /\ complement1 5 4 = 10 /\ complement1 5 32 = 4294967290.
Proof. ok. Qed.

Theorem C27_truncate1 a l : is32 a -> 0 <= l -> set_is1 (truncate1 a l) (fun i => (i <? l) && Z.testbit a i).
Proof. exact (fun H => truncate1_ok a H l). Qed.
Print Assumptions C27_truncate1.
Example C27_truncate1_ex : is32 4026531845 /\ truncate1 4026531845 29 = 268435461.
Proof. ok. Qed.

Theorem C27_test1 a j : 0 <= j -> test1 a j = Z.testbit a j.
Proof. exact (test1_ok a j). Qed.
Print Assumptions C27_test1.
Example C27_test1_ex : test1 4026531845 31 = true /\ test1 4026531845 1 = false.
Proof. ok. Qed.

Theorem C27_eq1 a b : is32 a -> is32 b -> (eq1 a b = true <-> forall i, 0 <= i -> Z.testbit a i = Z.testbit b i).
Proof. exact (fun H _ => eq1_ok a b H). Qed.
Print Assumptions C27_eq1.
Example C27_eq1_ex : eq1 4026531845 4026531845 = true /\ eq1 4026531845 5 = false.
Proof. ok. Qed.

Theorem C27_none1 a : is32 a -> (none1 a = true <-> forall i, 0 <= i -> Z.testbit a i = false).
Proof. exact (none1_ok a). Qed.
Print Assumptions C27_none1.
Example C27_none1_ex : is32 4026531845 /\ none1 4026531845 = false /\ none1 0 = true.
Proof. ok. Qed.

Theorem C27_any1 a : any1 a = negb (none1 a).
Proof. exact (any1_ok a). Qed.
Print Assumptions C27_any1.
Example C27_any1_ex : any1 4026531845 = true /\ any1 0 = false.
Proof. ok. Qed.

Theorem C27_meets1 a b : is32 a -> is32 b -> (meets1 a b = false <-> forall i, 0 <= i -> Z.testbit a i && Z.testbit b i = false).
Proof. exact (meets1_ok a b). Qed.
Print Assumptions C27_meets1.
Example C27_meets1_ex : is32 4026531845 /\ is32 2 /\ meets1 4026531845 2 = false /\ meets1 4026531845 4 = true.
Proof. ok. Qed.

Theorem C27_contains1 a b : is32 a -> is32 b -> (contains1 a b = true <-> forall i, 0 <= i -> Z.testbit b i = true -> Z.testbit a i = true).
Proof. exact (contains1_ok a b). Qed.
Print Assumptions C27_contains1.
Example C27_contains1_ex : is32 4026531845 /\ is32 4 /\ contains1 4026531845 4 = true /\ contains1 4026531845 6 = false.
Proof. ok. Qed.

Theorem C27_count1 a : is32 a -> count1 a = count (Z.testbit a) 32.
Proof. exact (count1_ok a). Qed.
Print Assumptions C27_count1.
Example C27_count1_ex : is32 4026531845 /\ count1 4026531845 = 6.
Proof. ok. Qed.

Theorem C27_position1 a j : is32 a -> 0 <= j <= 64 -> position1 a j = count (Z.testbit a) (Z.to_nat j).
Proof. exact (fun H => position1_ok a H j). Qed.
Print Assumptions C27_position1.
Example C27_position1_ex : is32 4026531845 /\ position1 4026531845 30 = 4.
Proof. ok. Qed.

Theorem C27_scalar1 a b : is32 a -> is32 b -> scalar1 a b = Z.odd (count (fun i => Z.testbit a i && Z.testbit b i) 32).
Proof. exact (scalar1_ok a b). Qed.
Print Assumptions C27_scalar1.
Example C27_scalar1_ex : is32 4026531845 /\ is32 7 /\ scalar1 4026531845 7 = false /\ scalar1 4026531845 3 = true.
Proof. ok. Qed.

Theorem C27_firstBit1 a : is32 a -> (a = 0 /\ firstBit1 a = 64) \/ (0 <= firstBit1 a < 32 /\ Z.testbit a (firstBit1 a) = true /\ forall i, 0 <= i < firstBit1 a -> Z.testbit a i = false).
Proof. exact (firstBit1_ok a). Qed.
Print Assumptions C27_firstBit1.
Example C27_firstBit1_ex : is32 4026531844 /\ firstBit1 4026531844 = 2.
Proof. ok. Qed.

Theorem C27_lastBit1 a : is32 a -> (a = 0 /\ lastBit1 a = 0) \/ (0 < lastBit1 a <= 32 /\ Z.testbit a (lastBit1 a - 1) = true /\ forall i, lastBit1 a <= i -> Z.testbit a i = false).
Proof. exact (lastBit1_ok a). Qed.
Print Assumptions C27_lastBit1.
Example C27_lastBit1_ex : is32 4026531845 /\ lastBit1 4026531845 = 32.
Proof. ok. Qed.

Theorem C27_n_th_bit1 a n : is32 a -> 0 <= n < count (Z.testbit a) 32 -> 0 <= n_th_bit1 a n < 32 /\ Z.testbit a (n_th_bit1 a n) = true /\ count (Z.testbit a) (Z.to_nat (n_th_bit1 a n)) = n.
Proof. exact (n_th_bit1_ok a n). Qed.
Print Assumptions C27_n_th_bit1.
Example C27_n_th_bit1_ex : is32 4026531845 /\ n_th_bit1 4026531845 3 = 29.
Proof. ok. Qed.

Theorem C27_slice1 a c : is32 a -> is32 c -> is32 (slice1 a c) /\
  (forall m, 0 <= m -> Z.testbit c m = true -> Z.testbit (slice1 a c) (count (Z.testbit c) (Z.to_nat m)) = Z.testbit a m) /\
  (forall i, count (Z.testbit c) 64 <= i -> Z.testbit (slice1 a c) i = false).
Proof. exact (slice1_ok a c). Qed.
Print Assumptions C27_slice1.
Example C27_slice1_ex : is32 4026531845 /\ is32 2147483654 /\ slice1 4026531845 2147483654 = 6.
Proof. ok. Qed.

Theorem C27_unslice1 a c : is32 a -> is32 c -> set_is1 (unslice1 a c) (fun i => Z.testbit c i && Z.testbit a (count (Z.testbit c) (Z.to_nat i))).
Proof. exact (unslice1_ok a c). Qed.
Print Assumptions C27_unslice1.
Example C27_unslice1_ex : is32 6 /\ is32 2147483654 /\ unslice1 6 2147483654 = 2147483652.
Proof. ok. Qed.

Theorem C27_slice_unslice1 a c : is32 a -> is32 c -> unslice1 (slice1 a c) c = and1 a c.
Proof. exact (slice_unslice1 a c). Qed.
Print Assumptions C27_slice_unslice1.
Example C27_slice_unslice1_ex : is32 4026531845 /\ unslice1 (slice1 4026531845 2147483654) 2147483654 = 2147483652.
Proof. ok. Qed.

Theorem C27_of_ulong1 v : 0 <= v -> set_is1 (of_ulong1 v) (fun i => (i <? 32) && Z.testbit v i).
Proof. exact (of_ulong1_ok v). Qed.
Print Assumptions C27_of_ulong1.
Example C27_of_ulong1_ex : of_ulong1 12884901893 = 5.
Proof. ok. Qed.

Theorem C27_of_vector1 v : Z.of_nat (length v) <= 32 -> set_is1 (of_vector1 v) (fun i => (i <? Z.of_nat (length v)) && Z.odd (nth (Z.to_nat i) v 0)).
Proof. exact (of_vector1_ok v). Qed.
Print Assumptions C27_of_vector1.
Example C27_of_vector1_ex : of_vector1 [3; 4; -5; 0; -2; 7] = 37.
Proof. ok. Qed.

(** ** two chunks *)
Theorem C27_xor2 a b : ok2 a -> ok2 b -> set_is2 (xor2 a b) (fun i => xorb (mem2 a i) (mem2 b i)).
Proof. exact (xor2_ok a b). Qed.
Print Assumptions C27_xor2.
Example C27_xor2_ex : ok2 (mk2 2147483653 1073741825) /\ xor2 (mk2 2147483653 1073741825) (mk2 7 3) = mk2 2147483650 1073741826.
Proof. ok. Qed.

Theorem C27_or2 a b : ok2 a -> ok2 b -> set_is2 (or2 a b) (fun i => mem2 a i || mem2 b i).
Proof. exact (or2_ok a b). Qed.
Print Assumptions C27_or2.
Example C27_or2_ex : ok2 (mk2 2147483653 1073741825) /\ or2 (mk2 2147483653 1073741825) (mk2 7 3) = mk2 2147483655 1073741827.
Proof. ok. Qed.

Theorem C27_and2 a b : ok2 a -> ok2 b -> set_is2 (and2 a b) (fun i => mem2 a i && mem2 b i).
Proof. exact (and2_ok a b). Qed.
Print Assumptions C27_and2.
Example C27_and2_ex : ok2 (mk2 2147483653 1073741825) /\ and2 (mk2 2147483653 1073741825) (mk2 7 3) = mk2 5 1.
Proof. ok. Qed.

Theorem C27_andnot2 a b : ok2 a -> ok2 b -> set_is2 (andnot2 a b) (fun i => mem2 a i && negb (mem2 b i)).
Proof. exact (andnot2_ok a b). Qed.
Print Assumptions C27_andnot2.
Example C27_andnot2_ex : ok2 (mk2 2147483653 1073741825) /\ andnot2 (mk2 2147483653 1073741825) (mk2 6 3) = mk2 2147483649 1073741824.
Proof. ok. Qed.

Theorem C27_shl2 a c : ok2 a -> 0 <= c -> set_is2 (shl2 a c) (fun i => (c <=? i) && (i <? 64) && mem2 a (i - c)).
Proof. exact (fun H => shl2_ok a H c). Qed.
Print Assumptions C27_shl2.
Example C27_shl2_ex : ok2 (mk2 2147483653 1073741825) /\ shl2 (mk2 2147483653 1073741825) 2 = mk2 20 6 /\ shl2 (mk2 2147483653 1073741825) 33 = mk2 0 10.
Proof. ok. Qed.

Theorem C27_shr2 a c : ok2 a -> 0 <= c -> set_is2 (shr2 a c) (fun i => mem2 a (i + c)).
Proof. exact (fun H => shr2_ok a H c). Qed.
Print Assumptions C27_shr2.
Example C27_shr2_ex : ok2 (mk2 2147483653 1073741825) /\ shr2 (mk2 2147483653 1073741825) 2 = mk2 1610612737 268435456 /\ shr2 (mk2 2147483653 1073741825) 62 = mk2 1 0.
Proof. ok. Qed.

Theorem C27_flip2 a j : ok2 a -> 0 <= j < 64 -> set_is2 (flip2 a j) (fun i => xorb (i =? j) (mem2 a i)).
Proof. exact (fun H => flip2_ok a H j). Qed.
Print Assumptions C27_flip2.
Example C27_flip2_ex : ok2 (mk2 2147483653 1073741825) /\ flip2 (mk2 2147483653 1073741825) 62 = mk2 2147483653 1.
Proof. ok. Qed.

Theorem C27_reset2 a j : ok2 a -> 0 <= j < 64 -> set_is2 (reset2 a j) (fun i => negb (i =? j) && mem2 a i).
Proof. exact (fun H => reset2_ok a H j). Qed.
Print Assumptions C27_reset2.
Example C27_reset2_ex : ok2 (mk2 2147483653 1073741825) /\ reset2 (mk2 2147483653 1073741825) 31 = mk2 5 1073741825.
Proof. ok. Qed.

Theorem C27_set2 a j : ok2 a -> 0 <= j < 64 -> set_is2 (set2 a j) (fun i => (i =? j) || mem2 a i).
Proof. exact (fun H => set2_ok a H j). Qed.
Print Assumptions C27_set2.
Example C27_set2_ex : ok2 (mk2 2147483653 1073741825) /\ set2 (mk2 2147483653 1073741825) 33 = mk2 2147483653 1073741827.
Proof. ok. Qed.

Theorem C27_set_to2 a j v : ok2 a -> 0 <= j < 64 -> set_is2 (set_to2 a j v) (fun i => if i =? j then v else mem2 a i).
Proof. exact (fun H => set_to2_ok a H j v). Qed.
Print Assumptions C27_set_to2.
Example C27_set_to2_ex : ok2 (mk2 2147483653 1073741825) /\ set_to2 (mk2 2147483653 1073741825) 32 false = mk2 2147483653 1073741824.
Proof. ok. Qed.

(** Full statement, as for one chunk: fill2 adds the numbers below the limit.
    Missing: members at or beyond the limit are kept only in part, since the
    source assigns instead of or-ing. *)
Theorem C27_fill2_partial a l : ok2 a -> 0 <= l <= 64 -> (forall i, l <= i < 64 -> mem2 a i = false) -> set_is2 (fill2 a l) (fun i => (i <? l) || mem2 a i).
Proof. intros Ha Hl H. destruct (fill2_ok a Ha l Hl) as [O M]. split; [exact O|]. intros i Hi. rewrite M by exact Hi.
  destruct (Z.ltb_spec i l); [reflexivity|]. cbn [orb]. destruct (Z.lt_ge_cases i 64).
  - rewrite H by lia. rewrite andb_false_r. reflexivity.
  - rewrite mem2_64 by (auto; lia). apply andb_false_r. Qed.
Print Assumptions C27_fill2_partial.
Example C27_fill2_ex : ok2 (mk2 5 1) /\ fill2 (mk2 5 1) 34 = mk2 4294967295 3.
Proof. ok. Qed.

Theorem C27_fill2_exact a l : ok2 a -> 0 <= l <= 64 -> set_is2 (fill2 a l) (fun i => (i <? l) || (32 <=? i) && (l <=? 32) && mem2 a i).
Proof. exact (fun H => fill2_ok a H l). Qed.
Print Assumptions C27_fill2_exact.
Example C27_fill2_exact_ex : ok2 (mk2 2147483653 1073741825) /\ fill2 (mk2 2147483653 1073741825) 1 = mk2 1 1073741825.
Proof. ok. Qed.

Theorem C27_fill2_refuted : exists a l i, ok2 a /\ 0 <= l <= 64 /\ mem2 a i = true /\ mem2 (fill2 a l) i = false.
Proof. exists (mk2 32 0), 3, 5. ok. Qed.
Print Assumptions C27_fill2_refuted.

Theorem C27_complement2 a l : ok2 a -> 0 <= l <= 64 -> set_is2 (complement2 a l) (fun i => xorb (i <? l) (mem2 a i)).
Proof. exact (fun H => complement2_ok a H l). Qed.
Print Assumptions C27_complement2.
Example C27_complement2_ex : ok2 (mk2 2147483653 1073741825) /\ complement2 (mk2 2147483653 1073741825) 33 = mk2 2147483642 1073741824.
Proof. ok. Qed.

Theorem C27_truncate2 a l : ok2 a -> 0 <= l <= 64 -> set_is2 (truncate2 a l) (fun i => (i <? l) && mem2 a i).
Proof. exact (fun H => truncate2_ok a H l). Qed.
Print Assumptions C27_truncate2.
Example C27_truncate2_ex : ok2 (mk2 2147483653 1073741825) /\ truncate2 (mk2 2147483653 1073741825) 32 = mk2 2147483653 0 /\ truncate2 (mk2 2147483653 1073741825) 40 = mk2 2147483653 1.
Proof. ok. Qed.

Theorem C27_test2 a j : ok2 a -> 0 <= j < 64 -> test2 a j = mem2 a j.
Proof. exact (fun H => test2_ok a H j). Qed.
Print Assumptions C27_test2.
Example C27_test2_ex : ok2 (mk2 2147483653 1073741825) /\ test2 (mk2 2147483653 1073741825) 62 = true /\ test2 (mk2 2147483653 1073741825) 30 = false.
Proof. ok. Qed.

Theorem C27_eq2 a b : ok2 a -> ok2 b -> (eq2 a b = true <-> forall i, 0 <= i -> mem2 a i = mem2 b i).
Proof. exact (eq2_ok a b). Qed.
Print Assumptions C27_eq2.
Example C27_eq2_ex : ok2 (mk2 2147483653 1073741825) /\ eq2 (mk2 2147483653 1073741825) (mk2 2147483653 1073741825) = true /\ eq2 (mk2 2147483653 1073741825) (mk2 2147483653 1) = false.
Proof. ok. Qed.

Theorem C27_lt2 a b : ok2 a -> ok2 b -> lt2 a b = (val2 a <? val2 b).
Proof. exact (lt2_ok a b). Qed.
Print Assumptions C27_lt2.
Example C27_lt2_ex : ok2 (mk2 2147483653 1073741825) /\ lt2 (mk2 4294967295 1) (mk2 2147483653 1073741825) = true /\ lt2 (mk2 2147483653 1073741825) (mk2 2147483653 1073741825) = false.
Proof. ok. Qed.

Theorem C27_none2 a : ok2 a -> (none2 a = true <-> forall i, 0 <= i -> mem2 a i = false).
Proof. exact (none2_ok a). Qed.
Print Assumptions C27_none2.
Example C27_none2_ex : ok2 (mk2 0 4) /\ none2 (mk2 0 4) = false /\ none2 (mk2 0 0) = true.
Proof. ok. Qed.

Theorem C27_any2 a : any2 a = negb (none2 a).
Proof. exact (any2_ok a). Qed.
Print Assumptions C27_any2.
Example C27_any2_ex : any2 (mk2 0 4) = true /\ any2 (mk2 0 0) = false.
Proof. ok. Qed.

Theorem C27_meets2 a b : ok2 a -> ok2 b -> (meets2 a b = false <-> forall i, 0 <= i -> mem2 a i && mem2 b i = false).
Proof. exact (meets2_ok a b). Qed.
Print Assumptions C27_meets2.
Example C27_meets2_ex : ok2 (mk2 2147483653 1073741825) /\ meets2 (mk2 2147483653 1073741825) (mk2 2 2) = false /\ meets2 (mk2 2147483653 1073741825) (mk2 2 1) = true.
Proof. ok. Qed.

Theorem C27_contains2 a b : ok2 a -> ok2 b -> (contains2 a b = true <-> forall i, 0 <= i -> mem2 b i = true -> mem2 a i = true).
Proof. exact (contains2_ok a b). Qed.
Print Assumptions C27_contains2.
Example C27_contains2_ex : ok2 (mk2 2147483653 1073741825) /\ contains2 (mk2 2147483653 1073741825) (mk2 4 1) = true /\ contains2 (mk2 2147483653 1073741825) (mk2 4 3) = false.
Proof. ok. Qed.

Theorem C27_count2 a : ok2 a -> count2 a = count (mem2 a) 64.
Proof. exact (count2_ok a). Qed.
Print Assumptions C27_count2.
Example C27_count2_ex : ok2 (mk2 2147483653 1073741825) /\ count2 (mk2 2147483653 1073741825) = 5.
Proof. ok. Qed.

(** Full statement: position2 a j is the number of members below j, for j < 64.
    Missing: for 32 < j the members of the high chunk are not counted. *)
Theorem C27_position2_partial a j : ok2 a -> 0 <= j < 64 -> j <= 32 \/ (forall i, 32 <= i < j -> mem2 a i = false) -> position2 a j = count (mem2 a) (Z.to_nat j).
Proof. exact (fun H => position2_ok a H j). Qed.
Print Assumptions C27_position2_partial.
Example C27_position2_ex : ok2 (mk2 2147483653 1073741825) /\ position2 (mk2 2147483653 1073741825) 32 = 3.
Proof. ok. Qed.

Theorem C27_position2_refuted : exists a j, ok2 a /\ 0 <= j < 64 /\ position2 a j <> count (mem2 a) (Z.to_nat j).
Proof. exists (mk2 0 1), 33. split; [split; unfold is32; cbn; lia|]. split; [lia|]. vm_compute. discriminate. Qed.
Print Assumptions C27_position2_refuted.

Theorem C27_scalar2 a b : ok2 a -> ok2 b -> scalar2 a b = Z.odd (count (fun i => mem2 a i && mem2 b i) 64).
Proof. exact (scalar2_ok a b). Qed.
Print Assumptions C27_scalar2.
Example C27_scalar2_ex : ok2 (mk2 2147483653 1073741825) /\ scalar2 (mk2 2147483653 1073741825) (mk2 7 1) = true /\ scalar2 (mk2 2147483653 1073741825) (mk2 7 0) = false.
Proof. ok. Qed.

Theorem C27_firstBit2 a : ok2 a -> ((forall i, 0 <= i -> mem2 a i = false) /\ firstBit2 a = 96) \/ (0 <= firstBit2 a < 64 /\ mem2 a (firstBit2 a) = true /\ forall i, 0 <= i < firstBit2 a -> mem2 a i = false).
Proof. exact (firstBit2_ok a). Qed.
Print Assumptions C27_firstBit2.
Example C27_firstBit2_ex : ok2 (mk2 0 12) /\ firstBit2 (mk2 0 12) = 34.
Proof. ok. Qed.

Theorem C27_lastBit2 a : ok2 a -> ((forall i, 0 <= i -> mem2 a i = false) /\ lastBit2 a = 0) \/ (0 < lastBit2 a <= 64 /\ mem2 a (lastBit2 a - 1) = true /\ forall i, lastBit2 a <= i -> mem2 a i = false).
Proof. exact (lastBit2_ok a). Qed.
Print Assumptions C27_lastBit2.
Example C27_lastBit2_ex : ok2 (mk2 5 12) /\ lastBit2 (mk2 5 12) = 36.
Proof. ok. Qed.

(** The two implementations disagree on the empty set (documented value: longBits = 64). *)
Theorem C27_firstBit_empty_refuted : firstBit1 0 = 64 /\ firstBit2 (mk2 0 0) <> 64.
Proof. split; vm_compute; [reflexivity|discriminate]. Qed.
Print Assumptions C27_firstBit_empty_refuted.

Theorem C27_n_th_bit2 a n : ok2 a -> 0 <= n < count (mem2 a) 64 -> 0 <= n_th_bit2 a n < 64 /\ mem2 a (n_th_bit2 a n) = true /\ count (mem2 a) (Z.to_nat (n_th_bit2 a n)) = n.
Proof. exact (n_th_bit2_ok a n). Qed.
Print Assumptions C27_n_th_bit2.
Example C27_n_th_bit2_ex : ok2 (mk2 2147483653 1073741825) /\ n_th_bit2 (mk2 2147483653 1073741825) 4 = 62.
Proof. ok. Qed.

Theorem C27_slice2 a c : ok2 a -> ok2 c -> ok2 (slice2 a c) /\
  (forall m, 0 <= m -> mem2 c m = true -> mem2 (slice2 a c) (count (mem2 c) (Z.to_nat m)) = mem2 a m) /\
  (forall i, count (mem2 c) 64 <= i -> mem2 (slice2 a c) i = false).
Proof. exact (slice2_ok a c). Qed.
Print Assumptions C27_slice2.
Example C27_slice2_ex : ok2 (mk2 2147483653 1073741825) /\ slice2 (mk2 2147483653 1073741825) (mk2 6 1073741826) = mk2 10 0.
Proof. ok. Qed.

Theorem C27_unslice2 a c : ok2 a -> ok2 c -> set_is2 (unslice2 a c) (fun i => mem2 c i && mem2 a (count (mem2 c) (Z.to_nat i))).
Proof. exact (unslice2_ok a c). Qed.
Print Assumptions C27_unslice2.
Example C27_unslice2_ex : ok2 (mk2 10 0) /\ unslice2 (mk2 10 0) (mk2 6 1073741826) = mk2 4 1073741824.
Proof. ok. Qed.

Theorem C27_slice_unslice2 a c : ok2 a -> ok2 c -> unslice2 (slice2 a c) c = and2 a c.
Proof. exact (slice_unslice2 a c). Qed.
Print Assumptions C27_slice_unslice2.
Example C27_slice_unslice2_ex : ok2 (mk2 2147483653 1073741825) /\ unslice2 (slice2 (mk2 2147483653 1073741825) (mk2 6 1073741826)) (mk2 6 1073741826) = mk2 4 1073741824.
Proof. ok. Qed.

Theorem C27_of_ulong2 v : 0 <= v < 2 ^ 64 -> ok2 (of_ulong2 v) /\ val2 (of_ulong2 v) = v.
Proof. exact (of_ulong2_ok v). Qed.
Print Assumptions C27_of_ulong2.
Example C27_of_ulong2_ex : of_ulong2 12884901893 = mk2 5 3.
Proof. ok. Qed.

Theorem C27_to_ulong2 a : ok2 a -> to_ulong2 a = val2 a.
Proof. exact (to_ulong2_val a). Qed.
Print Assumptions C27_to_ulong2.
Example C27_to_ulong2_ex : ok2 (mk2 5 3) /\ to_ulong2 (mk2 5 3) = 12884901893.
Proof. ok. Qed.

Theorem C27_of_vector2 v : Z.of_nat (length v) <= 64 -> set_is2 (of_vector2 v) (fun i => (i <? Z.of_nat (length v)) && Z.odd (nth (Z.to_nat i) v 0)).
Proof. exact (of_vector2_ok v). Qed.
Print Assumptions C27_of_vector2.
Example C27_of_vector2_ex : of_vector2 (repeat 2 31 ++ [-1; 3; 4; 5]) = mk2 2147483648 5.
Proof. ok. Qed.
