(** Property C21: bit counting primitives of bits.cpp. *)

From Coq Require Import ZArith List Bool Lia.
From Verif Require Import BitsModel BitsSpec BitsProofs.
From Verif Require BigIntModel.
Open Scope Z_scope.

(** ** bitCount, firstBit, lastBit against bit-level characterisations *)
Theorem C21_bitCount x : word x -> bitCount x = bits_below x 64.
Proof. exact (bitCount_correct x). Qed.
Print Assumptions C21_bitCount.
Example C21_bitCount_ex : word 18446744073709551615 /\ bitCount 18446744073709551615 = 64.
Proof. split; [unfold word; lia|vm_compute; reflexivity]. Qed.
Example C21_bitCount_ex2 : word 9223372041149743121 /\ bitCount 9223372041149743121 = 4.
Proof. split; [unfold word; lia|vm_compute; reflexivity]. Qed.

Theorem C21_firstBit f : word f ->
  (f = 0 /\ firstBit f = 64) \/
  (f <> 0 /\ 0 <= firstBit f < 64 /\ Z.testbit f (firstBit f) = true /\
   forall i, 0 <= i < firstBit f -> Z.testbit f i = false).
Proof. exact (firstBit_correct f). Qed.
Print Assumptions C21_firstBit.
Example C21_firstBit_ex : word 13835058055282163712 /\ firstBit 13835058055282163712 = 62.
Proof. split; [unfold word; lia|vm_compute; reflexivity]. Qed.

Theorem C21_lastBit f : word f ->
  (f = 0 /\ lastBit f = 0) \/ (0 < lastBit f <= 64 /\ 2 ^ (lastBit f - 1) <= f < 2 ^ lastBit f).
Proof. exact (lastBit_correct f). Qed.
Print Assumptions C21_lastBit.
Example C21_lastBit_ex : word 4294967297 /\ lastBit 4294967297 = 33.
Proof. split; [unfold word; lia|vm_compute; reflexivity]. Qed.

(** ** The word operations that the big-integer model uses are these ones *)
Lemma bits_below_double b t k : 0 <= b <= 1 -> bits_below (b + 2 * t) (S k) = b + bits_below t k.
Proof.
  intros Hb. induction k as [|k IH].
  - cbn [bits_below]. assert (C : b = 0 \/ b = 1) by lia.
    change (Z.of_nat 0) with 0. destruct C as [->| ->].
    + rewrite (Z.add_0_l (2 * t)), Z.testbit_even_0. reflexivity.
    + rewrite (Z.add_comm 1 (2 * t)), Z.testbit_odd_0. reflexivity.
  - change (bits_below (b + 2 * t) (S (S k))) with
      (bits_below (b + 2 * t) (S k) + (if Z.testbit (b + 2 * t) (Z.of_nat (S k)) then 1 else 0)).
    rewrite IH. cbn [bits_below]. rewrite Nat2Z.inj_succ.
    assert (C : b = 0 \/ b = 1) by lia. destruct C as [->| ->].
    + rewrite (Z.add_0_l (2 * t)), Z.testbit_even_succ by lia. lia.
    + rewrite (Z.add_comm 1 (2 * t)), Z.testbit_odd_succ by lia. lia.
Qed.
Lemma bits_below_0 k : bits_below 0 k = 0.
Proof. induction k; cbn [bits_below]; [reflexivity|]. rewrite IHk, Z.testbit_0_l. reflexivity. Qed.
Lemma popcount_pos_bits k : forall p, Z.pos p < 2 ^ Z.of_nat k ->
  BigIntModel.popcount_pos p = bits_below (Z.pos p) k.
Proof.
  induction k as [|k IH]; intros p H; [change (2 ^ Z.of_nat 0) with 1 in H; lia|].
  rewrite Nat2Z.inj_succ, Z.pow_succ_r in H by lia.
  destruct p as [p|p|]; cbn [BigIntModel.popcount_pos].
  - rewrite Pos2Z.inj_xI, (Z.add_comm _ 1), bits_below_double by lia. rewrite IH by lia. reflexivity.
  - rewrite Pos2Z.inj_xO. rewrite <- (Z.add_0_l (2 * Z.pos p)), bits_below_double by lia. rewrite IH by lia. reflexivity.
  - replace (bits_below 1 (S k)) with (bits_below (1 + 2 * 0) (S k)) by reflexivity.
    rewrite bits_below_double, bits_below_0 by lia. reflexivity.
Qed.

Lemma bitCount_popcount x : word x -> bitCount x = BigIntModel.popcount x.
Proof.
  intros H. rewrite bitCount_correct by exact H. destruct x as [|p|p].
  - apply bits_below_0.
  - symmetry. apply popcount_pos_bits. unfold word in H. change (2 ^ Z.of_nat 64) with (2 ^ 64). lia.
  - unfold word in H. lia.
Qed.

Lemma ctz_pos_spec p : 0 <= BigIntModel.ctz_pos p /\ Z.testbit (Z.pos p) (BigIntModel.ctz_pos p) = true /\
  forall i, 0 <= i < BigIntModel.ctz_pos p -> Z.testbit (Z.pos p) i = false.
Proof.
  induction p as [p IH|p IH|]; cbn [BigIntModel.ctz_pos].
  - split; [lia|]. split; [reflexivity|]. intros; lia.
  - destruct IH as (A & B & C). split; [lia|]. rewrite Pos2Z.inj_xO. rewrite Z.add_1_l.
    split; [rewrite Z.testbit_even_succ by lia; exact B|].
    intros i Hi. destruct (Z.eq_dec i 0) as [->|N]; [apply Z.testbit_even_0|].
    replace i with (Z.succ (i - 1)) by lia. rewrite Z.testbit_even_succ by lia. apply C. lia.
  - split; [lia|]. split; [reflexivity|]. intros; lia.
Qed.

Lemma firstBit_ctz x : word x -> firstBit x = BigIntModel.ctz x.
Proof.
  intros H. destruct (firstBit_correct x H) as [[-> E]|(N & (A & _) & B & C)]; [exact E|].
  destruct x as [|p|p]; [lia| |unfold word in H; lia].
  unfold BigIntModel.ctz. destruct (ctz_pos_spec p) as (P & Q & R).
  destruct (Z.lt_trichotomy (firstBit (Z.pos p)) (BigIntModel.ctz_pos p)) as [L|[L|L]]; [|exact L|].
  - rewrite R in B by lia. discriminate.
  - rewrite C in Q by lia. discriminate.
Qed.

Lemma lastBit_lastbit32 x : word x -> lastBit x = BigIntModel.lastbit32 x.
Proof.
  intros H. unfold BigIntModel.lastbit32. destruct (Z.leb_spec x 0) as [L|L].
  - assert (x = 0) by (unfold word in H; lia). subst x. reflexivity.
  - apply lastBit_log2; auto.
Qed.

Theorem C21_bigint_word_ops x : word x ->
  bitCount x = BigIntModel.popcount x /\ firstBit x = BigIntModel.ctz x /\ lastBit x = BigIntModel.lastbit32 x.
Proof. intros H. split; [|split]; [apply bitCount_popcount|apply firstBit_ctz|apply lastBit_lastbit32]; exact H. Qed.
Print Assumptions C21_bigint_word_ops.
Example C21_bigint_word_ops_ex : word 240 /\ BigIntModel.popcount 240 = 4 /\ BigIntModel.ctz 240 = 4 /\ BigIntModel.lastbit32 240 = 8.
Proof. split; [unfold word; lia|vm_compute; auto]. Qed.
