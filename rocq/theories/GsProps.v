(** C171, C172: status of simple roots, comparison of gradings. *)

From Coq Require Import List Arith ZArith Bool Lia.
From Verif Require Import BitsModel BitmapSpec BitsetModel BitsetSpec BitsetProps GsModel.
Import ListNotations.
Local Open Scope Z_scope.

Lemma read a j : ok2 a -> 0 <= j < 32 -> st_get a j = match mem2 a (2 * j), mem2 a (2 * j + 1) with
  | false, false => Complex | true, false => ImaginaryCompact | false, true => Real | true, true => ImaginaryNoncompact end.
Proof.
  intros A J. unfold st_get. cbv zeta. rewrite !C27_test2 by (assumption || lia). destruct (mem2 a (2 * j)), (mem2 a (2 * j + 1)); reflexivity.
Qed.
Lemma code_ok v : 0 <= code v < 4. Proof. destruct v; cbn; lia. Qed.
Lemma read_of v k : 0 <= k -> mem2 (of_ulong2 (code v)) k = Z.testbit (code v) k.
Proof. intros K. unfold mem2. pose proof (code_ok v). rewrite (proj2 (C27_of_ulong2 (code v) ltac:(lia))). reflexivity. Qed.
Lemma code_high v k : 2 <= k -> Z.testbit (code v) k = false.
Proof. intros K. destruct (Z.eq_dec (code v) 0) as [->|N]; [apply Z.bits_0|]. pose proof (code_ok v). apply Z.bits_above_log2; [lia|]. apply Z.log2_lt_pow2; [lia|]. apply Z.lt_le_trans with (2 ^ 2); [cbn; lia|]. apply Z.pow_le_mono_r; lia. Qed.
Lemma shifted v j : 0 <= j < 32 -> ok2 (shl2 (of_ulong2 (code v)) (2 * j)) /\
  forall i, 0 <= i -> mem2 (shl2 (of_ulong2 (code v)) (2 * j)) i = (2 * j <=? i) && (i <? 64) && Z.testbit (code v) (i - 2 * j).
Proof.
  intros J. pose proof (code_ok v). destruct (C27_shl2 (of_ulong2 (code v)) (2 * j) (proj1 (C27_of_ulong2 (code v) ltac:(lia))) ltac:(lia)) as [O Q].
  split; [exact O|]. intros i I. rewrite Q by exact I. destruct (2 * j <=? i) eqn:E; [|reflexivity]. apply Z.leb_le in E. rewrite read_of by lia. reflexivity.
Qed.
Lemma set_bits a j v : ok2 a -> 0 <= j < 32 -> ok2 (st_set a j v) /\
  forall i, 0 <= i -> mem2 (st_set a j v) i = mem2 a i || (2 * j <=? i) && (i <? 64) && Z.testbit (code v) (i - 2 * j).
Proof.
  intros A J. destruct (shifted v j J) as [O Q]. destruct (C27_or2 a _ A O) as [O' Q']. split; [exact O'|]. intros i I. unfold st_set. rewrite Q' by exact I. rewrite Q by exact I. reflexivity.
Qed.

(** * C171: class Status *)
(** each root that has not been set is complex, and setting it changes that one root only *)
Theorem C171_set (a : two) (j : Z) (v : stat) : ok2 a -> 0 <= j < 32 -> st_get a j = Complex ->
  ok2 (st_set a j v) /\ forall i, 0 <= i < 32 -> st_get (st_set a j v) i = if i =? j then v else st_get a i.
Proof.
  intros A J E. destruct (set_bits a j v A J) as [O Q]. split; [exact O|]. intros i I. rewrite read by assumption. rewrite !Q by lia.
  rewrite read in E by assumption. destruct (Z.eqb_spec i j) as [->|N].
  - destruct (mem2 a (2 * j)), (mem2 a (2 * j + 1)); try discriminate. rewrite !orb_false_l.
    replace (2 * j <=? 2 * j) with true by (symmetry; apply Z.leb_le; lia). replace (2 * j <=? 2 * j + 1) with true by (symmetry; apply Z.leb_le; lia).
    replace (2 * j <? 64) with true by (symmetry; apply Z.ltb_lt; lia). replace (2 * j + 1 <? 64) with true by (symmetry; apply Z.ltb_lt; lia).
    replace (2 * j - 2 * j) with 0 by lia. replace (2 * j + 1 - 2 * j) with 1 by lia. destruct v; reflexivity.
  - rewrite read by assumption. assert (H : forall k, 0 <= k < 2 -> (2 * j <=? 2 * i + k) && (2 * i + k <? 64) && Z.testbit (code v) (2 * i + k - 2 * j) = false).
    { intros k K. destruct (Z.leb_spec (2 * j) (2 * i + k)); [|reflexivity]. rewrite code_high by lia. apply andb_false_r. }
    pose proof (H 0 ltac:(lia)) as H0. rewrite Z.add_0_r in H0. rewrite H0, (H 1 ltac:(lia)), !orb_false_r. reflexivity.
Qed.
Print Assumptions C171_set.
Theorem C171_new : ok2 st_new /\ forall i, 0 <= i < 32 -> st_get st_new i = Complex.
Proof.
  assert (O : ok2 st_new) by (split; unfold is32; cbn; lia). split; [exact O|]. intros i I. rewrite read by assumption. unfold mem2. replace (val2 st_new) with 0 by reflexivity. rewrite !Z.bits_0. reflexivity.
Qed.
Print Assumptions C171_new.
Theorem C171_set_imaginary (a : two) (j : Z) (g : bool) : ok2 a -> 0 <= j < 32 -> st_get a j = Complex ->
  ok2 (st_set_imaginary a j g) /\ forall i, 0 <= i < 32 ->
    st_get (st_set_imaginary a j g) i = if i =? j then (if g then ImaginaryNoncompact else ImaginaryCompact) else st_get a i.
Proof. intros A J E. exact (C171_set a j _ A J E). Qed.
Print Assumptions C171_set_imaginary.
(** setting a root to two different values one after the other does not give the last one *)
Theorem C171_overwrite_refuted : exists a j v w, ok2 a /\ 0 <= j < 32 /\ st_get a j = v /\ st_get (st_set a j w) j <> w.
Proof. exists (mk2 1 0), 0, ImaginaryCompact, Real. split; [split; unfold is32; cbn; lia|]. split; [lia|]. split; [vm_compute; reflexivity|]. vm_compute. discriminate. Qed.
Print Assumptions C171_overwrite_refuted.
(** the tests agree with the value *)
Theorem C171_tests (a : two) (j : Z) : ok2 a -> 0 <= j < 32 ->
  (st_complex a j = true <-> st_get a j = Complex) /\ (st_compact a j = true <-> st_get a j = ImaginaryCompact) /\
  (st_real a j = true <-> st_get a j = Real) /\ (st_noncompact a j = true <-> st_get a j = ImaginaryNoncompact) /\
  (st_imaginary a j = true <-> st_get a j = ImaginaryCompact \/ st_get a j = ImaginaryNoncompact).
Proof.
  intros A J. rewrite read by assumption. unfold st_complex, st_compact, st_real, st_noncompact, st_imaginary. rewrite !C27_test2 by (assumption || lia).
  destruct (mem2 a (2 * j)), (mem2 a (2 * j + 1)); cbn; intuition congruence.
Qed.
Print Assumptions C171_tests.
(** two values are equal when they agree on all 32 roots *)
Theorem C171_eq (a b : two) : ok2 a -> ok2 b -> (st_eq a b = true <-> forall j, 0 <= j < 32 -> st_get a j = st_get b j).
Proof.
  intros A B. unfold st_eq. rewrite (C27_eq2 a b A B). split.
  - intros H j J. rewrite !read by assumption. rewrite !H by lia. reflexivity.
  - intros H i I. destruct (Z_lt_le_dec i 64) as [L|L].
    + assert (J : 0 <= i / 2 < 32) by (split; [apply Z.div_pos|apply Z.div_lt_upper_bound]; lia). specialize (H (i / 2) J). rewrite !read in H by assumption.
      pose proof (Z.div_mod i 2 ltac:(lia)) as D. pose proof (Z.mod_pos_bound i 2 ltac:(lia)) as M. assert (E : i = 2 * (i / 2) \/ i = 2 * (i / 2) + 1) by lia.
      destruct E as [E|E]; rewrite E; destruct (mem2 a (2 * (i / 2))), (mem2 a (2 * (i / 2) + 1)), (mem2 b (2 * (i / 2))), (mem2 b (2 * (i / 2) + 1)); congruence.
    + assert (Z0 : forall c, ok2 c -> mem2 c i = false); [|rewrite (Z0 a A), (Z0 b B); reflexivity].
      intros c [[C1 C2] [C3 C4]]. unfold mem2, val2. destruct (Z.eq_dec (lo c + 2 ^ 32 * hi c) 0) as [Q|Q].
      * rewrite Q. apply Z.bits_0.
      * apply Z.bits_above_log2; [lia|]. apply Z.log2_lt_pow2; [lia|]. apply Z.lt_le_trans with (2 ^ 64); [|apply Z.pow_le_mono_r; lia]. change (2 ^ 64) with (2 ^ 32 * 2 ^ 32). nia.
Qed.
Print Assumptions C171_eq.
Example C171_ex : let a := st_set (st_set_imaginary st_new 3 true) 20 Real in
  map (st_get a) [2; 3; 4; 19; 20] = [Complex; ImaginaryNoncompact; Complex; Complex; Real] /\ st_real a 20 = true /\ st_imaginary a 3 = true /\ a = mk2 192 512.
Proof. vm_compute. repeat split; reflexivity. Qed.

(** * C172: GradingCompare *)
Lemma top_less a b i : 0 <= a -> 0 <= b -> 0 <= i -> Z.testbit a i = false -> Z.testbit b i = true -> (forall k, i < k -> Z.testbit a k = Z.testbit b k) -> a < b.
Proof.
  intros A B I Ai Bi H. assert (Q : forall x, Z.shiftr x i = 2 * Z.shiftr x (i + 1) + Z.b2z (Z.testbit x i)).
  { intros x. rewrite <- Z.shiftr_shiftr by lia. rewrite (Z.div2_odd (Z.shiftr x i)) at 1. rewrite <- (Z.div2_spec (Z.shiftr x i)). f_equal. rewrite <- Z.bit0_odd, Z.shiftr_spec by lia. reflexivity. }
  assert (E : Z.shiftr a (i + 1) = Z.shiftr b (i + 1)) by (apply Z.bits_inj'; intros k K; rewrite !Z.shiftr_spec by lia; apply H; lia).
  pose proof (Q a) as Qa. pose proof (Q b) as Qb. rewrite Ai in Qa. rewrite Bi in Qb. change (Z.b2z false) with 0 in Qa. change (Z.b2z true) with 1 in Qb. rewrite E in Qa. rewrite (Z.shiftr_div_pow2 a i I) in Qa. rewrite (Z.shiftr_div_pow2 b i I) in Qb.
  pose proof (Z.pow_pos_nonneg 2 i ltac:(lia) I) as P. destruct (Z_lt_le_dec a b) as [L|L]; [exact L|]. exfalso. pose proof (Z.div_le_mono b a (2 ^ i) P L). lia.
Qed.
Lemma less_top a b : is32 a -> is32 b -> (a < b <-> exists i, 0 <= i < 32 /\ Z.testbit a i = false /\ Z.testbit b i = true /\ forall k, i < k -> Z.testbit a k = Z.testbit b k).
Proof.
  intros A B. split.
  - intros L. set (x := Z.lxor a b). assert (Hx : 0 <= x) by (apply Z.lxor_nonneg; unfold is32 in *; lia). assert (Nx : x <> 0) by (intros E; apply Z.lxor_eq in E; lia).
    assert (I : 0 <= Z.log2 x < 32).
    { split; [apply Z.log2_nonneg|]. destruct (Z_lt_le_dec (Z.log2 x) 32) as [|G]; [assumption|]. pose proof (Z.bit_log2 x ltac:(lia)) as T. unfold x at 1 in T. rewrite Z.lxor_spec in T.
      assert (Hb : forall y, is32 y -> Z.testbit y (Z.log2 x) = false).
      { intros y [Y1 Y2]. destruct (Z.eq_dec y 0) as [->|Ny]; [apply Z.bits_0|]. apply Z.bits_above_log2; [lia|]. apply Z.lt_le_trans with 32; [|exact G]. apply Z.log2_lt_pow2; [lia|exact Y2]. }
      rewrite (Hb a A), (Hb b B) in T. discriminate. }
    assert (T : xorb (Z.testbit a (Z.log2 x)) (Z.testbit b (Z.log2 x)) = true) by (rewrite <- Z.lxor_spec; apply Z.bit_log2; lia).
    assert (H : forall k, Z.log2 x < k -> Z.testbit a k = Z.testbit b k) by (intros k K; apply xorb_eq; rewrite <- Z.lxor_spec; apply Z.bits_above_log2; [exact Hx|exact K]).
    exists (Z.log2 x). split; [exact I|]. destruct (Z.testbit a (Z.log2 x)) eqn:Ea, (Z.testbit b (Z.log2 x)) eqn:Eb; try discriminate T; [exfalso|repeat split; auto].
    assert (b < a); [|lia]. apply (top_less b a (Z.log2 x)); try assumption; try (unfold is32 in *; lia). intros k K. symmetry. apply H. exact K.
  - intros (i & I & Ai & Bi & H). apply (top_less a b i); try assumption; unfold is32 in *; lia.
Qed.
(** the number of elements is compared first, then the largest element where the sets differ decides *)
Theorem C172_compare (a b : Z) : is32 a -> is32 b ->
  (grading_compare a b = true <-> count (Z.testbit a) 32 < count (Z.testbit b) 32 \/ (count (Z.testbit a) 32 = count (Z.testbit b) 32 /\
     exists i, 0 <= i < 32 /\ Z.testbit a i = false /\ Z.testbit b i = true /\ forall k, i < k -> Z.testbit a k = Z.testbit b k)).
Proof.
  intros A B. rewrite <- (less_top a b A B), <- !C27_count1 by assumption. unfold grading_compare, lt1. cbv zeta.
  destruct (Z.eqb_spec (count1 a) (count1 b)); rewrite Z.ltb_lt; lia.
Qed.
Print Assumptions C172_compare.
(** this is a strict total order *)
Theorem C172_order : (forall a, grading_compare a a = false) /\
  (forall a b c, grading_compare a b = true -> grading_compare b c = true -> grading_compare a c = true) /\
  (forall a b, a = b \/ grading_compare a b = true \/ grading_compare b a = true).
Proof.
  unfold grading_compare, lt1. cbv zeta. split; [|split].
  - intros a. rewrite Z.eqb_refl. apply Z.ltb_irrefl.
  - intros a b c. destruct (Z.eqb_spec (count1 a) (count1 b)), (Z.eqb_spec (count1 b) (count1 c)), (Z.eqb_spec (count1 a) (count1 c)); rewrite !Z.ltb_lt; lia.
  - intros a b. destruct (Z.eqb_spec (count1 a) (count1 b)), (Z.eqb_spec (count1 b) (count1 a)); rewrite !Z.ltb_lt; lia.
Qed.
Print Assumptions C172_order.
Example C172_ex : is32 24 /\ is32 7 /\ grading_compare 24 7 = true /\ grading_compare 24 5 = false /\ grading_compare 5 24 = true /\
  count (Z.testbit 24) 32 = 2 /\ count (Z.testbit 7) 32 = 3.
Proof. unfold is32. repeat split; try lia; vm_compute; reflexivity. Qed.
