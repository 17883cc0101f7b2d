(** Proofs about BitSet. *)

From Coq Require Import ZArith List Bool Lia.
From Verif Require Import BitsModel BitsSpec BitsProofs BitmapModel BitmapSpec BitmapBase BitmapOps BitmapQuery BitsetModel BitsetSpec.
Import ListNotations.
Open Scope Z_scope.

(** ** 32-bit chunks *)
Lemma is32_word x : is32 x -> word x.
Proof. unfold is32, word. lia. Qed.
Lemma is32_testbit x i : is32 x -> 32 <= i -> Z.testbit x i = false.
Proof.
  intros H Hi. destruct (Z.eq_dec x 0) as [->|]; [apply Z.bits_0|].
  apply Z.bits_above_log2; [unfold is32 in H; lia|].
  apply Z.lt_le_trans with 32; [apply Z.log2_lt_pow2; unfold is32 in H; lia|lia].
Qed.
Lemma is32_bits x : 0 <= x -> (forall i, 32 <= i -> Z.testbit x i = false) -> is32 x.
Proof.
  intros H0 H. split; [exact H0|]. destruct (Z.lt_ge_cases x (2 ^ 32)); [auto|].
  assert (P : 0 < x) by lia. pose proof (Z.bit_log2 x P) as B.
  rewrite H in B; [discriminate|]. apply Z.log2_le_pow2; lia.
Qed.
Lemma c32_is32 x : is32 (c32 x).
Proof. unfold c32, is32. apply Z.mod_pos_bound. lia. Qed.
Lemma c32_testbit x i : 0 <= i -> Z.testbit (c32 x) i = (i <? 32) && Z.testbit x i.
Proof.
  intros H. unfold c32. destruct (Z.ltb_spec i 32); [rewrite Z.mod_pow2_bits_low by lia; reflexivity|].
  rewrite Z.mod_pow2_bits_high by lia. reflexivity.
Qed.
Lemma not32_testbit x i : is32 x -> 0 <= i -> Z.testbit (not32 x) i = (i <? 32) && negb (Z.testbit x i).
Proof.
  intros H Hi. assert (E : not32 x = Z.ldiff (Z.ones 32) x).
  { assert (A : Z.land x (Z.ones 32) = x) by (rewrite Z.land_ones by lia; apply Z.mod_small; exact H).
    unfold not32. change (2 ^ 32 - 1) with (Z.ones 32). symmetry.
    rewrite Z.sub_nocarry_ldiff; [reflexivity|]. apply Z.bits_inj'. intros j Hj.
    rewrite Z.ldiff_spec, Z.bits_0. rewrite <- A at 1. rewrite Z.land_spec.
    destruct (Z.testbit x j), (Z.testbit (Z.ones 32) j); reflexivity. }
  rewrite E, Z.ldiff_spec. destruct (Z.ltb_spec i 32).
  - rewrite Z.ones_spec_low by lia. reflexivity.
  - rewrite Z.ones_spec_high by lia. reflexivity.
Qed.
Lemma not32_is32 x : is32 x -> is32 (not32 x).
Proof. unfold is32, not32. lia. Qed.
Lemma is32_lor x y : is32 x -> is32 y -> is32 (Z.lor x y).
Proof.
  intros Hx Hy. apply is32_bits; [apply Z.lor_nonneg; split; [apply Hx|apply Hy]|].
  intros i Hi. rewrite Z.lor_spec, !is32_testbit by auto. reflexivity.
Qed.
Lemma is32_lxor x y : is32 x -> is32 y -> is32 (Z.lxor x y).
Proof.
  intros Hx Hy. apply is32_bits; [apply Z.lxor_nonneg; unfold is32 in *; lia|].
  intros i Hi. rewrite Z.lxor_spec, !is32_testbit by auto. reflexivity.
Qed.
Lemma is32_land x y : is32 x -> 0 <= y -> is32 (Z.land x y).
Proof.
  intros Hx Hy. apply is32_bits; [apply Z.land_nonneg; unfold is32 in *; lia|].
  intros i Hi. rewrite Z.land_spec, (is32_testbit x) by auto. reflexivity.
Qed.
Lemma is32_div x c : is32 x -> 0 <= c -> is32 (x / 2 ^ c).
Proof.
  intros Hx Hc. unfold is32 in *. assert (0 < 2 ^ c) by (apply Z.pow_pos_nonneg; lia).
  split; [apply Z.div_pos; lia|]. apply Z.le_lt_trans with x; [apply Z.div_le_upper_bound; nia|lia].
Qed.
Lemma mul_pow2_testbit x c i : 0 <= c -> 0 <= i -> Z.testbit (x * 2 ^ c) i = (c <=? i) && Z.testbit x (i - c).
Proof.
  intros. rewrite <- Z.shiftl_mul_pow2 by lia. destruct (Z.leb_spec c i).
  - rewrite Z.shiftl_spec by lia. reflexivity.
  - rewrite Z.shiftl_spec_low by lia. reflexivity.
Qed.
Lemma div_pow2_testbit x c i : 0 <= c -> 0 <= i -> Z.testbit (x / 2 ^ c) i = Z.testbit x (i + c).
Proof. intros. apply Z.div_pow2_bits; lia. Qed.
Lemma is32_zero x : is32 x -> (x = 0 <-> forall i, 0 <= i -> Z.testbit x i = false).
Proof.
  intros H. split; [intros -> i Hi; apply Z.bits_0|]. intros A. apply Z.bits_inj'. intros i Hi.
  rewrite Z.bits_0. auto.
Qed.

Lemma mem2_split a i : ok2 a -> 0 <= i -> mem2 a i = if i <? 32 then Z.testbit (lo a) i else Z.testbit (hi a) (i - 32).
Proof.
  intros [Hl Hh] Hi. unfold mem2, val2. rewrite Z.add_comm, Z.mul_comm.
  assert (E : hi a * 2 ^ 32 + lo a = Z.lor (Z.shiftl (hi a) 32) (lo a)).
  { rewrite Z.shiftl_mul_pow2 by lia. apply Z.bits_inj'. intros j Hj. rewrite Z.lor_spec, mul_pow2_testbit by lia.
    destruct (Z.leb_spec 32 j).
    - rewrite (is32_testbit (lo a)) by auto. rewrite orb_false_r. cbn [andb].
      replace j with (j - 32 + 32) at 1 by lia. rewrite <- Z.div_pow2_bits by lia.
      rewrite Z.div_add_l, Z.div_small by (unfold is32 in *; lia). rewrite Z.add_0_r. reflexivity.
    - cbn [andb orb]. rewrite <- (Z.mod_pow2_bits_low _ 32 j) by lia.
      rewrite Z.add_comm, Z.mod_add, Z.mod_small by (unfold is32 in *; lia). reflexivity. }
  rewrite E, Z.lor_spec, Z.shiftl_mul_pow2, mul_pow2_testbit by lia.
  destruct (Z.ltb_spec i 32), (Z.leb_spec 32 i); try lia; cbn [andb orb]; [reflexivity|].
  rewrite (is32_testbit (lo a)) by auto. apply orb_false_r.
Qed.
Lemma val2_word a : ok2 a -> word (val2 a).
Proof. intros [Hl Hh]. unfold val2, word, is32 in *. lia. Qed.
Lemma to_ulong2_val a : ok2 a -> to_ulong2 a = val2 a.
Proof.
  intros H. pose proof H as [Hl Hh]. apply Z.bits_inj'. intros i Hi. fold (mem2 a i). rewrite mem2_split by auto.
  unfold to_ulong2. rewrite Z.lxor_spec, mul_pow2_testbit by lia.
  destruct (Z.ltb_spec i 32), (Z.leb_spec 32 i); try lia; cbn [andb]; [apply xorb_false_r|].
  rewrite (is32_testbit (lo a)) by auto. apply xorb_false_l.
Qed.

Ltac pos32 := first [lia | dm | (unfold is32, word in *; lia)].
Ltac bx1 := rewrite ?c32_testbit, ?Z.lor_spec, ?Z.land_spec, ?Z.lxor_spec, ?mul_pow2_testbit, ?div_pow2_testbit,
   ?lt_mask_testbit, ?eq_mask_testbit, ?not32_testbit by (auto; pos32).
Ltac bx := bx1; bx1; bx1.
Ltac fin := repeat first
  [ match goal with |- context [?x <? ?y] => destruct (Z.ltb_spec x y) end
  | match goal with |- context [?x <=? ?y] => destruct (Z.leb_spec x y) end
  | match goal with |- context [?x =? ?y] => destruct (Z.eqb_spec x y) end ];
  cbn [andb orb negb xorb]; rewrite ?andb_true_r, ?andb_false_r, ?orb_false_r, ?orb_true_r, ?xorb_false_r;
  try reflexivity; try (exfalso; pos32).

(** ** one chunk *)
Section One.
Variables a b : Z.
Hypothesis Ha : is32 a.
Hypothesis Hb : is32 b.

Lemma xor1_ok : set_is1 (xor1 a b) (fun i => xorb (Z.testbit a i) (Z.testbit b i)).
Proof. split; [apply is32_lxor; auto|]. intros i Hi. apply Z.lxor_spec. Qed.
Lemma or1_ok : set_is1 (or1 a b) (fun i => Z.testbit a i || Z.testbit b i).
Proof. split; [apply is32_lor; auto|]. intros i Hi. apply Z.lor_spec. Qed.
Lemma and1_ok : set_is1 (and1 a b) (fun i => Z.testbit a i && Z.testbit b i).
Proof. split; [apply is32_land; auto; apply Hb|]. intros i Hi. apply Z.land_spec. Qed.
Lemma andnot1_ok : set_is1 (andnot1 a b) (fun i => Z.testbit a i && negb (Z.testbit b i)).
Proof.
  split; [apply is32_land; auto; apply (not32_is32 b Hb)|]. intros i Hi. unfold andnot1. bx.
  destruct (Z.ltb_spec i 32); [reflexivity|]. rewrite (is32_testbit a) by auto. reflexivity.
Qed.
Lemma shl1_ok c : 0 <= c -> set_is1 (shl1 a c) (fun i => (c <=? i) && (i <? 32) && Z.testbit a (i - c)).
Proof.
  intros Hc. unfold shl1. destruct (Z.ltb_spec c 32).
  - split; [apply c32_is32|]. intros i Hi. bx. fin.
  - split; [unfold is32; lia|]. intros i Hi. rewrite Z.bits_0. fin.
Qed.
Lemma shr1_ok c : 0 <= c -> set_is1 (shr1 a c) (fun i => Z.testbit a (i + c)).
Proof.
  intros Hc. unfold shr1. destruct (Z.ltb_spec c 32).
  - split; [apply is32_div; auto|]. intros i Hi. bx. reflexivity.
  - split; [unfold is32; lia|]. intros i Hi. rewrite Z.bits_0. rewrite is32_testbit by (auto; lia). reflexivity.
Qed.
Lemma flip1_ok j : 0 <= j < 32 -> set_is1 (flip1 a j) (fun i => xorb (i =? j) (Z.testbit a i)).
Proof.
  intros Hj. split; [apply c32_is32|]. intros i Hi. unfold flip1. bx.
  destruct (Z.ltb_spec i 32); cbn [andb]; [apply xorb_comm|]. rewrite is32_testbit by auto. fin.
Qed.
Lemma reset1_ok j : 0 <= j < 32 -> set_is1 (reset1 a j) (fun i => negb (i =? j) && Z.testbit a i).
Proof.
  intros Hj. split; [apply c32_is32|]. intros i Hi. unfold reset1. bx.
  rewrite not64_testbit by (try apply eq_mask_word; lia). bx.
  destruct (Z.ltb_spec i 32); cbn [andb]; [rewrite (proj2 (Z.ltb_lt i 64)) by lia; cbn [andb]; apply andb_comm|].
  rewrite is32_testbit by auto. fin.
Qed.
Lemma set1_ok j : 0 <= j < 32 -> set_is1 (set1 a j) (fun i => (i =? j) || Z.testbit a i).
Proof.
  intros Hj. split; [apply c32_is32|]. intros i Hi. unfold set1. bx.
  destruct (Z.ltb_spec i 32); cbn [andb]; [apply orb_comm|]. rewrite is32_testbit by auto. fin.
Qed.
Lemma set_to1_ok j v : 0 <= j < 32 -> set_is1 (set_to1 a j v) (fun i => if i =? j then v else Z.testbit a i).
Proof.
  intros Hj. unfold set_to1. destruct v.
  - destruct (set1_ok j Hj) as [A B]. split; [exact A|]. intros i Hi. rewrite B by exact Hi. fin.
  - destruct (reset1_ok j Hj) as [A B]. split; [exact A|]. intros i Hi. rewrite B by exact Hi. fin.
Qed.
Lemma fill1_ok l : 0 <= l <= 32 -> set_is1 (fill1 a l) (fun i => (i <? l) || Z.testbit a i).
Proof.
  intros Hj. split; [apply c32_is32|]. intros i Hi. unfold fill1. bx.
  destruct (Z.ltb_spec i 32); cbn [andb]; [apply orb_comm|]. rewrite is32_testbit by auto. fin.
Qed.
Lemma complement1_ok l : 0 <= l <= 32 -> set_is1 (complement1 a l) (fun i => xorb (i <? l) (Z.testbit a i)).
Proof.
  intros Hj. split; [apply c32_is32|]. intros i Hi. unfold complement1. bx.
  destruct (Z.ltb_spec i 32); cbn [andb]; [apply xorb_comm|]. rewrite is32_testbit by auto. fin.
Qed.
Lemma truncate1_ok l : 0 <= l -> set_is1 (truncate1 a l) (fun i => (i <? l) && Z.testbit a i).
Proof.
  intros Hj. unfold truncate1. destruct (Z.ltb_spec l 32).
  - split; [apply c32_is32|]. intros i Hi. bx.
    destruct (Z.ltb_spec i 32); cbn [andb]; [apply andb_comm|]. rewrite is32_testbit by auto. fin.
  - split; [exact Ha|]. intros i Hi. destruct (Z.ltb_spec i l); [reflexivity|]. rewrite is32_testbit by (auto; lia). reflexivity.
Qed.
Lemma test1_ok j : 0 <= j -> test1 a j = Z.testbit a j.
Proof. intros Hj. unfold test1. apply land_eq_mask. exact Hj. Qed.
Lemma eq1_ok : eq1 a b = true <-> forall i, 0 <= i -> Z.testbit a i = Z.testbit b i.
Proof.
  unfold eq1. rewrite Z.eqb_eq. split; [intros -> i Hi; reflexivity|]. intros H. apply Z.bits_inj'. exact H.
Qed.
Lemma none1_ok : none1 a = true <-> forall i, 0 <= i -> Z.testbit a i = false.
Proof. unfold none1. rewrite Z.eqb_eq. apply is32_zero. exact Ha. Qed.
Lemma any1_ok : any1 a = negb (none1 a).
Proof. reflexivity. Qed.
Lemma meets1_ok : meets1 a b = false <-> forall i, 0 <= i -> Z.testbit a i && Z.testbit b i = false.
Proof.
  unfold meets1. rewrite negb_false_iff, Z.eqb_eq, is32_zero by (apply is32_land; auto; apply Hb).
  split; intros H i Hi; specialize (H i Hi); rewrite Z.land_spec in *; exact H.
Qed.
Lemma contains1_ok : contains1 a b = true <-> forall i, 0 <= i -> Z.testbit b i = true -> Z.testbit a i = true.
Proof.
  unfold contains1. rewrite Z.eqb_eq, is32_zero by (apply is32_land; [apply not32_is32; auto|apply Hb]).
  split; intros H i Hi.
  - intros T. specialize (H i Hi). rewrite Z.land_spec, not32_testbit, T, andb_true_r in H by auto.
    destruct (Z.ltb_spec i 32); [apply negb_false_iff; exact H|]. rewrite is32_testbit in T by auto. discriminate.
  - rewrite Z.land_spec, not32_testbit by auto. specialize (H i Hi).
    destruct (Z.testbit b i); [rewrite H by reflexivity|]; rewrite ?andb_false_r; reflexivity.
Qed.
Lemma count1_ok : count1 a = count (Z.testbit a) 32.
Proof.
  unfold count1. rewrite bitCount_count by (apply is32_word; auto).
  apply (count_cut _ 64 32); [|lia]. intros i Hi. apply is32_testbit; auto.
Qed.
Lemma position1_ok j : 0 <= j <= 64 -> position1 a j = count (Z.testbit a) (Z.to_nat j).
Proof.
  intros Hj. unfold position1. rewrite bitCount_count.
  2: { apply land_word; [apply is32_word; auto|]. pose proof (lt_mask_word j ltac:(lia)) as W. unfold word in W. lia. }
  rewrite (count_cut _ 64 (Z.to_nat j)); [|intros i Hi; bx; fin|lia].
  apply count_ext. intros i Hi. bx. fin.
Qed.
Lemma scalar1_ok : scalar1 a b = Z.odd (count (fun i => Z.testbit a i && Z.testbit b i) 32).
Proof.
  unfold scalar1. rewrite bitCount_count by (apply land_word; [apply is32_word; auto|apply Hb]).
  rewrite (count_cut _ 64 32); [|intros i Hi; rewrite Z.land_spec, is32_testbit by auto; reflexivity|lia].
  rewrite (count_ext _ (fun i => Z.testbit a i && Z.testbit b i)) by (intros; apply Z.land_spec).
  rewrite Zmod_odd. destruct (Z.odd _); reflexivity.
Qed.
Lemma firstBit1_ok : (a = 0 /\ firstBit1 a = 64) \/
  (0 <= firstBit1 a < 32 /\ Z.testbit a (firstBit1 a) = true /\ forall i, 0 <= i < firstBit1 a -> Z.testbit a i = false).
Proof.
  unfold firstBit1. destruct (firstBit_correct a (is32_word _ Ha)) as [?|(N & R & T & L)]; [auto|right].
  split; [|auto]. destruct (Z.lt_ge_cases (firstBit a) 32); [lia|]. rewrite is32_testbit in T by (auto; lia). discriminate.
Qed.
Lemma lastBit1_ok : (a = 0 /\ lastBit1 a = 0) \/
  (0 < lastBit1 a <= 32 /\ Z.testbit a (lastBit1 a - 1) = true /\ forall i, lastBit1 a <= i -> Z.testbit a i = false).
Proof.
  unfold lastBit1. destruct (Z.eq_dec a 0) as [->|N]; [left; split; [reflexivity|vm_compute; reflexivity]|right].
  destruct (lastBit_spec a (is32_word _ Ha) N) as (R & T & L). split; [|auto].
  destruct (Z.le_gt_cases (lastBit a) 32); [lia|]. rewrite is32_testbit in T by (auto; lia). discriminate.
Qed.
End One.

(** ** two chunks *)
Lemma mk2_is l h P : is32 l -> is32 h -> (forall i, 0 <= i < 32 -> Z.testbit l i = P i) ->
  (forall i, 0 <= i -> Z.testbit h i = P (i + 32)) -> set_is2 (mk2 l h) P.
Proof.
  intros Hl Hh H1 H2. split; [split; auto|]. intros i Hi. rewrite mem2_split by (try split; auto). cbn [lo hi].
  destruct (Z.ltb_spec i 32); [apply H1; lia|]. rewrite H2 by lia. f_equal. lia.
Qed.
Lemma mem2_lo a i : ok2 a -> 0 <= i < 32 -> mem2 a i = Z.testbit (lo a) i.
Proof. intros H Hi. rewrite mem2_split by (auto; lia). rewrite (proj2 (Z.ltb_lt _ _)) by lia. reflexivity. Qed.
Lemma mem2_hi a i : ok2 a -> 32 <= i -> mem2 a i = Z.testbit (hi a) (i - 32).
Proof. intros H Hi. rewrite mem2_split by (auto; lia). rewrite (proj2 (Z.ltb_ge _ _)) by lia. reflexivity. Qed.
Lemma mem2_hi' a i : ok2 a -> 0 <= i -> mem2 a (i + 32) = Z.testbit (hi a) i.
Proof. intros H Hi. rewrite mem2_hi by (auto; lia). f_equal. lia. Qed.
Lemma mem2_64 a i : ok2 a -> 64 <= i -> mem2 a i = false.
Proof. intros H Hi. rewrite mem2_hi by (auto; lia). apply is32_testbit; [apply H|lia]. Qed.

Section Two.
Variables a b : two.
Hypothesis Ha : ok2 a.
Hypothesis Hb : ok2 b.
Let Hal : is32 (lo a) := proj1 Ha.
Let Hah : is32 (hi a) := proj2 Ha.
Let Hbl : is32 (lo b) := proj1 Hb.
Let Hbh : is32 (hi b) := proj2 Hb.

Lemma xor2_ok : set_is2 (xor2 a b) (fun i => xorb (mem2 a i) (mem2 b i)).
Proof.
  apply mk2_is; try (apply is32_lxor; auto); intros i Hi.
  - rewrite !mem2_lo by auto. apply Z.lxor_spec.
  - rewrite !mem2_hi' by auto. apply Z.lxor_spec.
Qed.
Lemma or2_ok : set_is2 (or2 a b) (fun i => mem2 a i || mem2 b i).
Proof.
  apply mk2_is; try (apply is32_lor; auto); intros i Hi.
  - rewrite !mem2_lo by auto. apply Z.lor_spec.
  - rewrite !mem2_hi' by auto. apply Z.lor_spec.
Qed.
Lemma and2_ok : set_is2 (and2 a b) (fun i => mem2 a i && mem2 b i).
Proof.
  apply mk2_is; try (apply is32_land; auto; (apply Hbl || apply Hbh)); intros i Hi.
  - rewrite !mem2_lo by auto. apply Z.land_spec.
  - rewrite !mem2_hi' by auto. apply Z.land_spec.
Qed.
Lemma andnot2_ok : set_is2 (andnot2 a b) (fun i => mem2 a i && negb (mem2 b i)).
Proof.
  apply mk2_is.
  - apply (andnot1_ok _ _ Hal Hbl).
  - apply (andnot1_ok _ _ Hah Hbh).
  - intros i Hi. rewrite !mem2_lo by auto. apply (andnot1_ok _ _ Hal Hbl). lia.
  - intros i Hi. rewrite !mem2_hi' by auto. apply (andnot1_ok _ _ Hah Hbh). lia.
Qed.
Lemma shl2_ok c : 0 <= c -> set_is2 (shl2 a c) (fun i => (c <=? i) && (i <? 64) && mem2 a (i - c)).
Proof.
  intros Hc. unfold shl2. destruct (Z.eqb_spec c 0) as [->|N].
  { split; [exact Ha|]. intros i Hi. rewrite Z.sub_0_r. rewrite (proj2 (Z.leb_le _ _)) by lia.
    destruct (Z.ltb_spec i 64); [reflexivity|]. apply mem2_64; auto. }
  destruct (Z.ltb_spec c 32) as [L|L]; [|destruct (Z.ltb_spec c 64) as [L'|L']].
  - assert (W : word (lt_mask (32 - c))) by (apply lt_mask_word; lia).
    apply mk2_is; [apply c32_is32|apply is32_lor; [apply c32_is32|apply is32_div; [apply c32_is32|lia]]| |].
    + intros i Hi. bx. destruct (Z.leb_spec c i); cbn [andb]; [rewrite mem2_lo by (auto; lia)|]; fin.
    + intros i Hi. bx. rewrite not64_testbit by (auto; lia). bx.
      destruct (Z.ltb_spec i 32).
      * destruct (Z.leb_spec c i).
        -- replace (i + 32 - c) with (i - c + 32) by lia. rewrite mem2_hi' by (auto; lia).
           rewrite (is32_testbit (lo a)) by (auto; lia). fin.
        -- replace (i + 32 - c) with (i + (32 - c)) by lia. rewrite mem2_lo by (auto; lia). fin.
      * rewrite (is32_testbit (lo a)) by (auto; lia). fin.
  - apply mk2_is; [unfold is32; lia|apply c32_is32| |].
    + intros i Hi. rewrite Z.bits_0. fin.
    + intros i Hi. bx. destruct (Z.leb_spec (c - 32) i).
      * replace (i + 32 - c) with (i - (c - 32)) by lia. rewrite (proj2 (Z.leb_le c _)) by lia.
        destruct (Z.ltb_spec i 32); [rewrite mem2_lo by (auto; lia)|]; fin.
      * fin.
  - apply mk2_is; [unfold is32; lia|unfold is32; lia| |]; intros i Hi; rewrite Z.bits_0; fin.
Qed.
Lemma shr2_ok c : 0 <= c -> set_is2 (shr2 a c) (fun i => mem2 a (i + c)).
Proof.
  intros Hc. unfold shr2. destruct (Z.eqb_spec c 0) as [->|N].
  { split; [exact Ha|]. intros i Hi. rewrite Z.add_0_r. reflexivity. }
  destruct (Z.ltb_spec c 32) as [L|L]; [|destruct (Z.ltb_spec c 64) as [L'|L']].
  - apply mk2_is; [apply is32_lor; [apply is32_div; auto|apply c32_is32]|apply is32_div; auto| |].
    + intros i Hi. bx. destruct (Z.ltb_spec (i + c) 32).
      * rewrite mem2_lo by (auto; lia). fin.
      * rewrite mem2_hi by (auto; lia). rewrite (is32_testbit (lo a)) by (auto; lia).
        replace (i - (32 - c)) with (i + c - 32) by lia. bx. fin.
    + intros i Hi. bx. rewrite mem2_hi by (auto; lia). f_equal. lia.
  - apply mk2_is; [apply is32_div; auto; lia|unfold is32; lia| |].
    + intros i Hi. bx. rewrite mem2_hi by (auto; lia). f_equal. lia.
    + intros i Hi. rewrite Z.bits_0, mem2_64 by (auto; lia). reflexivity.
  - apply mk2_is; [unfold is32; lia|unfold is32; lia| |]; intros i Hi; rewrite Z.bits_0, mem2_64 by (auto; lia); reflexivity.
Qed.
Lemma chunk2_ok (f : Z -> Z -> Z) (one : Z -> Z -> Z) (P : Z -> bool -> Z -> bool) j : 0 <= j < 64 ->
  (forall w k, one w k = c32 (f w k)) ->
  (forall w k, is32 w -> 0 <= k < 32 -> set_is1 (one w k) (fun i => P k (Z.testbit w i) i)) ->
  (forall k v i, i <> k -> P k v i = v) -> (forall k v, P (k + 32) v (k + 32) = P k v k) ->
  set_is2 (on_chunk (fun w => f w (j mod 32)) a j) (fun i => P j (mem2 a i) i).
Proof.
  intros Hj E H N S. unfold on_chunk. destruct (Z.ltb_spec j 32) as [L|L].
  - replace (j mod 32) with j by dm. rewrite <- E. destruct (H (lo a) j Hal ltac:(lia)) as [A B].
    apply mk2_is; auto.
    + intros i Hi. rewrite B, mem2_lo by (auto; lia). reflexivity.
    + intros i Hi. rewrite mem2_hi', N by (auto; lia). reflexivity.
  - replace (j mod 32) with (j - 32) by dm. rewrite <- E. destruct (H (hi a) (j - 32) Hah ltac:(lia)) as [A B].
    apply mk2_is; auto.
    + intros i Hi. rewrite mem2_lo, N by (auto; lia). reflexivity.
    + intros i Hi. rewrite B, mem2_hi' by (auto; lia). destruct (Z.eq_dec i (j - 32)) as [->|D].
      * replace (j - 32 + 32) with j by lia. rewrite <- (S (j - 32)). replace (j - 32 + 32) with j by lia. reflexivity.
      * rewrite !N by lia. reflexivity.
Qed.
Lemma flip2_ok j : 0 <= j < 64 -> set_is2 (flip2 a j) (fun i => xorb (i =? j) (mem2 a i)).
Proof.
  intros Hj. apply (chunk2_ok (fun w k => Z.lxor w (eq_mask k)) flip1 (fun k v i => xorb (i =? k) v)); auto.
  - intros w k Hw Hk. apply flip1_ok; auto.
  - intros k v i H. rewrite (proj2 (Z.eqb_neq _ _)) by lia. apply xorb_false_l.
  - intros k v. rewrite !Z.eqb_refl. reflexivity.
Qed.
Lemma reset2_ok j : 0 <= j < 64 -> set_is2 (reset2 a j) (fun i => negb (i =? j) && mem2 a i).
Proof.
  intros Hj. apply (chunk2_ok (fun w k => Z.land w (not64 (eq_mask k))) reset1 (fun k v i => negb (i =? k) && v)); auto.
  - intros w k Hw Hk. apply reset1_ok; auto.
  - intros k v i H. rewrite (proj2 (Z.eqb_neq _ _)) by lia. reflexivity.
  - intros k v. rewrite !Z.eqb_refl. reflexivity.
Qed.
Lemma set2_ok j : 0 <= j < 64 -> set_is2 (set2 a j) (fun i => (i =? j) || mem2 a i).
Proof.
  intros Hj. apply (chunk2_ok (fun w k => Z.lor w (eq_mask k)) set1 (fun k v i => (i =? k) || v)); auto.
  - intros w k Hw Hk. apply set1_ok; auto.
  - intros k v i H. rewrite (proj2 (Z.eqb_neq _ _)) by lia. reflexivity.
  - intros k v. rewrite !Z.eqb_refl. reflexivity.
Qed.
Lemma set_to2_ok j v : 0 <= j < 64 -> set_is2 (set_to2 a j v) (fun i => if i =? j then v else mem2 a i).
Proof.
  intros Hj. unfold set_to2. destruct v.
  - destruct (set2_ok j Hj) as [A B]. split; [exact A|]. intros i Hi. rewrite B by exact Hi. fin.
  - destruct (reset2_ok j Hj) as [A B]. split; [exact A|]. intros i Hi. rewrite B by exact Hi. fin.
Qed.
(** fill assigns, so it forgets what was in the high chunk beyond the limit *)
Lemma fill2_ok l : 0 <= l <= 64 -> set_is2 (fill2 a l)
  (fun i => (i <? l) || (32 <=? i) && (l <=? 32) && mem2 a i).
Proof.
  intros Hl. unfold fill2. destruct (Z.leb_spec l 32) as [L|L].
  - apply mk2_is; [apply c32_is32|auto| |].
    + intros i Hi. bx. fin.
    + intros i Hi. rewrite mem2_hi' by auto. fin.
  - apply mk2_is; [unfold is32; vm_compute; split; congruence|apply c32_is32| |].
    + intros i Hi. rewrite not32_testbit by (unfold is32; lia). rewrite Z.bits_0. fin.
    + intros i Hi. bx. fin.
Qed.
Lemma complement2_ok l : 0 <= l <= 64 -> set_is2 (complement2 a l) (fun i => xorb (i <? l) (mem2 a i)).
Proof.
  intros Hl. unfold complement2. destruct (Z.leb_spec l 32) as [L|L].
  - apply mk2_is; [apply c32_is32|auto| |].
    + intros i Hi. bx. rewrite mem2_lo by auto. rewrite (proj2 (Z.ltb_lt i 32)) by lia. apply xorb_comm.
    + intros i Hi. rewrite mem2_hi' by auto. rewrite (proj2 (Z.ltb_ge _ _)) by lia. symmetry. apply xorb_false_l.
  - apply mk2_is; [apply not32_is32; auto|apply c32_is32| |].
    + intros i Hi. bx. rewrite mem2_lo by auto. rewrite !(proj2 (Z.ltb_lt i _)) by lia. reflexivity.
    + intros i Hi. bx. rewrite mem2_hi' by auto. destruct (Z.ltb_spec i 32); cbn [andb].
      * rewrite xorb_comm. f_equal. fin.
      * rewrite (is32_testbit (hi a)) by auto. fin.
Qed.
Lemma truncate2_ok l : 0 <= l <= 64 -> set_is2 (truncate2 a l) (fun i => (i <? l) && mem2 a i).
Proof.
  intros Hl. unfold truncate2. destruct (Z.leb_spec l 32) as [L|L].
  - apply mk2_is; [apply c32_is32|unfold is32; lia| |].
    + intros i Hi. bx. rewrite mem2_lo by auto. fin.
    + intros i Hi. rewrite Z.bits_0. fin.
  - apply mk2_is; [auto|apply c32_is32| |].
    + intros i Hi. rewrite mem2_lo by auto. fin.
    + intros i Hi. bx. rewrite mem2_hi' by auto. destruct (Z.ltb_spec i 32); cbn [andb]; [fin|].
      rewrite (is32_testbit (hi a)) by auto. fin.
Qed.
Lemma test2_ok j : 0 <= j < 64 -> test2 a j = mem2 a j.
Proof.
  intros Hj. unfold test2. rewrite land_eq_mask by dm. destruct (Z.ltb_spec j 32).
  - rewrite mem2_lo by (auto; lia). f_equal. dm.
  - rewrite mem2_hi by (auto; lia). f_equal. dm.
Qed.
Lemma eq2_ok : eq2 a b = true <-> forall i, 0 <= i -> mem2 a i = mem2 b i.
Proof.
  unfold eq2. rewrite andb_true_iff, !Z.eqb_eq. split.
  - intros [E1 E2] i Hi. rewrite !mem2_split by auto. rewrite E1, E2. reflexivity.
  - intros H. split; apply Z.bits_inj'; intros i Hi.
    + destruct (Z.lt_ge_cases i 32); [|rewrite !is32_testbit by auto; reflexivity].
      rewrite <- !mem2_lo by (auto; lia). apply H. lia.
    + rewrite <- !mem2_hi' by (auto; lia). apply H. lia.
Qed.
Lemma lt2_ok : lt2 a b = (val2 a <? val2 b).
Proof.
  clear - Hal Hah Hbl Hbh. unfold lt2, val2, is32 in *. destruct (Z.eqb_spec (hi a) (hi b)) as [E|E].
  - rewrite E. destruct (Z.ltb_spec (lo a) (lo b)), (Z.ltb_spec (lo a + 2 ^ 32 * hi b) (lo b + 2 ^ 32 * hi b)); try reflexivity; lia.
  - destruct (Z.ltb_spec (hi a) (hi b)), (Z.ltb_spec (lo a + 2 ^ 32 * hi a) (lo b + 2 ^ 32 * hi b)); try reflexivity; lia.
Qed.
Lemma none2_ok : none2 a = true <-> forall i, 0 <= i -> mem2 a i = false.
Proof.
  unfold none2. rewrite andb_true_iff, !Z.eqb_eq. split.
  - intros [E1 E2] i Hi. rewrite mem2_split by auto. rewrite E1, E2, !Z.bits_0. destruct (_ <? _); reflexivity.
  - intros H. split; apply Z.bits_inj'; intros i Hi; rewrite Z.bits_0.
    + destruct (Z.lt_ge_cases i 32); [|apply is32_testbit; auto]. rewrite <- mem2_lo by (auto; lia). apply H. lia.
    + rewrite <- mem2_hi' by auto. apply H. lia.
Qed.
Lemma any2_ok : any2 a = negb (none2 a).
Proof. unfold any2, none2. symmetry. apply negb_andb. Qed.
Lemma meets2_ok : meets2 a b = false <-> forall i, 0 <= i -> mem2 a i && mem2 b i = false.
Proof.
  unfold meets2. rewrite orb_false_iff.
  change (negb (Z.land (lo a) (lo b) =? 0)) with (meets1 (lo a) (lo b)).
  change (negb (Z.land (hi a) (hi b) =? 0)) with (meets1 (hi a) (hi b)).
  rewrite !meets1_ok by auto. split.
  - intros [H1 H2] i Hi. rewrite !mem2_split by auto. destruct (Z.ltb_spec i 32); [apply H1; lia|apply H2; lia].
  - intros H. split; intros i Hi.
    + destruct (Z.lt_ge_cases i 32); [|rewrite !is32_testbit by auto; reflexivity].
      rewrite <- !mem2_lo by (auto; lia). apply H. lia.
    + rewrite <- !mem2_hi' by auto. apply H. lia.
Qed.
Lemma contains2_ok : contains2 a b = true <-> forall i, 0 <= i -> mem2 b i = true -> mem2 a i = true.
Proof.
  unfold contains2. rewrite andb_true_iff.
  change (Z.land (not32 (lo a)) (lo b) =? 0) with (contains1 (lo a) (lo b)).
  change (Z.land (not32 (hi a)) (hi b) =? 0) with (contains1 (hi a) (hi b)).
  rewrite !contains1_ok by auto. split.
  - intros [H1 H2] i Hi. rewrite !mem2_split by auto. destruct (Z.ltb_spec i 32); [apply H1; lia|apply H2; lia].
  - intros H. split; intros i Hi.
    + destruct (Z.lt_ge_cases i 32); [|rewrite !is32_testbit by auto; discriminate].
      rewrite <- !mem2_lo by (auto; lia). apply H. lia.
    + rewrite <- !mem2_hi' by auto. apply H. lia.
Qed.
Lemma count_two (P : Z -> bool) k : count P (32 + k) = count P 32 + count (fun i => P (i + 32)) k.
Proof. rewrite count_plus. f_equal. apply count_ext. intros i Hi. f_equal. lia. Qed.
Lemma count2_ok : count2 a = count (mem2 a) 64.
Proof.
  unfold count2. change (bitCount (lo a)) with (count1 (lo a)). change (bitCount (hi a)) with (count1 (hi a)).
  rewrite !count1_ok by auto. replace 64%nat with (32 + 32)%nat by lia. rewrite count_two. apply f_equal2; apply count_ext; intros i Hi.
  - symmetry. apply mem2_lo; auto; lia.
  - symmetry. apply mem2_hi'; auto; lia.
Qed.
(** position: right up to 32, or when the high chunk has nothing below j *)
Lemma position2_ok j : 0 <= j < 64 -> j <= 32 \/ (forall i, 32 <= i < j -> mem2 a i = false) ->
  position2 a j = count (mem2 a) (Z.to_nat j).
Proof.
  intros Hj C. unfold position2. replace (j / 64) with 0 by dm. change (negb (0 =? 0)) with false. cbn iota.
  change (bitCount (Z.land (lo a) (lt_mask j))) with (position1 (lo a) j). rewrite position1_ok by (auto; lia).
  destruct (Z.le_gt_cases j 32) as [L|L].
  - apply count_ext. intros i Hi. symmetry. apply mem2_lo; auto; lia.
  - destruct C as [C|C]; [lia|]. apply count_ext. intros i Hi. rewrite mem2_split by (auto; lia).
    destruct (Z.ltb_spec i 32); [reflexivity|]. rewrite is32_testbit by auto.
    specialize (C i ltac:(lia)). rewrite mem2_hi in C by (auto; lia). auto.
Qed.
Lemma scalar2_ok : scalar2 a b = Z.odd (count (fun i => mem2 a i && mem2 b i) 64).
Proof.
  unfold scalar2.
  replace 64%nat with (32 + 32)%nat by lia. rewrite count_two, Z.odd_add.
  assert (E1 : count (fun i => mem2 a i && mem2 b i) 32 = count (fun i => Z.testbit (lo a) i && Z.testbit (lo b) i) 32).
  { apply count_ext. intros i Hi. rewrite !mem2_lo by (auto; lia). reflexivity. }
  assert (E2 : count (fun i => mem2 a (i + 32) && mem2 b (i + 32)) 32 = count (fun i => Z.testbit (hi a) i && Z.testbit (hi b) i) 32).
  { apply count_ext. intros i Hi. rewrite !mem2_hi' by (auto; lia). reflexivity. }
  rewrite E1, E2, <- !scalar1_ok by auto. unfold scalar1. rewrite !Zmod_odd, Z.odd_add.
  destruct (Z.odd (bitCount (Z.land (lo a) (lo b)))), (Z.odd (bitCount (Z.land (hi a) (hi b)))); reflexivity.
Qed.
Lemma firstBit2_ok : ((forall i, 0 <= i -> mem2 a i = false) /\ firstBit2 a = 96) \/
  (0 <= firstBit2 a < 64 /\ mem2 a (firstBit2 a) = true /\ forall i, 0 <= i < firstBit2 a -> mem2 a i = false).
Proof.
  unfold firstBit2. destruct (Z.eqb_spec (lo a) 0) as [E|E].
  - destruct (firstBit1_ok (hi a) Hah) as [[Z0 F]|(R & T & L)]; unfold firstBit1 in *.
    + left. split; [|rewrite F; reflexivity]. intros i Hi. rewrite mem2_split by auto. rewrite E, Z0, !Z.bits_0. destruct (_ <? _); reflexivity.
    + right. split; [lia|]. split; [rewrite mem2_hi' by (auto; lia); exact T|].
      intros i Hi. rewrite mem2_split by (auto; lia). destruct (Z.ltb_spec i 32); [rewrite E; apply Z.bits_0|apply L; lia].
  - destruct (firstBit1_ok (lo a) Hal) as [[Z0 F]|(R & T & L)]; unfold firstBit1 in *; [contradiction|].
    right. split; [lia|]. split; [rewrite mem2_lo by (auto; lia); exact T|].
    intros i Hi. rewrite mem2_lo by (auto; lia). apply L. lia.
Qed.
Lemma lastBit2_ok : ((forall i, 0 <= i -> mem2 a i = false) /\ lastBit2 a = 0) \/
  (0 < lastBit2 a <= 64 /\ mem2 a (lastBit2 a - 1) = true /\ forall i, lastBit2 a <= i -> mem2 a i = false).
Proof.
  unfold lastBit2. destruct (Z.eqb_spec (hi a) 0) as [E|E].
  - destruct (lastBit1_ok (lo a) Hal) as [[Z0 F]|(R & T & L)]; unfold lastBit1 in *.
    + left. split; [|exact F]. intros i Hi. rewrite mem2_split by auto. rewrite E, Z0, !Z.bits_0. destruct (_ <? _); reflexivity.
    + right. split; [lia|]. split; [rewrite mem2_lo by (auto; lia); exact T|].
      intros i Hi. rewrite mem2_split by (auto; lia). destruct (Z.ltb_spec i 32); [apply L; lia|rewrite E; apply Z.bits_0].
  - destruct (lastBit1_ok (hi a) Hah) as [[Z0 F]|(R & T & L)]; unfold lastBit1 in *; [contradiction|].
    right. split; [lia|]. split.
    + replace (lastBit (hi a) + 32 - 1) with (lastBit (hi a) - 1 + 32) by lia. rewrite mem2_hi' by (auto; lia). exact T.
    + intros i Hi. rewrite mem2_hi by (auto; lia). apply L. lia.
Qed.
End Two.

Lemma of_ulong1_ok v : 0 <= v -> set_is1 (of_ulong1 v) (fun i => (i <? 32) && Z.testbit v i).
Proof. intros H. split; [apply c32_is32|]. intros i Hi. apply c32_testbit. exact Hi. Qed.
Lemma of_ulong2_ok v : word v -> ok2 (of_ulong2 v) /\ val2 (of_ulong2 v) = v.
Proof.
  intros W. split; [split; apply c32_is32|]. unfold of_ulong2, val2. cbn [lo hi].
  assert (E1 : Z.land v 4294967295 = v mod 2 ^ 32) by (change 4294967295 with (Z.ones 32); apply Z.land_ones; lia).
  assert (E2 : Z.land v 18446744069414584320 / 2 ^ 32 = v / 2 ^ 32).
  { apply Z.bits_inj'. intros i Hi. rewrite !div_pow2_testbit, Z.land_spec by lia.
    change 18446744069414584320 with (Z.ones 32 * 2 ^ 32). rewrite mul_pow2_testbit by lia.
    rewrite (proj2 (Z.leb_le _ _)) by lia. replace (i + 32 - 32) with i by lia. cbn [andb].
    destruct (Z.lt_ge_cases i 32); [rewrite Z.ones_spec_low by lia; apply andb_true_r|].
    rewrite word_testbit by (auto; lia). reflexivity. }
  rewrite E1, E2. unfold c32, word in *. rewrite Z.mod_mod by lia.
  rewrite (Z.mod_small (v / 2 ^ 32)) by (split; [apply Z.div_pos; lia|apply Z.div_lt_upper_bound; lia]).
  pose proof (Z.div_mod v (2 ^ 32) ltac:(lia)). lia.
Qed.

(** ** the iterator *)
Lemma for_bits_spec {A : Type} (body : Z -> Z -> A -> A) (I : Z -> A -> Prop) c : word c ->
  (forall m acc, 0 <= m < 64 -> Z.testbit c m = true -> I m acc -> I (m + 1) (body m (count (Z.testbit c) (Z.to_nat m)) acc)) ->
  (forall m acc, 0 <= m < 64 -> Z.testbit c m = false -> I m acc -> I (m + 1) acc) ->
  forall acc, I 0 acc -> I 64 (for_bits 64 body c 0 acc).
Proof.
  intros W Hs Hn.
  assert (Skip : forall d m acc, 0 <= m -> m + Z.of_nat d <= 64 ->
     (forall i, m <= i < m + Z.of_nat d -> Z.testbit c i = false) -> I m acc -> I (m + Z.of_nat d) acc).
  { induction d as [|d IH]; intros m acc Hm Hd F H; [rewrite Z.add_0_r; exact H|].
    replace (m + Z.of_nat (S d)) with (m + 1 + Z.of_nat d) by lia. apply IH; [lia|lia|intros; apply F; lia|].
    apply Hn; [lia|apply F; lia|exact H]. }
  assert (G : forall fuel it m acc, 0 <= m <= 64 -> 64 - m <= Z.of_nat fuel -> 0 <= it ->
     (forall i, 0 <= i -> Z.testbit it i = (m <=? i) && Z.testbit c i) -> I m acc ->
     I 64 (for_bits fuel body it (count (Z.testbit c) (Z.to_nat m)) acc)).
  { induction fuel as [|fuel IH]; intros it m acc Hm Hf H0 Hit HI.
    - cbn [for_bits]. replace 64 with m by lia. exact HI.
    - cbn [for_bits]. assert (Wi : word it).
      { apply word_bits; [exact H0|]. intros i Hi. rewrite Hit, (word_testbit c) by (auto; lia). apply andb_false_r. }
      destruct (Z.eqb_spec it 0) as [Z0|Z0].
      + replace 64 with (m + Z.of_nat (Z.to_nat (64 - m))) by lia. apply Skip; [lia|lia| |exact HI].
        intros i Hi. specialize (Hit i ltac:(lia)). rewrite Z0, Z.bits_0, (proj2 (Z.leb_le _ _)) in Hit by lia. auto.
      + destruct (firstBit_correct it Wi) as [[X _]|(_ & R & T & L)]; [contradiction|].
        set (q := firstBit it) in *.
        assert (Tq := T). rewrite Hit in Tq by lia. apply andb_true_iff in Tq as [Lq Tq]. apply Z.leb_le in Lq.
        assert (NB : forall i, m <= i < q -> Z.testbit c i = false).
        { intros i Hi. specialize (L i ltac:(lia)). rewrite Hit in L by lia. rewrite (proj2 (Z.leb_le _ _)) in L by lia. exact L. }
        assert (HQ : I q acc).
        { replace q with (m + Z.of_nat (Z.to_nat (q - m))) by lia. apply Skip; [lia|lia|intros; apply NB; lia|exact HI]. }
        assert (CQ : count (Z.testbit c) (Z.to_nat m) = count (Z.testbit c) (Z.to_nat q)).
        { replace (Z.to_nat q) with (Z.to_nat m + Z.to_nat (q - m))%nat by lia. rewrite count_plus.
          rewrite (count_false (fun i => Z.testbit c (Z.of_nat (Z.to_nat m) + i))); [lia|]. intros i Hi. apply NB. lia. }
        assert (CS : count (Z.testbit c) (Z.to_nat m) + 1 = count (Z.testbit c) (Z.to_nat (q + 1))).
        { rewrite CQ. replace (Z.to_nat (q + 1)) with (S (Z.to_nat q)) by lia. cbn [count].
          rewrite Z2Nat.id, Tq by lia. reflexivity. }
        rewrite CS, CQ. apply IH; [lia|lia| | |apply Hs; auto; lia].
        * apply Z.land_nonneg. lia.
        * intros i Hi. rewrite (land_pred it q) by (auto; unfold word in Wi; lia). rewrite Hit by lia.
          destruct (Z.eqb_spec i q); cbn [negb]; [rewrite (proj2 (Z.leb_gt (q + 1) i)) by lia; rewrite andb_false_r; reflexivity|].
          rewrite andb_true_r. destruct (Z.leb_spec m i), (Z.leb_spec (q + 1) i); try reflexivity; cbn [andb]; [apply NB; lia|lia]. }
  intros acc HI. apply (G 64%nat c 0 acc); auto; try lia; [unfold word in W; lia|].
  intros i Hi. rewrite (proj2 (Z.leb_le _ _)) by lia. reflexivity.
Qed.

(** the visited positions and counters *)
Lemma count_lt P m k : 0 <= m < Z.of_nat k -> P m = true -> count P (Z.to_nat m) < count P k.
Proof.
  intros H T. replace k with (Z.to_nat m + (1 + (k - Z.to_nat m - 1)))%nat by lia. rewrite !count_plus.
  cbn [count]. rewrite Z2Nat.id, Z.add_0_r, T by lia. cbn [count].
  pose proof (count_nonneg (fun i => P (m + (Z.of_nat 1 + i))) (k - Z.to_nat m - 1)). lia.
Qed.

Section Slicing.
Variable A : Type.
Variable N : Z.
Variable ok : A -> Prop.
Variable mem : A -> Z -> bool.
Variable test : A -> Z -> bool.
Variable set : A -> Z -> A.
Variable zero : A.
Hypothesis test_ok : forall a j, ok a -> 0 <= j < N -> test a j = mem a j.
Hypothesis set_ok : forall a j, ok a -> 0 <= j < N -> ok (set a j) /\ forall i, 0 <= i -> mem (set a j) i = (i =? j) || mem a i.
Hypothesis zero_ok : ok zero /\ forall i, 0 <= i -> mem zero i = false.
Variable c : Z.
Hypothesis HN : N <= 64.
Hypothesis Wc : word c.
Hypothesis Cc : forall i, N <= i -> Z.testbit c i = false.
Variable a : A.
Hypothesis Ha : ok a.

Lemma member_lt m : 0 <= m -> Z.testbit c m = true -> m < N.
Proof. intros H T. destruct (Z.lt_ge_cases m N); [auto|]. rewrite Cc in T by auto. discriminate. Qed.
Lemma rank_lt m : 0 <= m -> Z.testbit c m = true -> 0 <= count (Z.testbit c) (Z.to_nat m) < N.
Proof.
  intros H T. pose proof (member_lt m H T). pose proof (count_nonneg (Z.testbit c) (Z.to_nat m)).
  pose proof (count_le (Z.testbit c) (Z.to_nat m)). lia.
Qed.

Lemma slice_spec : let r := for_bits 64 (fun i count acc => if test a i then set acc count else acc) c 0 zero in
  ok r /\ (forall m, 0 <= m -> Z.testbit c m = true -> mem r (count (Z.testbit c) (Z.to_nat m)) = mem a m) /\
  (forall i, count (Z.testbit c) 64 <= i -> mem r i = false).
Proof.
  intros r.
  pose (I := fun m acc => ok acc /\
     (forall k, 0 <= k < m -> Z.testbit c k = true -> mem acc (count (Z.testbit c) (Z.to_nat k)) = mem a k) /\
     (forall i, count (Z.testbit c) (Z.to_nat m) <= i -> mem acc i = false)).
  assert (G : I 64 r).
  { apply (for_bits_spec _ I c Wc).
    - intros m acc Hm T (O & H1 & H2). pose proof (member_lt m ltac:(lia) T) as Ml. pose proof (rank_lt m ltac:(lia) T) as Rl.
      set (k := count (Z.testbit c) (Z.to_nat m)) in *.
      assert (KS : count (Z.testbit c) (Z.to_nat (m + 1)) = k + 1).
      { replace (Z.to_nat (m + 1)) with (S (Z.to_nat m)) by lia. cbn [count]. rewrite Z2Nat.id, T by lia. reflexivity. }
      rewrite test_ok by (auto; lia). unfold I. rewrite KS.
      assert (Lt : forall j, 0 <= j < m -> Z.testbit c j = true -> count (Z.testbit c) (Z.to_nat j) < k).
      { intros j Hj Tj. apply count_lt; [lia|exact Tj]. }
      destruct (mem a m) eqn:Em.
      + destruct (set_ok acc k O ltac:(lia)) as [O' M']. split; [exact O'|]. split.
        * intros j Hj Tj. rewrite M' by apply count_nonneg. destruct (Z.eq_dec j m) as [->|Nj].
          -- fold k. rewrite Z.eqb_refl, Em. reflexivity.
          -- specialize (Lt j ltac:(lia) Tj). rewrite (proj2 (Z.eqb_neq _ _)) by lia. apply H1; [lia|auto].
        * intros i Hi. rewrite M' by lia. rewrite (proj2 (Z.eqb_neq _ _)) by lia. apply H2. lia.
      + split; [exact O|]. split; [|intros i Hi; apply H2; lia].
        intros j Hj Tj. destruct (Z.eq_dec j m) as [->|Nj]; [fold k; rewrite Em; apply H2; lia|apply H1; [lia|auto]].
    - intros m acc Hm T (O & H1 & H2). split; [exact O|]. split.
      + intros j Hj Tj. destruct (Z.eq_dec j m) as [->|Nj]; [congruence|apply H1; [lia|auto]].
      + intros i Hi. apply H2. replace (Z.to_nat (m + 1)) with (S (Z.to_nat m)) in Hi by lia. cbn [count] in Hi.
        rewrite Z2Nat.id, T in Hi by lia. lia.
    - destruct zero_ok as [O Z0]. split; [exact O|]. split; [intros; lia|]. intros i Hi. apply Z0. cbn in Hi. exact Hi. }
  destruct G as (O & H1 & H2). split; [exact O|]. split; [|exact H2].
  intros m Hm T. apply H1; [|exact T]. pose proof (member_lt m Hm T). lia.
Qed.

Lemma unslice_spec : let r := for_bits 64 (fun i count acc => if test a count then set acc i else acc) c 0 zero in
  ok r /\ forall i, 0 <= i -> mem r i = Z.testbit c i && mem a (count (Z.testbit c) (Z.to_nat i)).
Proof.
  intros r.
  pose (I := fun m acc => ok acc /\ forall i, 0 <= i -> mem acc i = (i <? m) && (Z.testbit c i && mem a (count (Z.testbit c) (Z.to_nat i)))).
  assert (G : I 64 r).
  { apply (for_bits_spec _ I c Wc).
    - intros m acc Hm T (O & H1). pose proof (member_lt m ltac:(lia) T) as Ml. pose proof (rank_lt m ltac:(lia) T) as Rl.
      rewrite test_ok by (auto; lia). unfold I. destruct (mem a (count (Z.testbit c) (Z.to_nat m))) eqn:Em.
      + destruct (set_ok acc m O ltac:(lia)) as [O' M']. split; [exact O'|]. intros i Hi. rewrite M', H1 by lia.
        destruct (Z.eqb_spec i m) as [->|Nm].
        * cbn [orb]; rewrite (proj2 (Z.ltb_lt m (m + 1))), T, Em by lia. reflexivity.
        * cbn [orb]. f_equal. destruct (Z.ltb_spec i m), (Z.ltb_spec i (m + 1)); try reflexivity; lia.
      + split; [exact O|]. intros i Hi. rewrite H1 by lia. destruct (Z.eqb_spec i m) as [->|Nm].
        * rewrite Em, andb_false_r, !andb_false_r. reflexivity.
        * f_equal. destruct (Z.ltb_spec i m), (Z.ltb_spec i (m + 1)); try reflexivity; lia.
    - intros m acc Hm T (O & H1). split; [exact O|]. intros i Hi. rewrite H1 by lia. destruct (Z.eqb_spec i m) as [->|Nm].
      + rewrite T. cbn [andb]. rewrite !andb_false_r. reflexivity.
      + f_equal. destruct (Z.ltb_spec i m), (Z.ltb_spec i (m + 1)); try reflexivity; lia.
    - destruct zero_ok as [O Z0]. split; [exact O|]. intros i Hi. rewrite Z0 by exact Hi.
      rewrite (proj2 (Z.ltb_ge _ _)) by lia. reflexivity. }
  destruct G as (O & H1). split; [exact O|]. intros i Hi. rewrite H1 by exact Hi.
  destruct (Z.ltb_spec i 64); [reflexivity|]. rewrite Cc by lia. reflexivity.
Qed.
End Slicing.

Theorem slice1_ok a c : is32 a -> is32 c -> is32 (slice1 a c) /\
  (forall m, 0 <= m -> Z.testbit c m = true -> Z.testbit (slice1 a c) (count (Z.testbit c) (Z.to_nat m)) = Z.testbit a m) /\
  (forall i, count (Z.testbit c) 64 <= i -> Z.testbit (slice1 a c) i = false).
Proof.
  intros Ha Hc. apply (slice_spec Z 32 is32 Z.testbit test1 set1 0); auto; try lia.
  - intros x j Hx Hj. apply test1_ok; lia.
  - intros x j Hx Hj. apply set1_ok; auto.
  - split; [unfold is32; lia|intros; apply Z.bits_0].
  - apply is32_word; auto.
  - intros i Hi. apply is32_testbit; auto.
Qed.
Theorem unslice1_ok a c : is32 a -> is32 c ->
  set_is1 (unslice1 a c) (fun i => Z.testbit c i && Z.testbit a (count (Z.testbit c) (Z.to_nat i))).
Proof.
  intros Ha Hc. apply (unslice_spec Z 32 is32 Z.testbit test1 set1 0); auto; try lia.
  - intros x j Hx Hj. apply test1_ok; lia.
  - intros x j Hx Hj. apply set1_ok; auto.
  - split; [unfold is32; lia|intros; apply Z.bits_0].
  - apply is32_word; auto.
  - intros i Hi. apply is32_testbit; auto.
Qed.
Lemma zero2_ok : ok2 (mk2 0 0) /\ forall i, 0 <= i -> mem2 (mk2 0 0) i = false.
Proof. split; [split; unfold is32; cbn; lia|]. intros i Hi. apply Z.bits_0. Qed.
Theorem slice2_ok a c : ok2 a -> ok2 c -> ok2 (slice2 a c) /\
  (forall m, 0 <= m -> mem2 c m = true -> mem2 (slice2 a c) (count (mem2 c) (Z.to_nat m)) = mem2 a m) /\
  (forall i, count (mem2 c) 64 <= i -> mem2 (slice2 a c) i = false).
Proof.
  intros Ha Hc. unfold slice2. rewrite to_ulong2_val by auto.
  apply (slice_spec two 64 ok2 mem2 test2 set2 (mk2 0 0)); auto; try lia.
  - intros x j Hx Hj. apply test2_ok; auto.
  - intros x j Hx Hj. apply set2_ok; auto.
  - apply zero2_ok.
  - apply val2_word; auto.
  - intros i Hi. apply (mem2_64 c); auto.
Qed.
Theorem unslice2_ok a c : ok2 a -> ok2 c ->
  set_is2 (unslice2 a c) (fun i => mem2 c i && mem2 a (count (mem2 c) (Z.to_nat i))).
Proof.
  intros Ha Hc. unfold unslice2. rewrite to_ulong2_val by auto.
  apply (unslice_spec two 64 ok2 mem2 test2 set2 (mk2 0 0)); auto; try lia.
  - intros x j Hx Hj. apply test2_ok; auto.
  - intros x j Hx Hj. apply set2_ok; auto.
  - apply zero2_ok.
  - apply val2_word; auto.
  - intros i Hi. apply (mem2_64 c); auto.
Qed.
(** the comment at unslice: slice followed by unslice is intersection *)
Theorem slice_unslice1 a c : is32 a -> is32 c -> unslice1 (slice1 a c) c = and1 a c.
Proof.
  intros Ha Hc. destruct (slice1_ok a c Ha Hc) as (O & H1 & _). destruct (unslice1_ok (slice1 a c) c O Hc) as [_ H].
  apply Z.bits_inj'. intros i Hi. rewrite H by exact Hi. unfold and1. rewrite Z.land_spec.
  destruct (Z.testbit c i) eqn:T; [|rewrite andb_false_r; reflexivity]. rewrite H1 by auto. rewrite andb_true_r. reflexivity.
Qed.
Lemma eq2_eq x y : eq2 x y = true -> x = y.
Proof.
  unfold eq2. destruct x as [l1 h1], y as [l2 h2]. cbn [lo hi]. rewrite andb_true_iff, !Z.eqb_eq. intros [-> ->]. reflexivity.
Qed.
Theorem slice_unslice2 a c : ok2 a -> ok2 c -> unslice2 (slice2 a c) c = and2 a c.
Proof.
  intros Ha Hc. destruct (slice2_ok a c Ha Hc) as (O & H1 & _). destruct (unslice2_ok (slice2 a c) c O Hc) as [O' H].
  destruct (and2_ok a c Ha Hc) as [O2 M2].
  apply eq2_eq, eq2_ok; [exact O'|exact O2|]. intros i Hi. rewrite H, M2 by exact Hi.
  destruct (mem2 c i) eqn:T; [|rewrite andb_false_r; reflexivity]. rewrite H1 by auto. rewrite andb_true_r. reflexivity.
Qed.

(** ** constructor from parities *)
Section Par.
Variable A : Type.
Variable N : Z.
Variable ok : A -> Prop.
Variable mem : A -> Z -> bool.
Variable put : A -> Z -> bool -> A.
Hypothesis put_ok : forall a j v, ok a -> 0 <= j < N ->
  ok (put a j v) /\ forall i, 0 <= i -> mem (put a j v) i = if i =? j then v else mem a i.
Lemma parities_spec v : forall acc i, ok acc -> 0 <= i -> i + Z.of_nat (length v) <= N ->
  ok (parities put acc i v) /\ forall k, 0 <= k -> mem (parities put acc i v) k =
    if (i <=? k) && (k <? i + Z.of_nat (length v)) then Z.odd (nth (Z.to_nat (k - i)) v 0) else mem acc k.
Proof.
  induction v as [|x v IH]; intros acc i O Hi HN; cbn [parities].
  - split; [exact O|]. intros k Hk. cbn [length]. rewrite Z.add_0_r.
    destruct (Z.leb_spec i k), (Z.ltb_spec k i); try reflexivity; lia.
  - cbn [length] in *. destruct (put_ok acc i (negb (Z.rem x 2 =? 0)) O ltac:(lia)) as [O' M'].
    destruct (IH _ (i + 1) O' ltac:(lia) ltac:(lia)) as [O2 M2]. split; [exact O2|].
    intros k Hk. rewrite M2, M' by exact Hk.
    assert (P : negb (Z.rem x 2 =? 0) = Z.odd x).
    { rewrite <- Z.bit0_odd. destruct (Z.odd x) eqn:Ox; rewrite Z.bit0_odd, Ox.
      - apply negb_true_iff, Z.eqb_neq. intros R. apply Z.rem_divide in R; [|lia]. destruct R as [q ->].
        rewrite Z.odd_mul, andb_false_r in Ox. discriminate.
      - apply negb_false_iff, Z.eqb_eq, Z.rem_divide; [lia|]. exists (Z.div2 x). pose proof (Z.div2_odd x). rewrite Ox in *. cbn [Z.b2z] in *. lia. }
    rewrite P. destruct (Z.eqb_spec k i) as [->|Nk].
    + rewrite (proj2 (Z.leb_gt (i + 1) i)) by lia. cbn [andb].
      rewrite (proj2 (Z.leb_le i i)), (proj2 (Z.ltb_lt _ _)) by lia.
      rewrite Z.sub_diag. reflexivity.
    + destruct (Z.leb_spec (i + 1) k), (Z.leb_spec i k); try lia; cbn [andb]; [|reflexivity].
      replace (i + 1 + Z.of_nat (length v)) with (i + Z.of_nat (S (length v))) by lia.
      destruct (Z.ltb_spec k (i + Z.of_nat (S (length v)))); [|reflexivity].
      replace (Z.to_nat (k - i)) with (S (Z.to_nat (k - (i + 1)))) by lia. reflexivity.
Qed.
End Par.
Theorem of_vector1_ok v : Z.of_nat (length v) <= 32 ->
  set_is1 (of_vector1 v) (fun i => (i <? Z.of_nat (length v)) && Z.odd (nth (Z.to_nat i) v 0)).
Proof.
  intros H. destruct (parities_spec Z 32 is32 Z.testbit set_to1) with (v := v) (acc := 0) (i := 0) as [O M]; try lia.
  - intros a j x Ha Hj. apply set_to1_ok; auto.
  - unfold is32; lia.
  - split; [exact O|]. intros i Hi. unfold of_vector1. rewrite M by exact Hi. rewrite Z.sub_0_r, Z.add_0_l, Z.bits_0.
    rewrite (proj2 (Z.leb_le _ _)) by lia. cbn [andb]. destruct (_ <? _); reflexivity.
Qed.
Theorem of_vector2_ok v : Z.of_nat (length v) <= 64 ->
  set_is2 (of_vector2 v) (fun i => (i <? Z.of_nat (length v)) && Z.odd (nth (Z.to_nat i) v 0)).
Proof.
  intros H. destruct (parities_spec two 64 ok2 mem2 set_to2) with (v := v) (acc := mk2 0 0) (i := 0) as [O M]; try lia.
  - intros a j x Ha Hj. apply set_to2_ok; auto.
  - apply zero2_ok.
  - split; [exact O|]. intros i Hi. unfold of_vector2. rewrite M by exact Hi. rewrite Z.sub_0_r, Z.add_0_l.
    rewrite (proj2 zero2_ok) by exact Hi. rewrite (proj2 (Z.leb_le _ _)) by lia. cbn [andb]. destruct (_ <? _); reflexivity.
Qed.

(** ** n_th_bit *)
Lemma clear_low_zero k : clear_low k 0 = 0.
Proof. induction k; [reflexivity|]. cbn [clear_low]. rewrite Z.land_0_l. exact IHk. Qed.
Lemma clear_low_exhaust k : forall f, word f -> count (Z.testbit f) 64 <= Z.of_nat k -> clear_low k f = 0.
Proof.
  induction k as [|k IH]; intros f W C; cbn [clear_low].
  - apply word_zero; [exact W|]. intros i Hi. destruct (Z.testbit f i) eqn:T; [|reflexivity].
    pose proof (count_lt (Z.testbit f) i 64 ltac:(lia) T). pose proof (count_nonneg (Z.testbit f) (Z.to_nat i)). lia.
  - destruct (firstBit_correct f W) as [[-> _]|(N & R & T & L)]; [apply clear_low_zero|].
    apply IH; [apply land_word; auto; unfold word in W; lia|].
    assert (E : count (Z.testbit (Z.land f (f - 1))) 64 = count (Z.testbit f) 64 - 1).
    { rewrite (count_ext _ (fun i => Z.testbit f i && negb (i =? firstBit f)))
        by (intros i Hi; apply land_pred; auto; unfold word in W; lia).
      rewrite count_one_less by (auto; lia). rewrite (proj2 (Z.ltb_lt _ _)) by lia. reflexivity. }
    lia.
Qed.
Lemma n_th_word f n : word f -> 0 <= n ->
  (n < count (Z.testbit f) 64 -> 0 <= firstBit (clear_low (Z.to_nat n) f) < 64 /\
     Z.testbit f (firstBit (clear_low (Z.to_nat n) f)) = true /\
     count (Z.testbit f) (Z.to_nat (firstBit (clear_low (Z.to_nat n) f))) = n) /\
  (count (Z.testbit f) 64 <= n -> firstBit (clear_low (Z.to_nat n) f) = 64).
Proof.
  intros W Hn. split; intros H.
  - destruct (clear_low_spec (Z.to_nat n) f W) as (q & E & R & T & C); [lia|]. rewrite E. rewrite Z2Nat.id in C by lia. auto.
  - rewrite clear_low_exhaust; [vm_compute; reflexivity|exact W|]. rewrite Z2Nat.id by exact Hn. exact H.
Qed.
Theorem n_th_bit1_ok a n : is32 a -> 0 <= n < count (Z.testbit a) 32 ->
  0 <= n_th_bit1 a n < 32 /\ Z.testbit a (n_th_bit1 a n) = true /\ count (Z.testbit a) (Z.to_nat (n_th_bit1 a n)) = n.
Proof.
  intros Ha Hn. destruct (n_th_word a n (is32_word _ Ha) (proj1 Hn)) as [H _].
  rewrite (count_cut _ 64 32) in H by (try lia; intros i Hi; apply is32_testbit; auto).
  destruct H as (R & T & C); [lia|]. unfold n_th_bit1. split; [|auto].
  destruct (Z.lt_ge_cases (firstBit (clear_low (Z.to_nat n) a)) 32); [lia|]. rewrite is32_testbit in T by (auto; lia). discriminate.
Qed.
Theorem n_th_bit2_ok a n : ok2 a -> 0 <= n < count (mem2 a) 64 ->
  0 <= n_th_bit2 a n < 64 /\ mem2 a (n_th_bit2 a n) = true /\ count (mem2 a) (Z.to_nat (n_th_bit2 a n)) = n.
Proof.
  intros Ha Hn. unfold n_th_bit2. rewrite to_ulong2_val by auto.
  apply (n_th_word (val2 a) n (val2_word _ Ha) (proj1 Hn)). apply Hn.
Qed.
