(** Bit queries of big integers: index_of_set_bit and bit_length. *)

From Coq Require Import ZArith List Bool Lia.
From Verif Require Import BigIntModel BigIntSpec BigIntBase BigIntAdd BigIntMul BigIntDiv BigIntBits.
Import ListNotations.
Open Scope Z_scope.

Lemma count_S v k : count_bits v (S k) = count_bits v k + (if Z.testbit v (Z.of_nat k) then 1 else 0).
Proof. reflexivity. Qed.
Lemma count_ext v w k : (forall j, 0 <= j < Z.of_nat k -> Z.testbit v j = Z.testbit w j) ->
  count_bits v k = count_bits w k.
Proof.
  induction k as [|k IH]; intros H; [reflexivity|].
  rewrite !count_S, IH, H by (lia || (intros; apply H; lia)). reflexivity.
Qed.
Lemma count_mono v j k : (j <= k)%nat -> count_bits v j <= count_bits v k.
Proof.
  induction 1 as [|k _ IH]; [lia|]. rewrite count_S. destruct (Z.testbit _ _); lia.
Qed.
Lemma count_0 k : count_bits 0 k = 0.
Proof. induction k as [|k IH]; [reflexivity|]. rewrite count_S, IH, Z.bits_0. reflexivity. Qed.
Lemma count_m1 k : count_bits (-1) k = Z.of_nat k.
Proof. induction k as [|k IH]; [reflexivity|]. rewrite count_S, IH, Z.bits_m1 by lia. lia. Qed.
Lemma count_split v x u k : digit x -> v = x + B * u ->
  count_bits v (32 + k) = count_bits x 32 + count_bits u k.
Proof.
  intros Hx ->. induction k as [|k IH].
  - rewrite Nat.add_0_r. change (count_bits u 0) with 0. rewrite Z.add_0_r. apply count_ext.
    intros j Hj. apply bit_low; [exact Hx|lia].
  - rewrite Nat.add_succ_r, (count_S _ (32 + k)), (count_S u k), IH. rewrite bit_high by (exact Hx || lia).
    replace (Z.of_nat (32 + k) - 32) with (Z.of_nat k) by lia. symmetry. apply Z.add_assoc.
Qed.

(** ** Population count and lowest bit of one word *)
Lemma testbit_2 a n : 0 <= n -> Z.testbit (2 * a) (n + 1) = Z.testbit a n.
Proof. intros. rewrite Z.add_1_r. apply Z.testbit_even_succ. assumption. Qed.
Lemma testbit_21 a n : 0 <= n -> Z.testbit (2 * a + 1) (n + 1) = Z.testbit a n.
Proof. intros. rewrite Z.add_1_r. apply Z.testbit_odd_succ. assumption. Qed.
Lemma bit_cases n : 0 <= n -> n = 0 \/ exists m, 0 <= m /\ n = m + 1.
Proof. intros. destruct (Z.eq_dec n 0); [auto|]. right. exists (n - 1). lia. Qed.

Lemma count_double x b k : count_bits (2 * x + Z.b2z b) (S k) = Z.b2z b + count_bits x k.
Proof.
  induction k as [|k IH].
  - rewrite count_S. change (Z.of_nat 0) with 0. rewrite (Z.add_comm (2 * x)), Z.add_b2z_double_bit0. destruct b; reflexivity.
  - rewrite count_S, IH, count_S.
    replace (Z.testbit (2 * x + Z.b2z b) (Z.of_nat (S k))) with (Z.testbit x (Z.of_nat k)); [ring|].
    replace (Z.of_nat (S k)) with (Z.of_nat k + 1) by lia.
    destruct b; cbn [Z.b2z]; [rewrite testbit_21 by lia|rewrite Z.add_0_r, testbit_2 by lia]; reflexivity.
Qed.

Lemma popcount_count p : forall k, Zpos p < 2 ^ Z.of_nat k -> popcount_pos p = count_bits (Zpos p) k.
Proof.
  induction p as [p IH|p IH|]; intros k H; (destruct k as [|k]; [cbn in H; lia|]);
    rewrite Nat2Z.inj_succ, Z.pow_succ_r in H by lia; cbn [popcount_pos].
  - rewrite (IH k) by lia. replace (Zpos p~1) with (2 * Zpos p + Z.b2z true) by reflexivity.
    rewrite count_double. reflexivity.
  - rewrite (IH k) by lia. replace (Zpos p~0) with (2 * Zpos p + Z.b2z false) by reflexivity.
    rewrite count_double. reflexivity.
  - replace 1 with (2 * 0 + Z.b2z true) at 2 by reflexivity. rewrite count_double, count_0. reflexivity.
Qed.
Lemma popcount_digit x : digit x -> popcount x = count_bits x 32.
Proof.
  intros H. destruct x as [|p|p]; [symmetry; apply count_0| |destruct H; lia].
  apply popcount_count. apply H.
Qed.

Lemma ctz_pos_bits p : 0 <= ctz_pos p /\ Z.testbit (Zpos p) (ctz_pos p) = true /\
  (forall j, 0 <= j < ctz_pos p -> Z.testbit (Zpos p) j = false) /\
  (forall j, 0 <= j -> Z.testbit (Z.land (Zpos p) (Zpos p - 1)) j = Z.testbit (Zpos p) j && negb (j =? ctz_pos p)) /\
  popcount (Z.land (Zpos p) (Zpos p - 1)) = popcount_pos p - 1.
Proof.
  assert (LD : forall a b i j, Z.land (2 * a + Z.b2z i) (2 * b + Z.b2z j) = 2 * Z.land a b + Z.b2z (i && j)).
  { intros a b i j. apply Z.bits_inj'. intros n Hn. rewrite Z.land_spec.
    destruct (bit_cases n Hn) as [->|(m & Hm & ->)].
    - rewrite !(Z.add_comm (2 * _)), !Z.add_b2z_double_bit0. reflexivity.
    - assert (T : forall c k, Z.testbit (2 * c + Z.b2z k) (m + 1) = Z.testbit c m).
      { intros c k. destruct k; cbn [Z.b2z]; [apply testbit_21|rewrite Z.add_0_r; apply testbit_2]; exact Hm. }
      rewrite !T, Z.land_spec. reflexivity. }
  induction p as [p IH|p IH|]; cbn [ctz_pos popcount_pos].
  - split; [lia|]. split; [reflexivity|]. split; [intros; lia|].
    assert (E : Z.land (Zpos p~1) (Zpos p~1 - 1) = 2 * Zpos p).
    { replace (Zpos p~1) with (2 * Zpos p + Z.b2z true) by reflexivity.
      replace (2 * Zpos p + Z.b2z true - 1) with (2 * Zpos p + Z.b2z false) by (cbn [Z.b2z]; ring).
      rewrite LD, Z.land_diag. cbn [andb Z.b2z]. ring. }
    rewrite E. split.
    + intros j Hj. destruct (bit_cases j Hj) as [->|(m & Hm & ->)]; [reflexivity|].
      rewrite testbit_2 by lia. replace (Zpos p~1) with (2 * Zpos p + 1) by reflexivity. rewrite testbit_21 by lia.
      destruct (Z.eqb_spec (m + 1) 0); [lia|]. rewrite andb_true_r. reflexivity.
    + replace (2 * Zpos p) with (Zpos p~0) by reflexivity. cbn [popcount popcount_pos]. ring.
  - destruct IH as (I1 & I2 & I3 & I4 & I5). split; [lia|].
    replace (1 + ctz_pos p) with (ctz_pos p + 1) by ring.
    assert (E : Z.land (Zpos p~0) (Zpos p~0 - 1) = 2 * Z.land (Zpos p) (Zpos p - 1)).
    { replace (Zpos p~0) with (2 * Zpos p + Z.b2z false) by reflexivity.
      replace (2 * Zpos p + Z.b2z false - 1) with (2 * (Zpos p - 1) + Z.b2z true) by (cbn [Z.b2z]; ring).
      rewrite LD. cbn [andb Z.b2z]. ring. }
    replace (Z.testbit (Zpos p~0)) with (Z.testbit (2 * Zpos p)) by reflexivity.
    split; [rewrite testbit_2 by lia; exact I2|]. split.
    { intros j Hj. destruct (bit_cases j) as [->|(m & Hm & ->)]; [lia|reflexivity|]. rewrite testbit_2 by lia. apply I3. lia. }
    rewrite E. split.
    + intros j Hj. destruct (bit_cases j Hj) as [->|(m & Hm & ->)].
      * rewrite Z.testbit_even_0, Z.testbit_even_0. reflexivity.
      * rewrite !testbit_2, I4 by lia. f_equal. f_equal.
        destruct (Z.eqb_spec m (ctz_pos p)), (Z.eqb_spec (m + 1) (ctz_pos p + 1)); lia || reflexivity.
    + rewrite <- I5. destruct (Z.land (Zpos p) (Zpos p - 1)) as [|q|q]; reflexivity.
  - split; [lia|]. split; [reflexivity|]. split; [intros; lia|]. split; [|reflexivity].
    intros j Hj. change (Z.land 1 (1 - 1)) with 0. rewrite Z.bits_0.
    destruct (bit_cases j Hj) as [->|(m & Hm & ->)]; [reflexivity|].
    replace 1 with (2 * 0 + 1) at 1 by reflexivity. rewrite testbit_21, Z.bits_0 by lia. reflexivity.
Qed.

Lemma count_remove x y c k : 0 <= c -> Z.testbit x c = true ->
  (forall j, 0 <= j -> Z.testbit y j = Z.testbit x j && negb (j =? c)) ->
  count_bits x k = count_bits y k + (if c <? Z.of_nat k then 1 else 0).
Proof.
  intros Hc Tc H. induction k as [|k IH].
  - cbn [count_bits Z.of_nat]. destruct (Z.ltb_spec c 0); lia.
  - rewrite !count_S, IH, H by lia.
    destruct (Z.eqb_spec (Z.of_nat k) c) as [E|E].
    + rewrite E, Tc. cbn [andb negb]. destruct (Z.ltb_spec c c); [lia|].
      destruct (Z.ltb_spec c (Z.of_nat (S k))); lia.
    + cbn [negb]. rewrite andb_true_r.
      destruct (Z.ltb_spec c (Z.of_nat k)); destruct (Z.ltb_spec c (Z.of_nat (S k))); lia.
Qed.

Lemma nth_bit n : forall x, 0 <= x -> Z.of_nat n < popcount x ->
  let p := ctz (clear_low n x) in
  0 <= p /\ Z.testbit x p = true /\ count_bits x (Z.to_nat p) = Z.of_nat n.
Proof.
  induction n as [|n IH]; intros x Hx H; cbv zeta; (destruct x as [|q|q]; [cbn in H; lia| |lia]).
  - cbn [clear_low ctz]. destruct (ctz_pos_bits q) as (I1 & I2 & I3 & _ & _).
    split; [exact I1|]. split; [exact I2|].
    rewrite (count_ext _ 0), count_0; [reflexivity|]. intros j Hj. rewrite Z.bits_0. apply I3. lia.
  - cbn [clear_low]. destruct (ctz_pos_bits q) as (I1 & I2 & I3 & I4 & I5).
    set (y := Z.land (Zpos q) (Zpos q - 1)) in *.
    assert (Py : 0 <= y) by (apply Z.land_nonneg; left; lia).
    cbn [popcount] in H. destruct (IH y Py ltac:(lia)) as (P1 & P2 & P3).
    set (p := ctz (clear_low n y)) in *. clearbody p y.
    rewrite I4 in P2 by exact P1. apply andb_true_iff in P2 as [P2 P4].
    split; [exact P1|]. split; [exact P2|].
    rewrite (count_remove (Zpos q) y (ctz_pos q)) by assumption. rewrite P3.
    destruct (Z.ltb_spec (ctz_pos q) (Z.of_nat (Z.to_nat p))) as [L|L]; [lia|].
    destruct (Z.eqb_spec p (ctz_pos q)); [discriminate|].
    rewrite I3 in P2 by lia. discriminate.
Qed.

Lemma index_loop_spec d : forall i n (neg : bool), Forall digit d -> 0 <= n ->
  let v := uval d + Bp (length d) * (if neg then -1 else 0) in
  (index_loop d i n neg = -1 /\ neg = false /\ forall k, count_bits v k <= n) \/
  (exists p, 0 <= p /\ index_loop d i n neg = 32 * i + p /\ Z.testbit v p = true /\ count_bits v (Z.to_nat p) = n).
Proof.
  induction d as [|x d IH]; intros i n neg F Hn; cbv zeta.
  - cbn [index_loop uval length]. rewrite Bp_0. destruct neg.
    + right. exists n. replace (0 + 1 * -1) with (-1) by ring. rewrite Z.bits_m1, count_m1 by lia. lia.
    + left. replace (0 + 1 * 0) with 0 by ring. split; [reflexivity|]. split; [reflexivity|].
      intros k. rewrite count_0. exact Hn.
  - inversion F as [|? ? Hx Fd]; subst. cbn [index_loop length]. rewrite uval_cons, Bp_S.
    replace (x + B * uval d + B * Bp (length d) * (if neg then -1 else 0)) with
      (x + B * (uval d + Bp (length d) * (if neg then -1 else 0))) by ring.
    set (u := uval d + Bp (length d) * (if neg then -1 else 0)) in *.
    rewrite (popcount_digit x Hx). pose proof (popcount_digit x Hx) as PC.
    destruct (Z.ltb_spec n (count_bits x 32)) as [L|L].
    + right. rewrite <- PC in L. destruct (nth_bit (Z.to_nat n) x) as (P1 & P2 & P3); [apply Hx|lia|].
      set (p := ctz (clear_low (Z.to_nat n) x)) in *. clearbody p. exists p.
      assert (p < 32).
      { apply Z.nle_gt. intros G. destruct (Z.eq_dec x 0) as [->|Nx]; [rewrite Z.bits_0 in P2; discriminate|].
        rewrite Z.bits_above_log2 in P2; [discriminate|apply Hx|].
        apply Z.lt_le_trans with 32; [|exact G]. apply Z.log2_lt_pow2; [destruct Hx; lia|apply Hx]. }
      split; [exact P1|]. split; [reflexivity|]. split; [rewrite bit_low by (exact Hx || lia); exact P2|].
      rewrite (count_ext _ x); [lia|]. intros j Hj. apply bit_low; [exact Hx|lia].
    + destruct (IH (i + 1) (n - count_bits x 32) neg Fd ltac:(lia)) as [(E & -> & C)|(p & P1 & E & P2 & P3)].
      * left. split; [exact E|]. split; [reflexivity|]. intros k. fold u in C.
        apply Z.le_trans with (count_bits (x + B * u) (32 + k)); [apply count_mono; lia|].
        rewrite (count_split _ x u k Hx eq_refl). specialize (C k). lia.
      * right. fold u in P2, P3. exists (32 + p). split; [lia|]. split; [rewrite E; ring|].
        split; [rewrite bit_high by (exact Hx || lia); replace (32 + p - 32) with p by lia; exact P2|].
        replace (Z.to_nat (32 + p)) with (32 + Z.to_nat p)%nat by lia.
        rewrite (count_split _ x u _ Hx eq_refl), P3. lia.
Qed.

Theorem index_of_set_bit_correct d n : normal d -> 0 <= n ->
  (index_of_set_bit d n = -1 /\ 0 <= sval d /\ forall k, count_bits (sval d) k <= n) \/
  (0 <= index_of_set_bit d n /\ Z.testbit (sval d) (index_of_set_bit d n) = true /\
   count_bits (sval d) (Z.to_nat (index_of_set_bit d n)) = n).
Proof.
  intros Nd Hn. pose proof (normal_wf _ Nd) as W. unfold index_of_set_bit.
  pose proof (index_loop_spec d 0 n (is_negative d) (proj2 W) Hn) as H. cbv zeta in H.
  fold (sg d) in H. rewrite <- sval_sg in H.
  destruct H as [(E & S & C)|(p & P1 & -> & P2 & P3)].
  - left. split; [exact E|]. split; [|exact C]. rewrite back_sign in S by exact W. apply Z.ltb_ge in S. exact S.
  - right. rewrite Z.mul_0_r, Z.add_0_l. auto.
Qed.

(** ** Length *)
Lemma Bp_pow n : Bp n = 2 ^ (32 * Z.of_nat n).
Proof. unfold Bp. rewrite Z.pow_mul_r by lia. rewrite pow32. reflexivity. Qed.

Lemma bit_length_pos d : normal d -> 0 <= sval d ->
  let L := 32 * (Z.of_nat (length d) - 1) + lastbit32 (back d) in
  0 <= L /\ sval d < 2 ^ L /\ (0 < L -> 2 ^ (L - 1) <= sval d).
Proof.
  intros Nd Pd. pose proof (normal_wf _ Nd) as W. cbv zeta.
  pose proof (back_sign d W) as S. destruct (Z.ltb_spec (sval d) 0); [lia|].
  destruct (wf_snoc_inv d W) as (a & x & -> & Fa & Hx).
  unfold is_negative, back in *. rewrite last_snoc in *. apply Z.leb_gt in S.
  rewrite sval_snoc in *. unfold s32 in *. destruct (Z.ltb_spec x neg_flag); [|lia].
  rewrite app_length. cbn [length]. rewrite Nat2Z.inj_add. change (Z.of_nat 1) with 1.
  replace (Z.of_nat (length a) + 1 - 1) with (Z.of_nat (length a)) by ring.
  pose proof (uval_bound a Fa) as Ba. unfold lastbit32. destruct (Z.leb_spec x 0) as [X|X].
  - assert (x = 0) by (destruct Hx; lia). subst x. rewrite !Z.mul_0_r, !Z.add_0_r. rewrite <- Bp_pow.
    split; [lia|]. split; [lia|]. intros L.
    destruct a as [|a0 a1] eqn:Ea; [cbn in L; lia|]. rewrite <- Ea in *.
    assert (Na : a <> []) by (rewrite Ea; discriminate). clear Ea.
    destruct (exists_last Na) as (c & y & ->). apply Forall_app in Fa as [Fc Fy]. inversion Fy as [|? ? Hy _]; subst.
    rewrite <- app_assoc in Nd. cbn [app] in Nd. apply normal_top2 in Nd; auto using digit_0.
    assert (G : neg_flag <= y) by (apply Z.nlt_ge; intros G; apply Nd; left; auto).
    rewrite uval_app, app_length. cbn [length uval]. rewrite Nat2Z.inj_add. change (Z.of_nat 1) with 1.
    replace (32 * (Z.of_nat (length c) + 1) - 1) with (32 * Z.of_nat (length c) + 31) by ring.
    rewrite Z.pow_add_r, <- Bp_pow, pow31 by lia.
    pose proof (Bp_pos (length c)). pose proof (uval_bound c Fc). nia.
  - pose proof (Z.log2_nonneg x) as L0. destruct (Z.log2_spec x X) as [L1 L2].
    split; [lia|]. rewrite Z.pow_add_r, <- Bp_pow by lia.
    replace (32 * Z.of_nat (length a) + (Z.log2 x + 1) - 1) with (32 * Z.of_nat (length a) + Z.log2 x) by ring.
    rewrite (Z.pow_add_r 2 (32 * _)), <- Bp_pow by lia. rewrite Z.add_1_r.
    pose proof (Bp_pos (length a)). split; intros; nia.
Qed.

Theorem bit_length_correct d : normal d ->
  (0 <= sval d -> 0 <= bit_length d /\ sval d < 2 ^ bit_length d /\
     (0 < bit_length d -> 2 ^ (bit_length d - 1) <= sval d)) /\
  (sval d < 0 -> bit_length d < 0 /\ - 2 ^ (-1 - bit_length d) <= sval d /\
     (0 < -1 - bit_length d -> sval d < - 2 ^ (-1 - bit_length d - 1))).
Proof.
  intros Nd. pose proof (normal_wf _ Nd) as W. unfold bit_length. rewrite back_sign by exact W. split.
  - intros P. destruct (Z.ltb_spec (sval d) 0); [lia|]. apply bit_length_pos; assumption.
  - intros P. destruct (Z.ltb_spec (sval d) 0); [|lia].
    pose proof (normal_cpl _ Nd) as Nc. pose proof (sval_cpl d W) as Vc.
    pose proof (bit_length_pos (map cpl d) Nc ltac:(lia)) as HH. cbv zeta in HH.
    unfold back in *. rewrite last_map_cpl, map_length, Vc in HH by apply W.
    set (L := 32 * (Z.of_nat (length d) - 1) + lastbit32 (cpl (last d 0))) in *. clearbody L.
    replace (-1 - (-1 - L)) with L by ring. lia.
Qed.
