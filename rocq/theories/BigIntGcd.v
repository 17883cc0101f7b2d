(** Quotients, remainders, gcd and lcm of big integers. *)

From Coq Require Import ZArith Znumtheory List Bool Lia.
From Verif Require Import BigIntModel BigIntSpec BigIntBase BigIntAdd BigIntMul BigIntDiv BigIntDiv2.
Import ListNotations.
Open Scope Z_scope.

Lemma pos_not_bad d v : 0 < sval v -> ~ bad_division d v.
Proof. unfold bad_division. lia. Qed.

Theorem reduce_mod_zero d v : normal d -> normal v -> sval v = 0 -> reduce_mod d v = None.
Proof.
  intros Nd Nv E.
  assert (v = [0]) as ->.
  { apply normal_unique; [exact Nv | apply normal_1; ub; lia | rewrite E; reflexivity]. }
  unfold reduce_mod. change (is_negative [0]) with false.
  assert (easy_case d [0] = false) as ->; [|reflexivity].
  unfold easy_case. change (is_negative [0]) with false. change (back [0]) with 0.
  pose proof (wf_len1 _ (normal_wf _ Nd)) as L. cbn [length].
  assert (F : (if is_negative d then w32 (- back d) else back d) <? 0 = false).
  { apply Z.ltb_ge. destruct (is_negative d); [ub; apply Z.mod_pos_bound; lia|].
    destruct (wf_snoc_inv d (normal_wf _ Nd)) as (a & x & -> & _ & H). unfold back. rewrite last_snoc. apply H. }
  rewrite F, orb_false_r. destruct (Nat.ltb_spec (length d) 1); [lia|]. apply andb_false_r.
Qed.

(** The bad case always gives a remainder of the wrong sign. *)
Theorem reduce_mod_wrong d v : normal d -> normal v -> bad_division d v ->
  exists q r, reduce_mod d v = Some (q, r) /\ sval q = -1 /\ sval r = sval d + sval v /\ 0 < sval r /\ sval v < 0.
Proof.
  intros Nd Nv (P1 & P2 & L & C & T). unfold reduce_mod.
  assert (E : easy_case d v = true).
  { unfold easy_case. rewrite (back_sign d), (back_sign v) by (apply Nd || apply Nv).
    rewrite L, Nat.leb_refl. cbn [andb]. apply orb_true_iff. right.
    destruct (Z.ltb_spec (sval d) 0); [lia|]. destruct (Z.ltb_spec (sval v) 0); [|lia].
    apply Z.ltb_lt. unfold back.
    pose proof (back_sign v (normal_wf _ Nv)) as S. unfold is_negative, back in *.
    assert (S2 : neg_flag <= last v 0) by (apply Z.leb_le; rewrite S; apply Z.ltb_lt; lia).
    assert (Dl : digit (last v 0)).
    { destruct (wf_snoc_inv v (normal_wf _ Nv)) as (b & y & -> & _ & Hy). rewrite last_snoc. exact Hy. }
    clear - T S2 Dl. ub. Z.div_mod_to_equations. lia. }
  rewrite E, (back_sign d), (back_sign v), is_zero_correct by (apply Nd || apply Nv || assumption).
  destruct (Z.ltb_spec (sval d) 0); [lia|]. destruct (Z.ltb_spec (sval v) 0); [|lia].
  destruct (Z.eqb_spec (sval d) 0); [lia|]. cbn [Bool.eqb orb].
  destruct (add_assign_correct d v Nd Nv) as [A1 A2].
  eexists _, _. split; [reflexivity|]. split; [reflexivity|]. rewrite A2. lia.
Qed.

Theorem big_mod_correct_partial d v : normal d -> normal v -> sval v <> 0 -> ~ bad_division d v ->
  exists r, big_mod d v = Some r /\ normal r /\ sval r = sval d mod sval v.
Proof.
  intros Nd Nv V0 NB. destruct (reduce_mod_correct_partial d v Nd Nv V0 NB) as (q & r & E & H1 & H2 & H3 & H4).
  exists r. unfold big_mod. rewrite E. auto.
Qed.

Theorem big_div_correct_partial d v : normal d -> normal v -> sval v <> 0 -> ~ bad_division d v ->
  exists q, big_div d v = Some q /\ normal q /\ sval q = sval d / sval v.
Proof.
  intros Nd Nv V0 NB. unfold big_div. rewrite eq_int_correct by (assumption || lia).
  destruct (Z.eqb_spec (sval v) 1) as [E1|E1].
  - exists d. rewrite E1, Z.div_1_r. auto.
  - destruct (reduce_mod_correct_partial d v Nd Nv V0 NB) as (q & r & E & H1 & H2 & H3 & H4).
    exists q. rewrite E. auto.
Qed.

Lemma gcd_loop_correct fuel : forall a b, normal a -> normal b -> 0 < sval a ->
  sval a < 2 ^ Z.of_nat fuel ->
  exists g, gcd_loop fuel a b = Some g /\ normal g /\ sval g = Z.gcd (sval a) (sval b).
Proof.
  induction fuel as [|k IH]; intros a b Na Nb Pa F; [cbn in F; lia|]. cbn [gcd_loop].
  destruct (big_mod_correct_partial b a Nb Na ltac:(lia) (pos_not_bad _ _ Pa)) as (b' & Eb & Nb' & Vb).
  rewrite Eb, is_zero_correct by assumption.
  pose proof (Z.mod_pos_bound (sval b) (sval a) Pa) as R.
  assert (G1 : Z.gcd (sval a) (sval b) = Z.gcd (sval b') (sval a)).
  { rewrite Vb, Z.gcd_mod by lia. reflexivity. }
  destruct (Z.eqb_spec (sval b') 0) as [Z0|Z0].
  - exists a. split; [reflexivity|]. split; [exact Na|]. rewrite G1, Z0, Z.gcd_0_l. lia.
  - assert (Pb : 0 < sval b') by lia.
    destruct (big_mod_correct_partial a b' Na Nb' ltac:(lia) (pos_not_bad _ _ Pb)) as (a' & Ea & Na' & Va).
    rewrite Ea, is_zero_correct by assumption.
    pose proof (Z.mod_pos_bound (sval a) (sval b') Pb) as R2.
    assert (G2 : Z.gcd (sval b') (sval a) = Z.gcd (sval a') (sval b')).
    { rewrite Va, Z.gcd_mod by lia. reflexivity. }
    destruct (Z.eqb_spec (sval a') 0) as [Z1|Z1].
    + exists b'. split; [reflexivity|]. split; [exact Nb'|]. rewrite G1, G2, Z1, Z.gcd_0_l. lia.
    + assert (F' : sval a' < 2 ^ Z.of_nat k).
      { rewrite Nat2Z.inj_succ, Z.pow_succ_r in F by lia.
        assert (2 * sval a' < sval a); [|lia].
        assert (1 <= sval a / sval b') by (apply Z.div_le_lower_bound; lia).
        pose proof (Z.div_mod (sval a) (sval b') ltac:(lia)). nia. }
      destruct (IH a' b' Na' Nb' ltac:(lia) F') as (g & Eg & Ng & Vg).
      exists g. split; [exact Eg|]. split; [exact Ng|]. rewrite Vg, G1, G2. reflexivity.
Qed.

Theorem big_gcd_correct a b : normal a -> normal b ->
  exists g, big_gcd a b = Some g /\ normal g /\ sval g = Z.gcd (sval a) (sval b).
Proof.
  intros Na Nb. unfold big_gcd.
  assert (F : Z.abs (sval a) < 2 ^ Z.of_nat (32 * length a)).
  { pose proof (sval_rng a (normal_wf _ Na)) as R. unfold rng in R.
    rewrite Nat2Z.inj_mul, Z.pow_mul_r by lia. change (Z.of_nat 32) with 32. rewrite pow32.
    fold (Bp (length a)). pose proof (Bp_pos (length a)). lia. }
  rewrite is_zero_correct by assumption.
  rewrite (back_sign a), (back_sign b) by (apply Na || apply Nb).
  destruct (Z.eqb_spec (sval a) 0) as [E|E].
  - rewrite E, Z.gcd_0_l. destruct (Z.ltb_spec (sval b) 0).
    + destruct (negate_correct b Nb) as [M1 M2]. eexists. split; [reflexivity|]. split; [exact M1|]. lia.
    + eexists. split; [reflexivity|]. split; [exact Nb|]. lia.
  - destruct (Z.ltb_spec (sval a) 0).
    + destruct (negate_correct a Na) as [M1 M2].
      destruct (gcd_loop_correct (32 * length a) (negate a) b M1 Nb ltac:(lia) ltac:(lia)) as (g & E1 & E2 & E3).
      exists g. rewrite E3, M2, Z.gcd_opp_l. auto.
    + apply gcd_loop_correct; auto; lia.
Qed.

Theorem big_lcm_correct_partial a b : normal a -> normal b ->
  sval a <> 0 \/ sval b <> 0 ->
  exists m, big_lcm a b = Some m /\ normal m /\ Z.abs (sval m) = Z.lcm (sval a) (sval b) /\
    sval m * Z.gcd (sval a) (sval b) = sval a * sval b.
Proof.
  intros Na Nb NZ. unfold big_lcm.
  destruct (big_gcd_correct a b Na Nb) as (d & Ed & Nd & Vd). rewrite Ed.
  rewrite eq_int_correct by (assumption || lia).
  pose proof (Z.gcd_nonneg (sval a) (sval b)) as G0.
  assert (Pd : 0 < sval d).
  { rewrite Vd. destruct (Z.eq_dec (Z.gcd (sval a) (sval b)) 0) as [E|E]; [|lia].
    apply Z.gcd_eq_0 in E. lia. }
  assert (KEY : forall m, normal m -> sval m * sval d = sval a * sval b ->
     normal m /\ Z.abs (sval m) = Z.lcm (sval a) (sval b) /\ sval m * Z.gcd (sval a) (sval b) = sval a * sval b).
  { intros m Nm Em. split; [exact Nm|]. rewrite <- Vd. split; [|exact Em].
    unfold Z.lcm. rewrite <- Vd.
    destruct (Z.gcd_divide_r (sval a) (sval b)) as [k Hk]. rewrite <- Vd in Hk. rewrite Hk.
    rewrite Z.div_mul by lia. rewrite Hk in Em. f_equal. nia. }
  destruct (Z.gcd_divide_l (sval a) (sval b)) as [ka Ha]. destruct (Z.gcd_divide_r (sval a) (sval b)) as [kb Hb].
  rewrite <- Vd in Ha, Hb.
  destruct (Z.eqb_spec (sval d) 1) as [E1|E1].
  - destruct (mul_correct a b (normal_wf _ Na) (normal_wf _ Nb)) as [M1 M2].
    exists (mul a b). split; [reflexivity|]. apply KEY; [exact M1|]. rewrite M2, E1. lia.
  - destruct (Nat.leb_spec (length a) (length b)).
    + destruct (big_div_correct_partial a d Na Nd ltac:(lia) (pos_not_bad _ _ Pd)) as (q & Eq & Nq & Vq). rewrite Eq.
      destruct (mul_correct q b (normal_wf _ Nq) (normal_wf _ Nb)) as [M1 M2].
      exists (mul q b). split; [reflexivity|]. apply KEY; [exact M1|]. rewrite M2, Vq, Ha, Z.div_mul by lia. lia.
    + destruct (big_div_correct_partial b d Nb Nd ltac:(lia) (pos_not_bad _ _ Pd)) as (q & Eq & Nq & Vq). rewrite Eq.
      destruct (mul_correct a q (normal_wf _ Na) (normal_wf _ Nq)) as [M1 M2].
      exists (mul a q). split; [reflexivity|]. apply KEY; [exact M1|]. rewrite M2, Vq, Hb, Z.div_mul by lia. lia.
Qed.
