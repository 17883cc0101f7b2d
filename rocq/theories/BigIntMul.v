(** Comparison, conversions, multiplication and powers. *)

From Coq Require Import ZArith List Bool Lia.
From Verif Require Import BigIntModel BigIntSpec BigIntBase BigIntAdd.
Import ListNotations.
Open Scope Z_scope.

Ltac Zify.zify_post_hook ::= Z.div_mod_to_equations.

(** Comparison *)
Lemma eq_digits_spec a : forall b, length a = length b -> (eq_digits a b = true <-> a = b).
Proof.
  induction a as [|x a IH]; intros [|y b] L; try discriminate; [split; reflexivity|].
  cbn [eq_digits]. destruct (Z.eqb_spec x y) as [->|N]; cbn [negb].
  - rewrite IH by (injection L; auto). split; [intros ->; reflexivity | intros E; injection E; auto].
  - split; [discriminate | intros E; injection E; intros; contradiction].
Qed.

Theorem big_eq_correct a b : normal a -> normal b -> big_eq a b = (sval a =? sval b).
Proof.
  intros Na Nb. apply Bool.eq_iff_eq_true. rewrite Z.eqb_eq. unfold big_eq.
  destruct (Nat.eqb_spec (length a) (length b)) as [L|L]; cbn [negb].
  - rewrite eq_digits_spec by assumption. split; [intros ->; reflexivity|].
    intros E. apply normal_unique; auto.
  - split; [discriminate|]. intros E. exfalso. apply L. f_equal. apply normal_unique; auto.
Qed.

Lemma lt_rev_spec a : forall b, length a = length b -> Forall digit a -> Forall digit b ->
  lt_rev a b = (uval (rev a) <? uval (rev b)).
Proof.
  induction a as [|x a IH]; intros [|y b] L Fa Fb; try discriminate; [reflexivity|].
  inversion Fa as [|? ? Hx Fa']; inversion Fb as [|? ? Hy Fb']; subst. injection L as L.
  cbn [lt_rev rev]. rewrite !uval_app, !rev_length, L. cbn [uval].
  rewrite (IH b) by assumption.
  apply Forall_rev in Fa'. apply Forall_rev in Fb'.
  pose proof (uval_bound _ Fa') as U1. pose proof (uval_bound _ Fb') as U2.
  rewrite rev_length in U1, U2. rewrite L in U1. pose proof (Bp_pos (length b)).
  rewrite !Z.mul_0_r, !Z.add_0_r.
  destruct (Z.eqb_spec x y) as [->|N]; cbn [negb].
  - apply Bool.eq_iff_eq_true. rewrite !Z.ltb_lt. lia.
  - apply Bool.eq_iff_eq_true. rewrite !Z.ltb_lt. split; intros; nia.
Qed.

Theorem big_lt_correct a b : normal a -> normal b -> big_lt a b = (sval a <? sval b).
Proof.
  intros Na Nb. pose proof (normal_wf _ Na) as Wa. pose proof (normal_wf _ Nb) as Wb.
  unfold big_lt.
  pose proof (back_sign a Wa) as Sa. pose proof (back_sign b Wb) as Sb.
  pose proof (sval_rng a Wa) as Ra. pose proof (sval_rng b Wb) as Rb.
  destruct (Z.ltb_spec (sval a) 0), (Z.ltb_spec (sval b) 0); rewrite Sa, Sb; cbn [xorb];
    [| symmetry; apply Z.ltb_lt; lia | symmetry; apply Z.ltb_ge; lia |].
  - destruct (Nat.eqb_spec (length a) (length b)) as [L|L]; cbn [negb].
    + rewrite lt_rev_spec, !rev_involutive; [|rewrite !rev_length; exact L|apply Forall_rev, Wa|apply Forall_rev, Wb].
      apply Bool.eq_iff_eq_true. rewrite !Z.ltb_lt. unfold sval. rewrite L.
      unfold is_negative, back in Sa, Sb. rewrite pow31, Sa, Sb. lia.
    + apply Bool.eq_iff_eq_true. rewrite Nat.ltb_lt, Z.ltb_lt.
      apply normal_iff in Na; [|assumption]. apply normal_iff in Nb; [|assumption].
      split; intros C.
      * destruct Na as [Na|Na]; [destruct Wb as [Q _]; destruct b; [tauto|cbn in C; lia]|].
        pose proof (rng_mono (length b) (length a - 1) (sval b) ltac:(lia) Rb) as R.
        unfold rng in *. lia.
      * destruct (le_lt_dec (length b) (length a)) as [L2|L2]; [lia|]. exfalso.
        destruct Nb as [Nb|Nb]; [destruct Wa as [Q _]; destruct a; [tauto|cbn in *; lia]|].
        pose proof (rng_mono (length a) (length b - 1) (sval a) ltac:(lia) Ra) as R.
        unfold rng in *. lia.
  - destruct (Nat.eqb_spec (length a) (length b)) as [L|L]; cbn [negb].
    + rewrite lt_rev_spec, !rev_involutive; [|rewrite !rev_length; exact L|apply Forall_rev, Wa|apply Forall_rev, Wb].
      apply Bool.eq_iff_eq_true. rewrite !Z.ltb_lt. unfold sval. rewrite L.
      unfold is_negative, back in Sa, Sb. rewrite pow31, Sa, Sb. lia.
    + apply Bool.eq_iff_eq_true. rewrite Nat.ltb_lt, Z.ltb_lt.
      apply normal_iff in Na; [|assumption]. apply normal_iff in Nb; [|assumption].
      split; intros C.
      * destruct Nb as [Nb|Nb]; [destruct Wa as [Q _]; destruct a; [tauto|cbn in C; lia]|].
        pose proof (rng_mono (length a) (length b - 1) (sval a) ltac:(lia) Ra) as R.
        unfold rng in *. lia.
      * destruct (le_lt_dec (length a) (length b)) as [L2|L2]; [lia|]. exfalso.
        destruct Na as [Na|Na]; [destruct Wb as [Q _]; destruct b; [tauto|cbn in *; lia]|].
        pose proof (rng_mono (length b) (length a - 1) (sval b) ltac:(lia) Rb) as R.
        unfold rng in *. lia.
Qed.

Theorem is_zero_correct d : normal d -> is_zero d = (sval d =? 0).
Proof.
  intros N. pose proof (normal_wf _ N) as W. apply Bool.eq_iff_eq_true. rewrite Z.eqb_eq.
  destruct d as [|x [|y t]].
  - destruct W; tauto.
  - cbn [is_zero]. rewrite Z.eqb_eq, sval_1. destruct W as [_ F]. inversion F; subst.
    ub. destruct (Z.ltb_spec x 2147483648); lia.
  - cbn [is_zero]. split; [discriminate|]. intros E. exfalso.
    apply normal_iff in N; [|assumption]. destruct N as [N|N]; [discriminate|]. apply N.
    unfold rng. rewrite E. pose proof (Bp_pos (length (x :: y :: t) - 1)). lia.
Qed.

Theorem is_negative_correct d : normal d -> is_negative d = (sval d <? 0).
Proof. intros N. apply back_sign, N. Qed.

Theorem is_positive_correct d : normal d -> is_positive d = (0 <? sval d).
Proof.
  intros N. unfold is_positive. rewrite is_negative_correct, is_zero_correct by assumption.
  destruct (Z.ltb_spec (sval d) 0), (Z.eqb_spec (sval d) 0), (Z.ltb_spec 0 (sval d)); cbn; lia || reflexivity.
Qed.

Lemma Bp_even n : (0 < n)%nat -> Z.even (Bp n) = true.
Proof. intros. destruct n; [lia|]. rewrite Bp_S, Z.even_mul. reflexivity. Qed.

Theorem is_odd_correct d : wf d -> is_odd d = Z.odd (sval d).
Proof.
  intros [Ne F]. unfold is_odd. destruct d as [|x t]; [tauto|]. cbn [hd].
  assert (E : Z.odd (sval (x :: t)) = Z.odd x).
  { destruct t; [rewrite sval_1; unfold s32; destruct (_ <? _); [reflexivity|]; rewrite Z.odd_sub; cbn; apply xorb_false_r|].
    rewrite sval_cons2, Z.odd_add, Z.odd_mul. cbn. apply xorb_false_r. }
  rewrite E. change 1 with (Z.ones 1). rewrite Z.land_ones by lia. change (2 ^ 1) with 2.
  rewrite Zmod_odd. destruct (Z.odd x); reflexivity.
Qed.

Theorem eq_int_correct d v : normal d -> -2147483648 <= v < 2147483648 ->
  eq_int d v = (sval d =? v).
Proof.
  intros N Hv. pose proof (normal_wf _ N) as W. apply Bool.eq_iff_eq_true. rewrite Z.eqb_eq.
  destruct d as [|x [|y t]].
  - destruct W; tauto.
  - cbn [eq_int]. rewrite Z.eqb_eq, sval_1. reflexivity.
  - cbn [eq_int]. split; [discriminate|]. intros E. exfalso.
    apply normal_iff in N; [|assumption]. destruct N as [N|N]; [discriminate|]. apply N.
    unfold rng. rewrite E. cbn [length Nat.sub].
    pose proof (Bp_le 1 (S (length t)) ltac:(lia)) as P. rewrite Bp_1 in P. ub. lia.
Qed.

(** Conversions *)
Theorem of_int_correct n : -2147483648 <= n < 2147483648 -> repr (of_int n) n.
Proof.
  intros H. unfold of_int. split; [apply normal_1, digit_w32|]. rewrite sval_1. ub.
  destruct (Z.ltb_spec (n mod 4294967296) 2147483648); lia.
Qed.

Lemma s64_min : neg_flag * B = 9223372036854775808. Proof. reflexivity. Qed.

Theorem from_signed_correct n : - 9223372036854775808 <= n < 9223372036854775808 ->
  repr (from_signed n) n.
Proof.
  intros H. unfold from_signed.
  assert (Hn : n = w32 n + B * (n / B)) by (ub; lia).
  assert (Hd : s32 (w32 (n / B)) = n / B).
  { ub. destruct (Z.ltb_spec (n / 4294967296 mod 4294967296) 2147483648); lia. }
  destruct (Z.ltb_spec (w32 n) neg_flag) as [C|C].
  - destruct (Z.eqb_spec (w32 (n / B)) 0) as [E|E].
    + split; [apply normal_1, digit_w32|]. rewrite sval_1. ub.
      destruct (Z.ltb_spec (n mod 4294967296) 2147483648); lia.
    + split; [apply normal_pair; auto using digit_w32; unfold redundant; clear Hd; ub; lia|].
      rewrite sval_cons2, sval_1, Hd. lia.
  - destruct (Z.eqb_spec (w32 (n / B)) (B - 1)) as [E|E].
    + split; [apply normal_1, digit_w32|]. rewrite sval_1. ub.
      destruct (Z.ltb_spec (n mod 4294967296) 2147483648); lia.
    + split; [apply normal_pair; auto using digit_w32; unfold redundant; clear Hd; ub; lia|].
      rewrite sval_cons2, sval_1, Hd. lia.
Qed.

Theorem from_unsigned_correct n : 0 <= n < 18446744073709551616 -> repr (from_unsigned n) n.
Proof.
  intros H. unfold from_unsigned.
  assert (Hn : n = w32 n + B * (n / B)) by (ub; lia).
  assert (Hd : w32 (n / B) = n / B) by (ub; lia).
  assert (D0 : digit 0) by (ub; lia).
  destruct (Z.leb_spec neg_flag (w32 (n / B))) as [C|C].
  - split; [apply (normal_top2 [w32 n]); auto using digit_w32; unfold redundant; clear Hd; ub; lia|].
    rewrite !sval_cons2, sval_1. change (s32 0) with 0. lia.
  - destruct (negb (w32 (n / B) =? 0) || (neg_flag <=? w32 n)) eqn:E.
    + split; [apply normal_pair; auto using digit_w32; unfold redundant|].
      * apply orb_true_iff in E. rewrite negb_true_iff, Z.eqb_neq, Z.leb_le in E. ub. lia.
      * rewrite !sval_cons2, sval_1. unfold s32. destruct (Z.ltb_spec (w32 (n/B)) neg_flag); lia.
    + apply orb_false_iff in E. rewrite negb_false_iff, Z.eqb_eq, Z.leb_gt in E. destruct E as [E1 E2].
      split; [apply normal_1, digit_w32|]. rewrite sval_1. unfold s32.
      destruct (Z.ltb_spec (w32 n) neg_flag); lia.
Qed.

Lemma normal_long k d : normal d -> (k < length d)%nat -> (0 < k)%nat -> ~ rng k (sval d).
Proof.
  intros N L K R. pose proof (normal_wf _ N) as W. apply normal_iff in N; [|assumption].
  destruct N as [N|N]; [lia|]. apply N. eapply rng_mono; [|exact R]. lia.
Qed.

Theorem int_val_correct d : normal d ->
  int_val d = if (-2147483648 <=? sval d) && (sval d <? 2147483648) then Some (sval d) else None.
Proof.
  intros N. pose proof (normal_wf _ N) as W. unfold int_val.
  destruct d as [|x [|y t]]; [destruct W; tauto| |].
  - cbn [length nth]. rewrite sval_1. destruct W as [_ F]. inversion F; subst. cbn [Nat.ltb Nat.leb].
    assert (R : -2147483648 <= s32 x < 2147483648) by (ub; destruct (Z.ltb_spec x 2147483648); lia).
    destruct (Z.leb_spec (-2147483648) (s32 x)), (Z.ltb_spec (s32 x) 2147483648); cbn [andb]; try lia. reflexivity.
  - cbn [length Nat.ltb Nat.leb]. pose proof (normal_long 1 _ N) as R. cbn [length] in R.
    specialize (R ltac:(lia) ltac:(lia)). unfold rng in R. rewrite Bp_1 in R. ub.
    destruct (Z.leb_spec (-2147483648) (sval (x :: y :: t))), (Z.ltb_spec (sval (x :: y :: t)) 2147483648); cbn [andb]; try lia; reflexivity.
Qed.

Lemma Bp_2 : Bp 2 = 18446744073709551616. Proof. reflexivity. Qed.
Lemma Bp_3 : Bp 3 = 79228162514264337593543950336. Proof. reflexivity. Qed.

Theorem long_val_correct d : normal d ->
  long_val d = if (-9223372036854775808 <=? sval d) && (sval d <? 9223372036854775808)
               then Some (sval d) else None.
Proof.
  intros N. pose proof (normal_wf _ N) as W. unfold long_val.
  destruct d as [|x [|y [|z t]]]; [destruct W; tauto| | |].
  - cbn [length nth]. rewrite sval_1. destruct W as [_ F]. inversion F; subst. cbn [Nat.ltb Nat.leb Nat.eqb].
    assert (R : -2147483648 <= s32 x < 2147483648) by (ub; destruct (Z.ltb_spec x 2147483648); lia).
    destruct (Z.leb_spec (-9223372036854775808) (s32 x)), (Z.ltb_spec (s32 x) 9223372036854775808); cbn [andb]; try lia. reflexivity.
  - cbn [length nth]. rewrite sval_cons2, sval_1. apply wf_cons_inv in W as [Hx [_ F]].
    inversion F as [|? ? Hy _]; subst. cbn [Nat.ltb Nat.leb Nat.eqb].
    assert (E : s64 (w64 (x + y * B)) = x + B * s32 y).
    { unfold s64, w64. rewrite s64_min. clear N F. ub.
      destruct (Z.ltb_spec ((x + y * 4294967296) mod (4294967296 * 4294967296)) 9223372036854775808),
        (Z.ltb_spec y 2147483648); lia. }
    rewrite E.
    assert (R : -9223372036854775808 <= x + B * s32 y < 9223372036854775808).
    { clear E N F. ub. destruct (Z.ltb_spec y 2147483648); lia. }
    destruct (Z.leb_spec (-9223372036854775808) (x + B * s32 y)), (Z.ltb_spec (x + B * s32 y) 9223372036854775808); cbn [andb]; try lia. reflexivity.
  - cbn [length Nat.ltb Nat.leb]. pose proof (normal_long 2 _ N) as R. cbn [length] in R.
    specialize (R ltac:(lia) ltac:(lia)). unfold rng in R. rewrite Bp_2 in R.
    destruct (Z.leb_spec (-9223372036854775808) (sval (x :: y :: z :: t))), (Z.ltb_spec (sval (x :: y :: z :: t)) 9223372036854775808); cbn [andb]; try lia; reflexivity.
Qed.

Theorem uint_val_correct d : normal d ->
  uint_val d = if (0 <=? sval d) && (sval d <? 4294967296) then Some (sval d) else None.
Proof.
  intros N. pose proof (normal_wf _ N) as W. unfold uint_val.
  rewrite back_sign by assumption. destruct (Z.ltb_spec (sval d) 0) as [C|C].
  { destruct (Z.leb_spec 0 (sval d)); [lia|reflexivity]. }
  destruct (Z.leb_spec 0 (sval d)); [|lia]. cbn [andb].
  destruct d as [|x [|y [|z t]]]; [destruct W; tauto| | |].
  - rewrite sval_1 in *. destruct W as [_ F]. inversion F as [|? ? Hx _]; subst. clear N F.
    cbn [length nth Nat.ltb Nat.leb Nat.eqb negb orb]. ub.
    destruct (Z.ltb_spec x 2147483648); [|lia]. destruct (Z.ltb_spec x 4294967296); [reflexivity|lia].
  - rewrite sval_cons2, sval_1 in *. apply wf_cons_inv in W as [Hx [_ F]]. inversion F as [|? ? Hy _]; subst.
    clear N F. cbn [length nth Nat.ltb Nat.leb Nat.eqb negb orb andb]. ub.
    destruct (Z.ltb_spec y 2147483648); [|lia].
    destruct (Z.eqb_spec y 0); cbn [negb];
      destruct (Z.ltb_spec (x + 4294967296 * y) 4294967296); try lia; [f_equal; lia|reflexivity].
  - cbn [length nth Nat.ltb Nat.leb Nat.eqb negb orb andb].
    pose proof (normal_long 2 _ N) as R. cbn [length] in R.
    specialize (R ltac:(lia) ltac:(lia)). unfold rng in R. rewrite Bp_2 in R.
    destruct (Z.ltb_spec (sval (x :: y :: z :: t)) 4294967296); [lia|reflexivity].
Qed.

Theorem ulong_val_correct d : normal d ->
  ulong_val d = if (0 <=? sval d) && (sval d <? 18446744073709551616) then Some (sval d) else None.
Proof.
  intros N. pose proof (normal_wf _ N) as W. unfold ulong_val.
  rewrite back_sign by assumption. destruct (Z.ltb_spec (sval d) 0) as [C|C].
  { destruct (Z.leb_spec 0 (sval d)); [lia|reflexivity]. }
  destruct (Z.leb_spec 0 (sval d)); [|lia]. cbn [andb].
  destruct d as [|x [|y [|z [|u t]]]]; [destruct W; tauto| | | |].
  - rewrite sval_1 in *. destruct W as [_ F]. inversion F as [|? ? Hx _]; subst. clear N F.
    cbn [length nth Nat.ltb Nat.leb Nat.eqb negb orb]. ub.
    destruct (Z.ltb_spec x 2147483648); [|lia]. destruct (Z.ltb_spec x 18446744073709551616); [reflexivity|lia].
  - rewrite sval_cons2, sval_1 in *. apply wf_cons_inv in W as [Hx [_ F]]. inversion F as [|? ? Hy _]; subst.
    clear N F. cbn [length nth Nat.ltb Nat.leb Nat.eqb negb orb andb]. unfold w64. ub.
    destruct (Z.ltb_spec y 2147483648); [|lia].
    destruct (Z.ltb_spec (x + 4294967296 * y) 18446744073709551616); [f_equal; lia|lia].
  - rewrite !sval_cons2, sval_1 in *. apply wf_cons_inv in W as [Hx W]. apply wf_cons_inv in W as [Hy [_ F]].
    inversion F as [|? ? Hz _]; subst.
    clear N F. cbn [length nth Nat.ltb Nat.leb Nat.eqb negb orb andb]. unfold w64. ub.
    destruct (Z.ltb_spec z 2147483648); [|lia].
    destruct (Z.eqb_spec z 0); cbn [negb];
      destruct (Z.ltb_spec (x + 4294967296 * (y + 4294967296 * z)) 18446744073709551616); try lia; [f_equal; lia|reflexivity].
  - cbn [length nth Nat.ltb Nat.leb Nat.eqb negb orb andb].
    pose proof (normal_long 3 _ N) as R. cbn [length] in R.
    specialize (R ltac:(lia) ltac:(lia)). unfold rng in R. rewrite Bp_3 in R.
    destruct (Z.ltb_spec (sval (x :: y :: z :: u :: t)) 18446744073709551616); [lia|reflexivity].
Qed.

Theorem convert_short_correct d : normal d ->
  convert 15 d = if (-32768 <=? sval d) && (sval d <? 32768) then Some (sval d) else None.
Proof.
  intros N. pose proof (normal_wf _ N) as W. unfold convert.
  change (w32 (2 ^ 15)) with 32768.
  replace (w32 (Z.opp 32768)) with 4294934528 by reflexivity.
  change (2 ^ (15 + 1)) with 65536. change (2 ^ 15) with 32768.
  destruct d as [|x [|y t]]; [destruct W; tauto| |].
  - cbn [length nth Nat.ltb Nat.leb orb]. rewrite sval_1.
    destruct W as [_ F]. inversion F as [|? ? Hx _]; subst. clear N F. ub.
    destruct (Z.ltb_spec x 2147483648);
    repeat match goal with
    | |- context [?a <=? ?b] => destruct (Z.leb_spec a b); cbn [andb]
    | |- context [?a <? ?b] => destruct (Z.ltb_spec a b); cbn [andb]
    end; first [reflexivity | lia | f_equal; lia].
  - cbn [length Nat.ltb Nat.leb orb]. pose proof (normal_long 1 _ N) as R. cbn [length] in R.
    specialize (R ltac:(lia) ltac:(lia)). unfold rng in R. rewrite Bp_1 in R. ub.
    destruct (Z.leb_spec (-32768) (sval (x :: y :: t))), (Z.ltb_spec (sval (x :: y :: t)) 32768); cbn [andb]; try lia; reflexivity.
Qed.

(** mult_add *)
Lemma digit_mul a b : digit a -> digit b -> 0 <= a * b <= 18446744065119617025.
Proof.
  intros Ha Hb. ub. split; [nia|].
  change 18446744065119617025 with (4294967295 * 4294967295). apply Z.mul_le_mono_nonneg; lia.
Qed.

Lemma w64_id a : 0 <= a < 18446744073709551616 -> w64 a = a.
Proof. intros. unfold w64. ub. change (4294967296 * 4294967296) with 18446744073709551616. apply Z.mod_small; assumption. Qed.

Lemma digit_div a : 0 <= a < 18446744073709551616 -> digit (a / B).
Proof. intros. ub. lia. Qed.

Lemma mult_digits_spec d : forall x acc r f, Forall digit d -> digit x -> digit acc ->
  mult_digits d x acc = (r, f) ->
  Forall digit r /\ length r = length d /\ digit f /\
  uval r + Bp (length d) * f = uval d * x + acc.
Proof.
  induction d as [|y d IH]; intros x acc r f Fd Hx Ha E; cbn [mult_digits] in E.
  - injection E as <- <-. repeat split; try apply Ha; auto. cbn [uval length]. rewrite Bp_0. lia.
  - inversion Fd as [|? ? Hy Fd']; subst.
    assert (Racc : 0 <= acc + y * x < 18446744073709551616).
    { pose proof (digit_mul _ _ Hy Hx). ub. lia. }
    rewrite (w64_id _ Racc) in E.
    destruct (mult_digits d x ((acc + y * x) / B)) as [r' f'] eqn:E'. injection E as <- <-.
    destruct (IH _ _ _ _ Fd' Hx (digit_div _ Racc) E')
      as (I1 & I2 & I3 & I4).
    repeat split; try apply I3; auto.
    + constructor; auto using digit_w32.
    + cbn [length]. rewrite I2. reflexivity.
    + cbn [length]. rewrite !uval_cons, Bp_S. unfold w32.
      pose proof (Z.div_mod (acc + y * x) B ltac:(discriminate)). nia.
Qed.

Lemma nonneg_uval d : wf d -> 0 <= sval d -> sval d = uval d.
Proof.
  intros W H. pose proof (back_sign d W) as S. unfold is_negative, back in S.
  unfold sval in *. rewrite pow31 in *. destruct (Z.leb_spec neg_flag (last d 0)); [|lia].
  symmetry in S. apply Z.ltb_lt in S. lia.
Qed.

Lemma mult_add_spec d x a : wf d -> 0 <= sval d -> digit x -> digit a ->
  wf (mult_add d x a) /\ sval (mult_add d x a) = sval d * x + a /\
  (normal d -> (0 < x \/ length d = 1%nat) -> normal (mult_add d x a)).
Proof.
  intros W P Hx Ha. unfold mult_add.
  destruct (mult_digits d x a) as [r f] eqn:E.
  destruct (mult_digits_spec _ _ _ _ _ (proj2 W) Hx Ha E) as (I1 & I2 & I3 & I4).
  rewrite (nonneg_uval d W P).
  assert (Nr : r <> []) by (destruct W; destruct r, d; try discriminate; tauto).
  assert (Wr : wf r) by (split; auto).
  pose proof (uval_bound r I1) as Br. pose proof (Bp_pos (length r)) as PB.
  destruct (Z.eqb_spec f 0) as [Ef|Ef]; cbn [negb].
  - subst f. rewrite back_sign by assumption. destruct (Z.ltb_spec (sval r) 0) as [C|C].
    + assert (Ws : wf (r ++ [0])) by (apply wf_snoc; auto; ub; lia).
      split; [exact Ws|]. split; [rewrite sval_snoc; change (s32 0) with 0; lia|].
      intros _ _. destruct (wf_snoc_inv r Wr) as (b & y & -> & Fb & Hy).
      rewrite <- app_assoc. cbn [app]. apply normal_top2; auto.
      rewrite sval_snoc in C. pose proof (uval_bound b Fb). pose proof (Bp_pos (length b)).
      unfold redundant. unfold s32 in C. clear - C H H0 Hy. ub.
      destruct (Z.ltb_spec y 2147483648); [nia|lia].
    + split; [exact Wr|]. split; [rewrite (nonneg_uval r Wr C); lia|].
      intros N Hl. apply normal_iff; [exact Wr|]. apply normal_iff in N; [|exact W].
      rewrite I2. destruct N as [N|N]; [left; exact N|].
      destruct Hl as [Hl|Hl]; [right|left; exact Hl]. unfold rng in *.
      rewrite (nonneg_uval r Wr C). rewrite (nonneg_uval d W P) in N.
      pose proof (uval_bound d (proj2 W)). ub. nia.
  - assert (Ew : w32 f = f) by (ub; lia). rewrite Ew.
    assert (Hf : f < neg_flag).
    { pose proof (sval_rng d W) as R. unfold rng in R. rewrite (nonneg_uval d W P) in R.
      assert (Hh : exists h, Bp (length d) = 2 * h /\ 0 < h).
      { destruct d as [|d0 d']; [destruct W; tauto|]. exists (Bp (length d') * neg_flag).
        cbn [length]. rewrite Bp_S. pose proof (Bp_pos (length d')). ub. lia. }
      destruct Hh as (h & Eh & Ph). rewrite I2, Eh in *. pose proof (proj1 (uval_bound d (proj2 W))) as U0.
      assert (U : uval d * x + a <= h * 4294967295).
      { clear - U0 R Hx Ha. assert (uval d * x <= (h - 1) * 4294967295) by (apply Z.mul_le_mono_nonneg; ub; lia).
        ub. lia. }
      assert (2 * f <= 4294967295); [|ub; lia].
      apply (Z.mul_le_mono_pos_l _ _ h); [exact Ph|]. lia. }
    split; [apply wf_snoc; auto|]. split.
    + rewrite sval_snoc, I2. unfold s32. destruct (Z.ltb_spec f neg_flag); lia.
    + intros _ _. destruct (wf_snoc_inv r Wr) as (b & y & -> & Fb & Hy).
      rewrite <- app_assoc. cbn [app]. apply normal_top2; auto.
      unfold redundant. ub. lia.
Qed.

Lemma wf_len1 d : wf d -> (0 < length d)%nat.
Proof. intros [H _]. destruct d; [tauto|cbn; lia]. Qed.

(** operator*=(digit), operator*=(int): right unless a number of more than one
    digit is multiplied by zero. *)
Theorem mul_digit_correct_partial d x : normal d -> digit x ->
  wf (mul_digit d x) /\ sval (mul_digit d x) = sval d * x /\
  (0 < x \/ sval d < 0 \/ length d = 1%nat -> normal (mul_digit d x)).
Proof.
  intros N Hx. unfold mul_digit. pose proof (normal_wf _ N) as W.
  assert (D0 : digit 0) by (ub; lia).
  rewrite back_sign by assumption. destruct (Z.ltb_spec (sval d) 0) as [C|C].
  - destruct (negate_correct d N) as [N1 V1].
    destruct (mult_add_spec (negate d) x 0) as (M1 & M2 & M3); [apply N1|lia|assumption|assumption|].
    destruct (compl_neg_spec [] (mult_add (negate d) x 0) true) as [C1 C2]; [constructor|exact M1|].
    fold (negate (mult_add (negate d) x 0)) in C1, C2.
    split; [apply C1|]. split; [|intros; exact C1].
    rewrite C2, M2, V1. cbn [uval length b2z]. rewrite Bp_0. lia.
  - destruct (mult_add_spec d x 0) as (M1 & M2 & M3); auto.
    split; [exact M1|]. split; [lia|]. intros H. apply M3; auto. lia.
Qed.

Theorem mul_int_correct_partial d x0 : normal d -> -2147483648 <= x0 < 2147483648 ->
  wf (mul_int d x0) /\ sval (mul_int d x0) = sval d * x0 /\
  (x0 <> 0 \/ sval d < 0 \/ length d = 1%nat -> normal (mul_int d x0)).
Proof.
  intros N Hx. unfold mul_int. pose proof (normal_wf _ N) as W.
  assert (D0 : digit 0) by (ub; lia).
  rewrite back_sign by assumption.
  set (x := if x0 <? 0 then w32 (- w32 x0) else x0).
  assert (Ex : x = Z.abs x0 /\ digit x).
  { subst x. ub. destruct (Z.ltb_spec x0 0); lia. }
  destruct Ex as [Ex Dx].
  assert (Neg : forall m, wf m -> normal (negate m) /\ sval (negate m) = - sval m).
  { intros m Wm. destruct (compl_neg_spec [] m true) as [C1 C2]; [constructor|exact Wm|].
    fold (negate m) in C1, C2. split; [exact C1|]. rewrite C2. cbn [uval length b2z]. rewrite Bp_0. lia. }
  destruct (Z.ltb_spec (sval d) 0) as [C|C].
  - destruct (negate_correct d N) as [N1 V1].
    destruct (mult_add_spec (negate d) x 0) as (M1 & M2 & M3); [apply N1|lia|assumption|assumption|].
    destruct (Neg _ M1) as [Q1 Q2].
    destruct (Z.ltb_spec x0 0); cbn [xorb].
    + split; [exact M1|]. split; [rewrite M2, V1, Ex; lia|].
      intros _. apply M3; auto. left. lia.
    + split; [apply Q1|]. split; [rewrite Q2, M2, V1, Ex; lia|]. intros _; exact Q1.
  - destruct (mult_add_spec d x 0) as (M1 & M2 & M3); auto.
    destruct (Neg _ M1) as [Q1 Q2].
    destruct (Z.ltb_spec x0 0); cbn [xorb].
    + split; [apply Q1|]. split; [rewrite Q2, M2, Ex; lia|]. intros _; exact Q1.
    + split; [exact M1|]. split; [rewrite M2, Ex; lia|]. intros H1. apply M3; auto. lia.
Qed.

(** The schoolbook product *)
Lemma mul_row_spec f x : forall r acc, digit f -> Forall digit x -> Forall digit r ->
  (length x < length r)%nat -> nth (length x) r 0 = 0 -> digit acc ->
  Forall digit (mul_row f x r acc) /\ length (mul_row f x r acc) = length r /\
  uval (mul_row f x r acc) = uval r + f * uval x + acc.
Proof.
  induction x as [|xi x IH]; intros r acc Hf Fx Fr L Z0 Ha.
  - destruct r as [|ri r]; [cbn in L; lia|]. cbn [mul_row]. cbn [length nth] in Z0. subst ri.
    assert (w32 acc = acc) as -> by (ub; lia).
    inversion Fr; subst. repeat split; auto. rewrite !uval_cons. cbn [uval]. lia.
  - destruct r as [|ri r]; [cbn in L; lia|]. cbn [mul_row].
    inversion Fx as [|? ? Hxi Fx']; subst. inversion Fr as [|? ? Hri Fr']; subst.
    cbn [length nth] in L, Z0.
    pose proof (digit_mul _ _ Hf Hxi) as Q.
    rewrite (w64_id (f * xi + ri)) by (clear IH; ub; lia).
    rewrite (w64_id (acc + (f * xi + ri))) by (clear IH; ub; lia).
    set (a := acc + (f * xi + ri)) in *.
    assert (Da : digit (a / B)) by (apply digit_div; subst a; clear IH; ub; lia).
    destruct (IH r (a / B) Hf Fx' Fr' ltac:(lia) Z0 Da) as (I1 & I2 & I3).
    repeat split.
    + constructor; auto using digit_w32.
    + cbn [length]. rewrite I2. reflexivity.
    + rewrite !uval_cons, I3. unfold w32.
      pose proof (Z.div_mod a B ltac:(discriminate)). subst a. nia.
Qed.

(** Digits of [r] above position [length x + k] are zero. *)
Lemma mul_row_high f x : forall r acc k, (length x < k)%nat ->
  nth k (mul_row f x r acc) 0 = nth k r 0.
Proof.
  induction x as [|xi x IH]; intros r acc k L; destruct r as [|ri r]; cbn [mul_row]; try reflexivity.
  - destruct k; [lia|reflexivity].
  - destruct k; [lia|]. cbn [nth]. apply IH. cbn in L. lia.
Qed.

Lemma mul_rows_spec d : forall x r, Forall digit d -> Forall digit x -> Forall digit r ->
  length r = (length d + length x)%nat ->
  (forall k, (length x <= k)%nat -> nth k r 0 = 0) ->
  Forall digit (mul_rows d x r) /\ length (mul_rows d x r) = length r /\
  uval (mul_rows d x r) = uval r + uval d * uval x.
Proof.
  induction d as [|di d IH]; intros x r Fd Fx Fr L Z0; cbn [mul_rows].
  - repeat split; auto. cbn [uval]. lia.
  - inversion Fd as [|? ? Hd Fd']; subst. cbn [length] in L.
    destruct (mul_row_spec di x r 0 Hd Fx Fr ltac:(lia) (Z0 (length x) (le_n _)) ltac:(clear IH; ub; lia)) as (M1 & M2 & M3).
    destruct (mul_row di x r 0) as [|r0 r'] eqn:E.
    { cbn in M2. lia. }
    inversion M1 as [|? ? Hr0 Fr']; subst. cbn [length] in M2.
    destruct (IH x r' Fd' Fx Fr') as (I1 & I2 & I3); [lia| |].
    { intros k Hk. pose proof (mul_row_high di x r 0 (S k) ltac:(lia)) as Q. rewrite E in Q. cbn [nth] in Q.
      rewrite Q. apply Z0. lia. }
    repeat split.
    + constructor; auto.
    + cbn [length]. lia.
    + rewrite uval_cons in *. rewrite (uval_cons di d), I3. nia.
Qed.

Lemma sub_high_digits_spec r : forall x c, Forall digit r -> Forall digit x ->
  length x = length r -> (c = 0 \/ c = 1) ->
  Forall digit (sub_high_digits r x c) /\ length (sub_high_digits r x c) = length r /\
  exists k, uval (sub_high_digits r x c) + Bp (length r) * k = uval r - uval x - 1 + c + Bp (length r) .
Proof.
  induction r as [|ri r IH]; intros x c Fr Fx L Hc.
  - destruct x; [|discriminate]. cbn [sub_high_digits]. repeat split; auto.
    exists c. cbn [uval length]. rewrite Bp_0. lia.
  - destruct x as [|xi x]; [discriminate|]. cbn [sub_high_digits].
    inversion Fx as [|? ? Hxi Fx']; subst. inversion Fr as [|? ? Hri Fr']; subst. injection L as L.
    destruct (dstep_spec ri (cpl xi) c Hri (digit_cpl _ Hxi) Hc) as (D1 & D2 & D3).
    destruct (dstep ri (cpl xi) c) as [y c']. cbn [fst snd] in D1, D2, D3.
    destruct (IH x c' Fr' Fx' L D2) as (I1 & I2 & k & I3).
    repeat split.
    + constructor; auto.
    + cbn [length]. lia.
    + exists k. cbn [length]. rewrite !uval_cons, Bp_S. unfold cpl in *. nia.
Qed.

Lemma Forall_firstn {A} (P : A -> Prop) n l : Forall P l -> Forall P (firstn n l).
Proof. intros. revert n. induction H; intros [|n]; cbn; constructor; auto. Qed.
Lemma Forall_skipn {A} (P : A -> Prop) n l : Forall P l -> Forall P (skipn n l).
Proof. intros. revert n. induction H; intros [|n]; cbn; try constructor; auto. Qed.

(** Replacing the digits from position n on by [those - x], modulo. *)
Lemma sub_top_spec n r x : Forall digit r -> Forall digit x -> (n + length x = length r)%nat ->
  let r' := firstn n r ++ sub_high_digits (skipn n r) x 1 in
  Forall digit r' /\ length r' = length r /\
  exists k, uval r' = uval r - Bp n * uval x + Bp (length r) * k.
Proof.
  intros Fr Fx L r'.
  assert (Ls : length (skipn n r) = length x) by (rewrite skipn_length; lia).
  assert (Lf : length (firstn n r) = n) by (rewrite firstn_length; lia).
  destruct (sub_high_digits_spec (skipn n r) x 1 (Forall_skipn _ n _ Fr) Fx (eq_sym Ls) (or_intror eq_refl))
    as (I1 & I2 & k & I3).
  subst r'. repeat split.
  - apply Forall_app; split; auto using Forall_firstn.
  - rewrite app_length, I2, Lf, Ls. lia.
  - exists (1 - k). rewrite uval_app, Lf.
    rewrite <- (firstn_skipn n r) at 3. rewrite uval_app, Lf.
    assert (Q : Bp (length r) = Bp n * Bp (length x)) by (rewrite <- L; apply Bp_add).
    rewrite Q. rewrite Ls in I3. nia.
Qed.

Theorem mul_correct d x : wf d -> wf x ->
  normal (mul d x) /\ sval (mul d x) = sval d * sval x.
Proof.
  intros Wd Wx. unfold mul.
  assert (D0 : digit 0) by (ub; lia).
  set (n := length d). set (m := length x).
  set (z := repeat 0 (n + m)).
  destruct (mul_rows_spec d x z) as (M1 & M2 & M3).
  { apply Wd. } { apply Wx. } { apply repeat_digit, D0. }
  { subst z. rewrite repeat_length. reflexivity. }
  { intros k _. apply nth_repeat. }
  assert (Uz : uval z = 0).
  { subst z. clear. induction (n + m)%nat as [|k IH]; [reflexivity|]. cbn [repeat]. rewrite uval_cons, IH. lia. }
  assert (Lz : length z = (n + m)%nat) by (subst z; apply repeat_length).
  rewrite Uz, Lz in *. set (r0 := mul_rows d x z) in *.
  set (r1 := if is_negative d then firstn n r0 ++ sub_high_digits (skipn n r0) x 1 else r0).
  assert (R1 : Forall digit r1 /\ length r1 = (n + m)%nat /\
    exists k, uval r1 = uval r0 - (if is_negative d then Bp n * uval x else 0) + Bp (n + m) * k).
  { subst r1. destruct (is_negative d).
    - destruct (sub_top_spec n r0 x M1 (proj2 Wx)) as (S1 & S2 & k & S3); [lia|].
      repeat split; auto; [lia|]. exists k. rewrite S3, M2. reflexivity.
    - repeat split; auto. exists 0. lia. }
  destruct R1 as (R1 & R2 & k1 & R3).
  set (r2 := if is_negative x then firstn m r1 ++ sub_high_digits (skipn m r1) d 1 else r1).
  assert (R4 : Forall digit r2 /\ length r2 = (n + m)%nat /\
    exists k, uval r2 = uval r1 - (if is_negative x then Bp m * uval d else 0) + Bp (n + m) * k).
  { subst r2. destruct (is_negative x).
    - destruct (sub_top_spec m r1 d R1 (proj2 Wd)) as (S1 & S2 & k & S3); [lia|].
      repeat split; auto; [lia|]. exists k. rewrite S3, R2. reflexivity.
    - repeat split; auto. exists 0. lia. }
  destruct R4 as (R4 & R5 & k2 & R6).
  assert (W2 : wf r2).
  { split; [|exact R4]. pose proof (wf_len1 d Wd). destruct r2; [cbn in R5; lia|discriminate]. }
  destruct (shrink_spec r2 W2) as [N V]. split; [exact N|]. rewrite V.
  assert (Q : exists k, sval r2 = sval d * sval x + Bp (n + m) * k).
  { unfold sval. rewrite !pow32, !pow31. fold (Bp (length r2)) (Bp (length d)) (Bp (length x)).
    unfold is_negative, back in R3, R6. fold n m. rewrite R5.
    rewrite Bp_add in *.
    exists (k1 + k2 - (if neg_flag <=? last r2 0 then 1 else 0)
            - (if neg_flag <=? last d 0 then (if neg_flag <=? last x 0 then 1 else 0) else 0)).
    destruct (neg_flag <=? last d 0), (neg_flag <=? last x 0), (neg_flag <=? last r2 0); nia. }
  destruct Q as [k Q].
  pose proof (sval_rng r2 W2) as G2. pose proof (sval_rng d Wd) as Gd. pose proof (sval_rng x Wx) as Gx.
  fold n in Gd. fold m in Gx. rewrite R5 in G2. unfold rng in *.
  rewrite Bp_add in *. pose proof (Bp_pos n). pose proof (Bp_pos m).
  assert (4 <= Bp n /\ 4 <= Bp m).
  { pose proof (wf_len1 d Wd). pose proof (wf_len1 x Wx).
    pose proof (Bp_le 1 n ltac:(lia)). pose proof (Bp_le 1 m ltac:(lia)). rewrite Bp_1 in *. ub. lia. }
  assert (P4 : - (Bp n * Bp m) <= 4 * (sval d * sval x) <= Bp n * Bp m).
  { clear - Gd Gx. generalize dependent (sval d). generalize dependent (sval x). intros a Ha b Hb. nia. }
  assert (k = 0); [|subst; lia].
  set (M := Bp n * Bp m) in *. assert (16 <= M) by (subst M; nia).
  clearbody M. nia.
Qed.

Theorem power_correct d e : normal d -> normal (power d e) /\ sval (power d e) = sval d ^ Z.of_nat e.
Proof.
  intros N. destruct e as [|[|k]].
  - cbn [power]. destruct (of_int_correct 1 ltac:(lia)) as [N1 V1]. split; [exact N1|]. rewrite V1. reflexivity.
  - cbn [power]. split; [exact N|]. rewrite Z.pow_1_r. reflexivity.
  - cbn [power].
    assert (G : forall j r, normal r -> normal (power_loop j d r) /\
              sval (power_loop j d r) = sval r * sval d ^ Z.of_nat j).
    { induction j as [|j IH]; intros r Nr; cbn [power_loop].
      - split; [exact Nr|]. cbn. lia.
      - destruct (mul_correct r d (normal_wf _ Nr) (normal_wf _ N)) as [N1 V1].
        destruct (IH _ N1) as [N2 V2]. split; [exact N2|]. rewrite V2, V1, Nat2Z.inj_succ, Z.pow_succ_r by lia. ring. }
    destruct (G (S k) d N) as [G1 G2]. split; [exact G1|]. rewrite G2.
    rewrite (Nat2Z.inj_succ (S k)), Z.pow_succ_r by lia. reflexivity.
Qed.
