(** Property C16: big_rat operations are exact and return lowest terms with
    positive denominator.  [gives o p q]: the call o returns the canonical form
    of the fraction p/q; [is_frac r p q]: r is that canonical form. *)

From Coq Require Import ZArith List Bool Lia.
From Verif Require Import BigIntModel BigIntSpec BigIntBase BigIntAdd BigIntSubFrom BigIntMul
  BigIntDiv BigIntDiv2 BigIntGcd BigIntCheck BigRatModel BigRatSpec BigRatProofs.
Import ListNotations.
Open Scope Z_scope.

Ltac canon := unfold canonical; cbn [num den]; split; [norm|split; [norm|split; vm_compute; reflexivity]].

(** 2^33/3 and -5/6, used in the examples *)
Definition ex_r := mk_rat [0; 2] [3].
Definition ex_x := mk_rat [4294967291] [6].
Lemma ex_r_canonical : canonical ex_r. Proof. unfold ex_r. canon. Qed.
Lemma ex_x_canonical : canonical ex_x. Proof. unfold ex_x. canon. Qed.

(** construction from numerator and denominator *)
Theorem C16_from_fraction n d : normal n -> normal d -> sval d <> 0 ->
  gives (from_fraction n d) (sval n) (sval d).
Proof. exact (from_fraction_correct n d). Qed.
Print Assumptions C16_from_fraction.
Example C16_from_fraction_ex : normal [0; 4] /\ normal [4294967284] /\ sval [4294967284] <> 0 /\
  from_fraction [0; 4] [4294967284] = Some (mk_rat [0; 4294967295] [3]).
Proof. split; [norm|]. split; [norm|]. split; [vm_compute; discriminate|]. vm_compute; reflexivity. Qed.

Theorem C16_from_fraction_zero n d : normal d -> sval d = 0 -> from_fraction n d = None.
Proof. exact (from_fraction_zero n d). Qed.
Print Assumptions C16_from_fraction_zero.
Example C16_from_fraction_zero_ex : normal [0] /\ from_fraction [5] [0] = None.
Proof. split; [norm|]. vm_compute; reflexivity. Qed.

(** comparison *)
Theorem C16_less r x : canonical r -> canonical x ->
  rat_lt r x = (sval (num r) * sval (den x) <? sval (num x) * sval (den r)).
Proof. exact (rat_lt_correct r x). Qed.
Print Assumptions C16_less.
Example C16_less_ex : canonical ex_r /\ canonical ex_x /\ rat_lt ex_x ex_r = true /\ rat_lt ex_r ex_x = false.
Proof. split; [exact ex_r_canonical|]. split; [exact ex_x_canonical|]. vm_compute; auto 20. Qed.

Theorem C16_equal r x : canonical r -> canonical x ->
  rat_eq r x = (sval (num r) * sval (den x) =? sval (num x) * sval (den r)).
Proof. exact (rat_eq_correct r x). Qed.
Print Assumptions C16_equal.
Example C16_equal_ex : canonical ex_r /\ canonical ex_x /\ rat_eq ex_x ex_r = false /\ rat_eq ex_r ex_r = true.
Proof. split; [exact ex_r_canonical|]. split; [exact ex_x_canonical|]. vm_compute; auto 20. Qed.

Theorem C16_equal_int r v : canonical r -> - 2 ^ 31 <= v < 2 ^ 31 ->
  rat_eq_int r v = (sval (num r) =? v * sval (den r)).
Proof. exact (rat_eq_int_correct r v). Qed.
Print Assumptions C16_equal_int.
Example C16_equal_int_ex : canonical (mk_rat [4294967293] [1]) /\ rat_eq_int (mk_rat [4294967293] [1]) (-3) = true /\
  rat_eq_int ex_r 0 = false.
Proof. split; [canon|]. vm_compute; auto 20. Qed.

(** sums *)
Theorem C16_add_int r x : canonical r -> normal x ->
  gives (rat_add_int r x) (sval (num r) + sval x * sval (den r)) (sval (den r)) /\
  gives (int_add_rat x r) (sval (num r) + sval x * sval (den r)) (sval (den r)) /\
  is_frac (rat_add_int_assign r x) (sval (num r) + sval x * sval (den r)) (sval (den r)).
Proof. exact (rat_add_int_correct r x). Qed.
Print Assumptions C16_add_int.
Example C16_add_int_ex : 
  canonical ex_r /\ normal [7] /\ rat_add_int ex_x [7] = Some (mk_rat [37] [6]).
Proof. split; [exact ex_r_canonical|]. split; [norm|]. vm_compute; auto 20. Qed.

Theorem C16_add r x : canonical r -> canonical x ->
  gives (rat_add r x) (sval (num r) * sval (den x) + sval (num x) * sval (den r)) (sval (den r) * sval (den x)).
Proof. exact (rat_add_correct r x). Qed.
Print Assumptions C16_add.
Example C16_add_ex : 
  canonical ex_r /\ canonical ex_x /\ rat_add ex_r ex_x = Some (mk_rat [4294967291; 3] [6]).
Proof. split; [exact ex_r_canonical|]. split; [exact ex_x_canonical|]. vm_compute; auto 20. Qed.

Theorem C16_opp r : canonical r ->
  gives (rat_opp r) (- sval (num r)) (sval (den r)) /\ is_frac (rat_negate r) (- sval (num r)) (sval (den r)).
Proof. exact (rat_opp_correct r). Qed.
Print Assumptions C16_opp.
Example C16_opp_ex : 
  canonical ex_r /\ canonical ex_x /\ rat_opp ex_x = Some (mk_rat [5] [6]).
Proof. split; [exact ex_r_canonical|]. split; [exact ex_x_canonical|]. vm_compute; auto 20. Qed.

(** differences; the full statements have no hypothesis [sub_safe], which excludes the
    operands for which big_int subtract_from is wrong (see C03) *)
Theorem C16_sub_int_partial r x : canonical r -> normal x -> sub_safe (num r) (mul x (den r)) ->
  gives (rat_sub_int r x) (sval (num r) - sval x * sval (den r)) (sval (den r)) /\
  is_frac (rat_sub_int_assign r x) (sval (num r) - sval x * sval (den r)) (sval (den r)).
Proof. exact (rat_sub_int_correct_partial r x). Qed.
Print Assumptions C16_sub_int_partial.
Example C16_sub_int_ex : 
  canonical ex_r /\ normal [7] /\ sub_safe (num ex_r) (mul [7] (den ex_r)) /\ rat_sub_int ex_r [7] = Some (mk_rat [4294967275; 1] [3]).
Proof. split; [exact ex_r_canonical|]. split; [norm|]. split; [left; vm_compute; discriminate|]. vm_compute; auto 20. Qed.

Theorem C16_int_sub r x : canonical r -> normal x ->
  gives (int_sub_rat x r) (sval x * sval (den r) - sval (num r)) (sval (den r)).
Proof. exact (int_sub_rat_correct r x). Qed.
Print Assumptions C16_int_sub.
Example C16_int_sub_ex : 
  canonical ex_r /\ normal [7] /\ int_sub_rat [7] ex_x = Some (mk_rat [47] [6]).
Proof. split; [exact ex_r_canonical|]. split; [norm|]. vm_compute; auto 20. Qed.

Theorem C16_subtract_from_partial r x : canonical r -> normal x -> sub_safe (mul x (den r)) (num r) ->
  is_frac (rat_subtract_from r x) (sval x * sval (den r) - sval (num r)) (sval (den r)).
Proof. exact (rat_subtract_from_correct_partial r x). Qed.
Print Assumptions C16_subtract_from_partial.
Example C16_subtract_from_ex : 
  canonical ex_x /\ normal [7] /\ sub_safe (mul [7] (den ex_x)) (num ex_x) /\ rat_subtract_from ex_x [7] = mk_rat [47] [6].
Proof. split; [exact ex_x_canonical|]. split; [norm|]. split; [left; vm_compute; discriminate|]. vm_compute; auto 20. Qed.

(** the full statement has no sign hypothesis, and is false *)
Theorem C16_sub_partial r x : canonical r -> canonical x -> 0 <= sval (num r) ->
  gives (rat_sub r x) (sval (num r) * sval (den x) - sval (num x) * sval (den r)) (sval (den r) * sval (den x)).
Proof. exact (rat_sub_correct_partial r x). Qed.
Print Assumptions C16_sub_partial.
Example C16_sub_ex : 
  canonical ex_r /\ canonical ex_x /\ 0 <= sval (num ex_r) /\ rat_sub ex_r ex_x = Some (mk_rat [1431655767; 1] [2]).
Proof. split; [exact ex_r_canonical|]. split; [exact ex_x_canonical|]. split; [vm_compute; discriminate|]. vm_compute; auto 20. Qed.

Theorem C16_sub_refuted : exists r x z, canonical r /\ canonical x /\
  rat_sub r x = Some z /\
  sval (num z) * (sval (den r) * sval (den x)) <>
  (sval (num r) * sval (den x) - sval (num x) * sval (den r)) * sval (den z).
Proof.
  eexists (mk_rat [4294967291] [1]), (mk_rat [4294967295; 4294967295; 1] [1]), _.
  split; [canon|]. split; [canon|]. split; [vm_compute; reflexivity|]. vm_compute. discriminate.
Qed.
Print Assumptions C16_sub_refuted.

(** products *)
Theorem C16_mul_int r x : canonical r -> normal x ->
  gives (rat_mul_int r x) (sval (num r) * sval x) (sval (den r)) /\
  gives (rat_mul_int_assign r x) (sval (num r) * sval x) (sval (den r)).
Proof. exact (rat_mul_int_correct r x). Qed.
Print Assumptions C16_mul_int.
Example C16_mul_int_ex : 
  canonical ex_x /\ normal [4] /\ rat_mul_int ex_x [4] = Some (mk_rat [4294967286] [3]).
Proof. split; [exact ex_x_canonical|]. split; [norm|]. vm_compute; auto 20. Qed.

Theorem C16_mul r x : canonical r -> canonical x ->
  gives (rat_mul r x) (sval (num r) * sval (num x)) (sval (den r) * sval (den x)) /\
  gives (rat_mul_assign r x) (sval (num r) * sval (num x)) (sval (den r) * sval (den x)).
Proof. exact (rat_mul_correct r x). Qed.
Print Assumptions C16_mul.
Example C16_mul_ex : 
  canonical ex_r /\ canonical ex_x /\ rat_mul ex_r ex_x = Some (mk_rat [0; 4294967291] [9]).
Proof. split; [exact ex_r_canonical|]. split; [exact ex_x_canonical|]. vm_compute; auto 20. Qed.

(** quotients *)
Theorem C16_invert r : canonical r -> sval (num r) <> 0 ->
  gives (rat_invert r) (sval (den r)) (sval (num r)).
Proof. exact (rat_invert_correct r). Qed.
Print Assumptions C16_invert.
Example C16_invert_ex : 
  canonical ex_x /\ sval (num ex_x) <> 0 /\ rat_invert ex_x = Some (mk_rat [4294967290] [5]).
Proof. split; [exact ex_x_canonical|]. split; [vm_compute; discriminate|]. vm_compute; auto 20. Qed.

Theorem C16_div_int r x : canonical r -> normal x -> sval x <> 0 ->
  gives (rat_div_int r x) (sval (num r)) (sval (den r) * sval x) /\
  gives (rat_div_int_assign r x) (sval (num r)) (sval (den r) * sval x).
Proof. exact (rat_div_int_correct r x). Qed.
Print Assumptions C16_div_int.
Example C16_div_int_ex : 
  canonical ex_r /\ normal [4294967292] /\ sval [4294967292] <> 0 /\ rat_div_int ex_r [4294967292] = Some (mk_rat [2147483648] [3]).
Proof. split; [exact ex_r_canonical|]. split; [norm|]. split; [vm_compute; discriminate|]. vm_compute; auto 20. Qed.

Theorem C16_int_div r x : canonical r -> normal x -> sval (num r) <> 0 ->
  gives (int_div_rat x r) (sval x * sval (den r)) (sval (num r)).
Proof. exact (int_div_rat_correct r x). Qed.
Print Assumptions C16_int_div.
Example C16_int_div_ex : 
  canonical ex_x /\ normal [10] /\ sval (num ex_x) <> 0 /\ int_div_rat [10] ex_x = Some (mk_rat [4294967284] [1]).
Proof. split; [exact ex_x_canonical|]. split; [norm|]. split; [vm_compute; discriminate|]. vm_compute; auto 20. Qed.

Theorem C16_div r x : canonical r -> canonical x -> sval (num x) <> 0 ->
  gives (rat_div r x) (sval (num r) * sval (den x)) (sval (den r) * sval (num x)) /\
  gives (rat_div_assign r x) (sval (num r) * sval (den x)) (sval (den r) * sval (num x)).
Proof. exact (rat_div_correct r x). Qed.
Print Assumptions C16_div.
Example C16_div_ex : 
  canonical ex_r /\ canonical ex_x /\ sval (num ex_x) <> 0 /\ rat_div ex_r ex_x = Some (mk_rat [0; 4294967292] [5]).
Proof. split; [exact ex_r_canonical|]. split; [exact ex_x_canonical|]. split; [vm_compute; discriminate|]. vm_compute; auto 20. Qed.

Theorem C16_zero_divisor r x : canonical x ->
  (sval (num x) = 0 -> rat_div r x = None /\ rat_div_assign r x = None /\ rat_invert x = None) /\
  (forall y, normal y -> sval y = 0 -> rat_div_int r y = None /\ rat_div_int_assign r y = None).
Proof. exact (rat_zero_divisor r x). Qed.
Print Assumptions C16_zero_divisor.
Example C16_zero_divisor_ex : 
  canonical (mk_rat [0] [1]) /\ rat_div ex_r (mk_rat [0] [1]) = None.
Proof. split; [canon|]. vm_compute; auto 20. Qed.

(** floor, ceiling and fractional part *)
Theorem C16_floor r : canonical r ->
  exists q, rat_floor r = Some q /\ normal q /\
    sval q * sval (den r) <= sval (num r) < (sval q + 1) * sval (den r).
Proof. exact (rat_floor_correct r). Qed.
Print Assumptions C16_floor.
Example C16_floor_ex : 
  canonical ex_x /\ rat_floor ex_x = Some [4294967295].
Proof. split; [exact ex_x_canonical|]. vm_compute; auto 20. Qed.

Theorem C16_ceil r : canonical r ->
  exists q, rat_ceil r = Some q /\ normal q /\
    (sval q - 1) * sval (den r) < sval (num r) <= sval q * sval (den r).
Proof. exact (rat_ceil_correct r). Qed.
Print Assumptions C16_ceil.
Example C16_ceil_ex : 
  canonical ex_x /\ rat_ceil ex_x = Some [0].
Proof. split; [exact ex_x_canonical|]. vm_compute; auto 20. Qed.

Theorem C16_frac r : canonical r ->
  exists f q, rat_frac r = Some f /\ is_frac f (sval (num r) - q * sval (den r)) (sval (den r)) /\
    0 <= sval (num f) < sval (den f).
Proof. exact (rat_frac_correct r). Qed.
Print Assumptions C16_frac.
Example C16_frac_ex : 
  canonical ex_x /\ rat_frac ex_x = Some (mk_rat [1] [6]).
Proof. split; [exact ex_x_canonical|]. vm_compute; auto 20. Qed.

(** integer quotient and remainder; the full statements allow a modulus of either
    sign, for which big_int division can be wrong (see C06) *)
Theorem C16_quotient_int_partial r n : canonical r -> normal n -> 0 < sval n ->
  exists q, rat_quotient_int r n = Some q /\ normal q /\
    sval q * (sval n * sval (den r)) <= sval (num r) < (sval q + 1) * (sval n * sval (den r)).
Proof. exact (rat_quotient_int_correct_partial r n). Qed.
Print Assumptions C16_quotient_int_partial.
Example C16_quotient_int_ex : 
  canonical ex_r /\ normal [4] /\ 0 < sval [4] /\ rat_quotient_int ex_r [4] = Some [715827882].
Proof. split; [exact ex_r_canonical|]. split; [norm|]. vm_compute; auto 20. Qed.

Theorem C16_mod_int_partial r n : canonical r -> normal n -> 0 < sval n ->
  exists m q, rat_mod_int r n = Some m /\
    is_frac m (sval (num r) - q * sval n * sval (den r)) (sval (den r)) /\
    0 <= sval (num m) < sval n * sval (den m).
Proof. exact (rat_mod_int_correct_partial r n). Qed.
Print Assumptions C16_mod_int_partial.
Example C16_mod_int_ex : 
  canonical ex_r /\ normal [4] /\ 0 < sval [4] /\ rat_mod_int ex_r [4] = Some (mk_rat [8] [3]).
Proof. split; [exact ex_r_canonical|]. split; [norm|]. vm_compute; auto 20. Qed.

Theorem C16_quotient_partial r x : canonical r -> canonical x -> 0 < sval (num x) ->
  exists q, rat_quotient r x = Some q /\ normal q /\
    sval q = (sval (num r) * sval (den x)) / (sval (den r) * sval (num x)).
Proof. exact (rat_quotient_correct_partial r x). Qed.
Print Assumptions C16_quotient_partial.
Example C16_quotient_ex : 
  canonical ex_r /\ canonical ex_x /\ 0 < sval (num ex_r) /\ rat_quotient ex_x ex_r = Some [4294967295].
Proof. split; [exact ex_r_canonical|]. split; [exact ex_x_canonical|]. vm_compute; auto 20. Qed.

Theorem C16_mod_partial r x : canonical r -> canonical x -> 0 < sval (num x) ->
  gives (rat_mod r x)
    ((sval (num r) * sval (den x)) mod (sval (den r) * sval (num x))) (sval (den r) * sval (den x)).
Proof. exact (rat_mod_correct_partial r x). Qed.
Print Assumptions C16_mod_partial.
Example C16_mod_ex : 
  canonical ex_r /\ canonical ex_x /\ 0 < sval (num ex_r) /\ rat_mod ex_x ex_r = Some (mk_rat [4294967291; 3] [6]).
Proof. split; [exact ex_r_canonical|]. split; [exact ex_x_canonical|]. vm_compute; auto 20. Qed.

(** (2^32+5) quotiented by -(2^32+3) *)
Theorem C16_quotient_refuted : exists r x q, canonical r /\ canonical x /\ sval (num x) <> 0 /\
  rat_quotient r x = Some q /\
  sval q <> (sval (num r) * sval (den x)) / (sval (den r) * sval (num x)).
Proof.
  eexists (mk_rat [5; 1] [1]), (mk_rat [4294967293; 4294967294] [1]), _.
  split; [canon|]. split; [canon|]. split; [vm_compute; discriminate|].
  split; [vm_compute; reflexivity|]. vm_compute. discriminate.
Qed.
Print Assumptions C16_quotient_refuted.

(** powers; e = INT_MIN is excluded in the C++ code, where std::abs(e) is undefined *)
Theorem C16_power r e : canonical r -> (0 <= e \/ sval (num r) <> 0) ->
  gives (rat_power r e)
    (if e <? 0 then sval (den r) ^ (- e) else sval (num r) ^ e)
    (if e <? 0 then sval (num r) ^ (- e) else sval (den r) ^ e).
Proof. exact (rat_power_correct r e). Qed.
Print Assumptions C16_power.
Example C16_power_ex : 
  canonical ex_x /\ sval (num ex_x) <> 0 /\ rat_power ex_x (-3) = Some (mk_rat [4294967080] [125]).
Proof. split; [exact ex_x_canonical|]. split; [vm_compute; discriminate|]. vm_compute; auto 20. Qed.

