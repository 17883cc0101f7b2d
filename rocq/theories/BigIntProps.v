(** Properties C01-C05, C07, C08, C14, C15 of big_int: sums, differences,
    negation, products, comparison, conversions, aliasing and powers.

    [sval d] is the integer denoted by the digit vector [d], and [normal d] says
    that [d] is its shortest representation (see BigIntSpec). *)

From Coq Require Import ZArith List Bool Lia.
From Verif Require Import BigIntModel BigIntSpec BigIntBase BigIntAdd
  BigIntSubFrom BigIntMul BigIntCheck.
Import ListNotations.
Open Scope Z_scope.

(** ** C01 *)
Theorem C01_add_assign_exact d x : normal d -> normal x ->
  normal (add_assign d x) /\ sval (add_assign d x) = sval d + sval x.
Proof. exact (add_assign_correct d x). Qed.
Print Assumptions C01_add_assign_exact.
Example C01_add_assign_ex :
  normal [4294967295; 2147483647] /\ normal [1] /\
  add_assign [4294967295; 2147483647] [1] = [0; 2147483648; 0] /\
  sval [0; 2147483648; 0] = 2 ^ 63.
Proof. split; [norm|]. split; [norm|]. split; vm_compute; reflexivity. Qed.

Theorem C01_add_assign_move_exact d x : normal d -> normal x ->
  normal (add_assign_move d x) /\ sval (add_assign_move d x) = sval d + sval x.
Proof. exact (add_assign_move_correct d x). Qed.
Print Assumptions C01_add_assign_move_exact.
Example C01_add_assign_move_ex :
  normal [5] /\ normal [4294967292; 4294967295; 7] /\
  add_assign_move [5] [4294967292; 4294967295; 7] = [1; 0; 8].
Proof. split; [norm|]. split; [norm|]. vm_compute; reflexivity. Qed.

(** All four overloads of operator+. *)
Theorem C01_plus_exact d x : normal d -> normal x ->
  Forall (fun r => normal r /\ sval r = sval d + sval x)
    [plus_cc d x; plus_cm d x; plus_mc d x; plus_mm d x].
Proof.
  intros Nd Nx. pose proof (add_assign_correct d x Nd Nx) as H1.
  pose proof (add_assign_correct x d Nx Nd) as H2. rewrite Z.add_comm in H2.
  repeat constructor; try apply H1; try apply H2; unfold plus_mm; destruct (Nat.ltb _ _);
    first [apply H1 | apply H2].
Qed.
Print Assumptions C01_plus_exact.
Example C01_plus_ex : normal [4294967295] /\ normal [0; 1] /\
  plus_mm [4294967295] [0; 1] = [4294967295; 0] /\ plus_cc [4294967295] [0; 1] = [4294967295; 0].
Proof. split; [norm|]. split; [norm|]. split; vm_compute; reflexivity. Qed.

(** a += n for a machine integer n; the argument is passed as its 32-bit word. *)
Theorem C01_add_machine_exact d n : normal d -> - 2 ^ 31 <= n < 2 ^ 31 ->
  normal (add_digit d (n mod 2 ^ 32)) /\ sval (add_digit d (n mod 2 ^ 32)) = sval d + n.
Proof.
  intros N H.
  assert (D : digit (n mod 2 ^ 32)) by (ub; apply Z.mod_pos_bound; reflexivity).
  destruct (add_digit_correct d _ N D) as [H1 H2]. split; [exact H1|]. rewrite H2. f_equal.
  ub. change (2 ^ 31) with 2147483648 in H.
  destruct (Z.ltb_spec (n mod 4294967296) 2147483648); Z.div_mod_to_equations; lia.
Qed.
Print Assumptions C01_add_machine_exact.
Example C01_add_machine_ex : normal [3; 0; 1] /\ - 2 ^ 31 <= -7 < 2 ^ 31 /\
  add_digit [3; 0; 1] (-7 mod 2 ^ 32) = [4294967292; 4294967295; 0].
Proof. split; [norm|]. split; [lia|]. vm_compute; reflexivity. Qed.

Theorem C01_increment_exact d : normal d ->
  (normal (incr d) /\ sval (incr d) = sval d + 1) /\
  (normal (decr d) /\ sval (decr d) = sval d - 1).
Proof. intros N. split; [exact (incr_correct d N) | exact (decr_correct d N)]. Qed.
Print Assumptions C01_increment_exact.
Example C01_increment_ex : normal [4294967295; 2147483647] /\
  incr [4294967295; 2147483647] = [0; 2147483648; 0] /\
  normal [0; 2147483648] /\ decr [0; 2147483648] = [4294967295; 2147483647; 4294967295].
Proof. split; [norm|]. split; [vm_compute; reflexivity|]. split; [norm|]. vm_compute; reflexivity. Qed.

(** ** C02 *)
Theorem C02_sub_assign_exact d x : normal d -> normal x ->
  normal (sub_assign d x) /\ sval (sub_assign d x) = sval d - sval x.
Proof. exact (sub_assign_correct d x). Qed.
Print Assumptions C02_sub_assign_exact.
Example C02_sub_assign_ex : normal [0; 0; 1] /\ normal [1] /\
  sub_assign [0; 0; 1] [1] = [4294967295; 4294967295; 0].
Proof. split; [norm|]. split; [norm|]. vm_compute; reflexivity. Qed.

Theorem C02_sub_machine_exact d n : normal d -> - 2 ^ 31 <= n < 2 ^ 31 ->
  normal (sub_digit d (n mod 2 ^ 32)) /\ sval (sub_digit d (n mod 2 ^ 32)) = sval d - n.
Proof.
  intros N H.
  assert (D : digit (n mod 2 ^ 32)) by (ub; apply Z.mod_pos_bound; reflexivity).
  destruct (sub_digit_correct d _ N D) as [H1 H2]. split; [exact H1|]. rewrite H2. f_equal.
  ub. change (2 ^ 31) with 2147483648 in H.
  destruct (Z.ltb_spec (n mod 4294967296) 2147483648); Z.div_mod_to_equations; lia.
Qed.
Print Assumptions C02_sub_machine_exact.
Example C02_sub_machine_ex : normal [4294967295; 2147483647] /\ - 2 ^ 31 <= - 2 ^ 31 < 2 ^ 31 /\
  sub_digit [4294967295; 2147483647] ((- 2 ^ 31) mod 2 ^ 32) = [2147483647; 2147483648; 0].
Proof. split; [norm|]. split; [lia|]. vm_compute; reflexivity. Qed.

(** Operator- with a left operand that is not reversed (the two overloads with
    a const right operand). *)
Theorem C02_minus_exact d x : normal d -> normal x ->
  Forall (fun r => normal r /\ sval r = sval d - sval x) [minus_cc d x; minus_mc d x].
Proof. intros Nd Nx. pose proof (sub_assign_correct d x Nd Nx). repeat constructor; apply H. Qed.
Print Assumptions C02_minus_exact.
Example C02_minus_ex : normal [5] /\ normal [0; 1] /\ minus_cc [5] [0; 1] = [5; 4294967295].
Proof. split; [norm|]. split; [norm|]. vm_compute; reflexivity. Qed.

(** ** C03: subtract_from.  The full statement is false (see the refutations);
    it holds unless x is negative and *this is at least two digits longer. *)
Theorem C03_subtract_from_exact_partial d x : normal d -> normal x ->
  (0 <= sval x \/ (length d <= length x + 1)%nat) ->
  normal (subtract_from d x) /\ sval (subtract_from d x) = sval x - sval d.
Proof. exact (subtract_from_correct_partial d x). Qed.
Print Assumptions C03_subtract_from_exact_partial.
Example C03_subtract_from_ex : normal [7; 0; 0; 9] /\ normal [3] /\ 0 <= sval [3] /\
  subtract_from [7; 0; 0; 9] [3] = [4294967292; 4294967295; 4294967295; 4294967286].
Proof. split; [norm|]. split; [norm|]. split; [vm_compute; discriminate|]. vm_compute; reflexivity. Qed.

Theorem C03_subtract_from_move_exact_partial d x : normal d -> normal x ->
  (0 <= sval x \/ (length d <= length x + 1)%nat) ->
  normal (subtract_from_move d x) /\ sval (subtract_from_move d x) = sval x - sval d.
Proof. exact (subtract_from_move_correct_partial d x). Qed.
Print Assumptions C03_subtract_from_move_exact_partial.
Example C03_subtract_from_move_ex : normal [7; 9] /\ normal [4294967293] /\
  (length [7; 9]%Z <= length [4294967293]%Z + 1)%nat /\
  subtract_from_move [7; 9] [4294967293] = [4294967286; 4294967286].
Proof. split; [norm|]. split; [norm|]. split; [cbn; lia|]. vm_compute; reflexivity. Qed.

Theorem C03_sub_assign_move_exact_partial d x : normal d -> normal x ->
  (0 <= sval d \/ (length x <= length d + 1)%nat) ->
  normal (sub_assign_move d x) /\ sval (sub_assign_move d x) = sval d - sval x.
Proof. exact (sub_assign_move_correct_partial d x). Qed.
Print Assumptions C03_sub_assign_move_exact_partial.
Example C03_sub_assign_move_ex : normal [4294967293] /\ normal [7; 9] /\
  (length [7; 9]%Z <= length [4294967293]%Z + 1)%nat /\
  sub_assign_move [4294967293] [7; 9] = [4294967286; 4294967286].
Proof. split; [norm|]. split; [norm|]. split; [cbn; lia|]. vm_compute; reflexivity. Qed.

(** -5 minus (2^65 - 1): the digits left by subtract_from denote another number.
    The borrow is not propagated past a digit that becomes all ones. *)
Theorem C03_subtract_from_refuted : exists d x, normal d /\ normal x /\
  sval (subtract_from d x) <> sval x - sval d.
Proof.
  exists [4294967295; 4294967295; 1], [4294967291].
  split; [norm|]. split; [norm|]. vm_compute. discriminate.
Qed.
Print Assumptions C03_subtract_from_refuted.
Theorem C03_minus_move_refuted : exists d x, normal d /\ normal x /\
  sval (minus_cm d x) <> sval d - sval x /\ sval (minus_mm d x) <> sval d - sval x /\
  sval (sub_assign_move d x) <> sval d - sval x.
Proof.
  exists [4294967291], [4294967295; 4294967295; 1].
  split; [norm|]. split; [norm|]. split; [|split]; vm_compute; discriminate.
Qed.
Print Assumptions C03_minus_move_refuted.

(** ** C04 *)
Theorem C04_negate_exact d : normal d -> normal (negate d) /\ sval (negate d) = - sval d.
Proof. exact (negate_correct d). Qed.
Print Assumptions C04_negate_exact.
Example C04_negate_ex : normal [0; 2147483648] /\ negate [0; 2147483648] = [0; 2147483648; 0].
Proof. split; [norm|]. vm_compute; reflexivity. Qed.

Theorem C04_complement_exact d : normal d ->
  normal (complement d) /\ sval (complement d) = - sval d - 1.
Proof. exact (complement_correct d). Qed.
Print Assumptions C04_complement_exact.
Example C04_complement_ex : normal [0; 2147483648; 0] /\
  complement [0; 2147483648; 0] = [4294967295; 2147483647; 4294967295].
Proof. split; [norm|]. vm_compute; reflexivity. Qed.

(** ** C05 *)
Theorem C05_mul_exact d x : normal d -> normal x ->
  normal (mul d x) /\ sval (mul d x) = sval d * sval x.
Proof. intros Nd Nx. exact (mul_correct d x (normal_wf _ Nd) (normal_wf _ Nx)). Qed.
Print Assumptions C05_mul_exact.
Example C05_mul_ex : normal [4294967295; 4294967294] /\ normal [0; 2147483648] /\
  mul [4294967295; 4294967294] [0; 2147483648] = [0; 2147483648; 2147483648; 0].
Proof. split; [norm|]. split; [norm|]. vm_compute; reflexivity. Qed.

(** Value always exact; shortest form unless a nonnegative number of several
    digits is multiplied by zero. *)
Theorem C05_mul_digit_exact_partial d x : normal d -> 0 <= x < 2 ^ 32 ->
  wf (mul_digit d x) /\ sval (mul_digit d x) = sval d * x /\
  (0 < x \/ sval d < 0 \/ length d = 1%nat -> normal (mul_digit d x)).
Proof. exact (mul_digit_correct_partial d x). Qed.
Print Assumptions C05_mul_digit_exact_partial.
Example C05_mul_digit_ex : normal [4294967295; 4294967294] /\ 0 <= 4294967295 < 2 ^ 32 /\
  mul_digit [4294967295; 4294967294] 4294967295 = [1; 0; 4294967295].
Proof. split; [norm|]. split; [lia|]. vm_compute; reflexivity. Qed.

Theorem C05_mul_int_exact_partial d n : normal d -> - 2 ^ 31 <= n < 2 ^ 31 ->
  wf (mul_int d n) /\ sval (mul_int d n) = sval d * n /\
  (n <> 0 \/ sval d < 0 \/ length d = 1%nat -> normal (mul_int d n)).
Proof. exact (mul_int_correct_partial d n). Qed.
Print Assumptions C05_mul_int_exact_partial.
Example C05_mul_int_ex : normal [0; 1] /\ - 2 ^ 31 <= - 2 ^ 31 < 2 ^ 31 /\
  mul_int [0; 1] (- 2 ^ 31) = [0; 2147483648].
Proof. split; [norm|]. split; [lia|]. vm_compute; reflexivity. Qed.

(** Multiplying 2^32 by the machine word 0 leaves two zero digits, which does
    not even compare equal to zero. *)
Theorem C05_mul_digit_zero_refuted : exists d, normal d /\
  ~ normal (mul_digit d 0) /\ is_zero (mul_digit d 0) = false /\ mul_int d 0 = mul_digit d 0.
Proof.
  exists [0; 1]. split; [norm|]. split; [|split; vm_compute; reflexivity].
  change (mul_digit [0; 1] 0) with [0; 0]. intros [_ M].
  assert (W : wf [0]) by (split; [discriminate|repeat constructor; vm_compute; (reflexivity || discriminate)]).
  specialize (M [0] W eq_refl). cbn in M. lia.
Qed.
Print Assumptions C05_mul_digit_zero_refuted.

(** ** C07 *)
Theorem C07_comparison a b : normal a -> normal b ->
  big_lt a b = (sval a <? sval b) /\ big_eq a b = (sval a =? sval b).
Proof. intros Na Nb. split; [exact (big_lt_correct a b Na Nb) | exact (big_eq_correct a b Na Nb)]. Qed.
Print Assumptions C07_comparison.
Example C07_comparison_ex : normal [0; 4294967294] /\ normal [1; 2147483648; 4294967294] /\
  big_lt [0; 4294967294] [1; 2147483648; 4294967294] = false /\
  big_lt [1; 2147483648; 4294967294] [0; 4294967294] = true.
Proof. split; [norm|]. split; [norm|]. split; vm_compute; reflexivity. Qed.

Theorem C07_sign_tests d : normal d ->
  is_zero d = (sval d =? 0) /\ is_negative d = (sval d <? 0) /\
  is_positive d = (0 <? sval d) /\ is_odd d = Z.odd (sval d).
Proof.
  intros N. split; [exact (is_zero_correct d N)|]. split; [exact (is_negative_correct d N)|].
  split; [exact (is_positive_correct d N) | exact (is_odd_correct d (normal_wf _ N))].
Qed.
Print Assumptions C07_sign_tests.
Example C07_sign_tests_ex : normal [1; 2147483648] /\ is_negative [1; 2147483648] = true /\
  is_odd [1; 2147483648] = true.
Proof. split; [norm|]. split; vm_compute; reflexivity. Qed.

Theorem C07_eq_int d v : normal d -> - 2 ^ 31 <= v < 2 ^ 31 -> eq_int d v = (sval d =? v).
Proof. exact (eq_int_correct d v). Qed.
Print Assumptions C07_eq_int.
Example C07_eq_int_ex : normal [4294967291] /\ eq_int [4294967291] (-5) = true /\
  eq_int [5; 1] 5 = false.
Proof. split; [norm|]. split; vm_compute; reflexivity. Qed.

(** Digit vectors in shortest form are determined by their integer. *)
Theorem C07_shortest_form_unique a b : normal a -> normal b -> sval a = sval b -> a = b.
Proof. exact (normal_unique a b). Qed.
Print Assumptions C07_shortest_form_unique.
Example C07_shortest_form_unique_ex : normal [0; 2147483648; 0] /\ ~ normal [0; 1; 0] /\
  sval [0; 1; 0] = sval [0; 1].
Proof.
  split; [norm|]. split; [|reflexivity]. intros [_ M].
  assert (W : wf [0; 1]) by (apply normal_wf; norm).
  specialize (M [0; 1] W eq_refl). cbn in M. lia.
Qed.

(** ** C08 *)
Theorem C08_construct n :
  (- 2 ^ 31 <= n < 2 ^ 31 -> normal (of_int n) /\ sval (of_int n) = n) /\
  (- 2 ^ 63 <= n < 2 ^ 63 -> normal (from_signed n) /\ sval (from_signed n) = n) /\
  (0 <= n < 2 ^ 64 -> normal (from_unsigned n) /\ sval (from_unsigned n) = n).
Proof.
  split; [exact (of_int_correct n)|]. split; [exact (from_signed_correct n)|exact (from_unsigned_correct n)].
Qed.
Print Assumptions C08_construct.
Example C08_construct_ex : from_signed (- 2 ^ 63) = [0; 2147483648] /\
  from_unsigned (2 ^ 63) = [0; 2147483648; 0] /\ from_signed (-1) = [4294967295].
Proof. split; [|split]; vm_compute; reflexivity. Qed.

Theorem C08_int_val d : normal d ->
  int_val d = (if (- 2 ^ 31 <=? sval d) && (sval d <? 2 ^ 31) then Some (sval d) else None) /\
  uint_val d = (if (0 <=? sval d) && (sval d <? 2 ^ 32) then Some (sval d) else None).
Proof. intros N. split; [exact (int_val_correct d N)|exact (uint_val_correct d N)]. Qed.
Print Assumptions C08_int_val.
Example C08_int_val_ex : normal [4294967295; 0] /\ int_val [4294967295; 0] = None /\
  uint_val [4294967295; 0] = Some 4294967295 /\ int_val [2147483648] = Some (- 2 ^ 31).
Proof. split; [norm|]. split; [|split]; vm_compute; reflexivity. Qed.

Theorem C08_long_val d : normal d ->
  long_val d = (if (- 2 ^ 63 <=? sval d) && (sval d <? 2 ^ 63) then Some (sval d) else None) /\
  ulong_val d = (if (0 <=? sval d) && (sval d <? 2 ^ 64) then Some (sval d) else None).
Proof. intros N. split; [exact (long_val_correct d N)|exact (ulong_val_correct d N)]. Qed.
Print Assumptions C08_long_val.
Example C08_long_val_ex : normal [5; 4294967295; 0] /\ long_val [5; 4294967295; 0] = None /\
  ulong_val [5; 4294967295; 0] = Some (2 ^ 64 - 2 ^ 32 + 5) /\
  long_val [0; 2147483648] = Some (- 2 ^ 63).
Proof. split; [norm|]. split; [|split]; vm_compute; reflexivity. Qed.

Theorem C08_short_val d : normal d ->
  convert 15 d = (if (- 2 ^ 15 <=? sval d) && (sval d <? 2 ^ 15) then Some (sval d) else None).
Proof. exact (convert_short_correct d). Qed.
Print Assumptions C08_short_val.
Example C08_short_val_ex : normal [4294934528] /\ convert 15 [4294934528] = Some (-32768) /\
  convert 15 [32768] = None.
Proof. split; [norm|]. split; vm_compute; reflexivity. Qed.

(** ** C14: aliasing.  [a += a] loses the carry into a new digit when the
    operands of [xor] are evaluated from left to right. *)
Theorem C14_add_self_refuted : exists d, normal d /\ sval (add_self true d) <> 2 * sval d.
Proof. exists [1073741824]. split; [norm|]. vm_compute. discriminate. Qed.
Print Assumptions C14_add_self_refuted.

(** ** C15 *)
Theorem C15_power_exact d e : normal d ->
  normal (power d e) /\ sval (power d e) = sval d ^ Z.of_nat e.
Proof. exact (power_correct d e). Qed.
Print Assumptions C15_power_exact.
Example C15_power_ex : normal [4294967295; 4294967294] /\
  power [4294967295; 4294967294] 3 = [4294967295; 4294967292; 4294967292; 4294967294] /\
  (sval [4294967295; 4294967294]) ^ 3 = - (2 ^ 32 + 1) ^ 3.
Proof. split; [norm|]. split; vm_compute; reflexivity. Qed.
