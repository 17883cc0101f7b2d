(** Properties C31 (ring operations), C32 (upward division), C33 (safe
    arithmetic), C54 (comparison), C55 (state after an overflow). *)

From Coq Require Import List Arith Bool ZArith Lia.
From Verif Require Import VecModel PolyModel PolySpec PolyProofs PolyDiv PolySafe.
Import ListNotations.
Open Scope Z_scope.

(** decide [normal] and [fits] on examples *)
Ltac nrm := first [left; reflexivity | right; vm_compute; discriminate].
Lemma fits_dec w p : forallb (fun x => (0 <=? x) && (x <? 2 ^ w)) p = true -> 0 < 2 ^ w -> fits w p.
Proof.
  intros H W i. destruct (Nat.lt_ge_cases i (length p)) as [L|L]; [|rewrite cf_ge by exact L; lia].
  rewrite forallb_forall in H. specialize (H _ (nth_In p 0 L)). apply andb_true_iff in H. unfold cf. lia.
Qed.
Ltac fit := apply fits_dec; reflexivity.

(** ** C31 *)
(** A polynomial that respects the class invariant is determined by its coefficients. *)
Theorem C31_determined p q : normal p -> normal q -> (forall i, cf p i = cf q i) -> p = q.
Proof. exact (normal_ext p q). Qed.
Print Assumptions C31_determined.
Example C31_determined_ex : normal [1; 0; 2] /\ ~ normal [1; 0; 2; 0] /\ forall i, cf [1; 0; 2] i = cf [1; 0; 2; 0] i.
Proof.
  split; [nrm|]. split; [intros [H|H]; [discriminate|apply H; reflexivity]|]. intros [|[|[|[|[|i]]]]]; reflexivity.
Qed.

Theorem C31_coef p i : coef p i = cf p i.
Proof. exact (coef_cf p i). Qed.
Print Assumptions C31_coef.
Example C31_coef_ex : coef [1; 0; 2] 2 = 2 /\ coef [1; 0; 2] 7 = 0.
Proof. split; reflexivity. Qed.

Theorem C31_constant c : normal (constant c) /\ forall i, cf (constant c) i = if (i =? 0)%nat then c else 0.
Proof. exact (constant_correct c). Qed.
Print Assumptions C31_constant.
Example C31_constant_ex : constant 0 = [] /\ constant (-3) = [-3].
Proof. split; reflexivity. Qed.

Theorem C31_monomial d c : c <> 0 ->
  exists r, monomial d c = Some r /\ normal r /\ forall i, cf r i = if (i =? d)%nat then c else 0.
Proof. exact (monomial_correct d c). Qed.
Print Assumptions C31_monomial.
Example C31_monomial_ex : monomial 3 5 = Some [0; 0; 0; 5].
Proof. reflexivity. Qed.

Theorem C31_shift d q : normal q -> normal (shifted d q) /\ forall i, cf (shifted d q) i = shift d (cf q) i.
Proof. exact (shifted_correct d q). Qed.
Print Assumptions C31_shift.
Example C31_shift_ex : normal [4; 5] /\ shifted 2 [4; 5] = [0; 0; 4; 5] /\ shifted 2 [] = [].
Proof. split; [nrm|]. split; reflexivity. Qed.

(** The argument [None] stands for the object itself. *)
Theorem C31_plus_assign p q : normal p ->
  exists r, plus_assign p q = Some r /\ normal r /\
    forall i, cf r i = cf p i + cf (match q with Some q => q | None => p end) i.
Proof. exact (plus_assign_correct p q). Qed.
Print Assumptions C31_plus_assign.
Example C31_plus_assign_ex : normal [1; 2; 3] /\ plus_assign [1; 2; 3] (Some [0; 1; -3]) = Some [1; 3] /\
  plus_assign [1] (Some [-1; 0; 4]) = Some [0; 0; 4] /\ plus_assign [1; 2] None = Some [2; 4].
Proof. split; [nrm|]. repeat split. Qed.

Theorem C31_minus_assign p q : normal p ->
  exists r, minus_assign p q = Some r /\ normal r /\
    forall i, cf r i = cf p i - cf (match q with Some q => q | None => p end) i.
Proof. exact (minus_assign_correct p q). Qed.
Print Assumptions C31_minus_assign.
Example C31_minus_assign_ex : normal [1; 2; 3] /\ minus_assign [1; 2; 3] (Some [0; 1; 3]) = Some [1; 1] /\
  minus_assign [1; 2] None = Some [].
Proof. split; [nrm|]. repeat split. Qed.

Theorem C31_subtract_from p q :
  exists r, subtract_from p q = Some r /\ normal r /\
    forall i, cf r i = cf (match q with Some q => q | None => p end) i - cf p i.
Proof. exact (subtract_from_correct p q). Qed.
Print Assumptions C31_subtract_from.
Example C31_subtract_from_ex : subtract_from [1; 2; 3] (Some [5]) = Some [4; -2; -3] /\
  subtract_from [1] (Some [5; 0; 7]) = Some [4; 0; 7] /\ subtract_from [1; 2] (Some [5; 2]) = Some [4].
Proof. repeat split. Qed.

Theorem C31_scale p c : normal p -> exists r, scale p c = Some r /\ normal r /\ forall i, cf r i = c * cf p i.
Proof. exact (scale_correct p c). Qed.
Print Assumptions C31_scale.
Example C31_scale_ex : normal [1; 2; 3] /\ scale [1; 2; 3] (-2) = Some [-2; -4; -6] /\ scale [1; 2] 0 = Some [].
Proof. split; [nrm|]. split; reflexivity. Qed.

Theorem C31_divide p c : normal p ->
  match divide p c with
  | Done r => c <> 0 /\ normal r /\ forall i, cf p i = c * cf r i
  | Threw _ => c = 0 \/ exists i, ~ (c | cf p i)
  | Undefined => False
  end.
Proof. exact (divide_correct p c). Qed.
Print Assumptions C31_divide.
Example C31_divide_ex : normal [4; -6; 2] /\ divide [4; -6; 2] (-2) = Done [-2; 3; -1] /\
  (exists s, divide [4; -6; 3] 2 = Threw s).
Proof. split; [nrm|]. split; [reflexivity|]. eexists. reflexivity. Qed.

Theorem C31_mult p q : normal p -> normal q ->
  exists r, mult p q = Some r /\ normal r /\ forall k, cf r k = conv (cf p) (cf q) k.
Proof. exact (mult_correct p q). Qed.
Print Assumptions C31_mult.
Example C31_mult_ex : normal [1; 1] /\ normal [1; -1; 2] /\ mult [1; 1] [1; -1; 2] = Some [1; 0; 1; 2].
Proof. split; [nrm|]. split; [nrm|reflexivity]. Qed.

Theorem C31_plus p q : normal p -> normal q ->
  exists r, plus p q = Some r /\ normal r /\ forall i, cf r i = cf p i + cf q i.
Proof. exact (plus_correct p q). Qed.
Print Assumptions C31_plus.
Example C31_plus_ex : normal [1] /\ normal [2; 3] /\ plus [1] [2; 3] = Some [3; 3].
Proof. split; [nrm|]. split; [nrm|reflexivity]. Qed.

Theorem C31_minus p q : normal p -> normal q ->
  exists r, minus p q = Some r /\ normal r /\ forall i, cf r i = cf p i - cf q i.
Proof. exact (minus_correct p q). Qed.
Print Assumptions C31_minus.
Example C31_minus_ex : normal [1] /\ normal [2; 3] /\ minus [1] [2; 3] = Some [-1; -3] /\ minus [2; 3] [1; 3] = Some [1].
Proof. split; [nrm|]. split; [nrm|]. split; reflexivity. Qed.

Theorem C31_negate p : normal p -> exists r, negate p = Some r /\ normal r /\ forall i, cf r i = - cf p i.
Proof. exact (negate_correct p). Qed.
Print Assumptions C31_negate.
Example C31_negate_ex : normal [1; 0; -2] /\ negate [1; 0; -2] = Some [-1; 0; 2].
Proof. split; [nrm|reflexivity]. Qed.

(** ** C32 *)
(** The quotient of a rising division is determined by the terms up to its degree. *)
Theorem C32_quotient_unique c e f g m : (0 < e)%nat ->
  (forall k, (k <= m)%nat -> times_1_plus c e f k = times_1_plus c e g k) -> forall k, (k <= m)%nat -> f k = g k.
Proof. exact (quotient_unique c e f g m). Qed.
Print Assumptions C32_quotient_unique.
Example C32_quotient_unique_ex : map (times_1_plus 1 2 (cf [1; 2; 3])) [0; 1; 2; 3; 4]%nat = [1; 2; 4; 2; 3].
Proof. reflexivity. Qed.

Theorem C32_up_remainder p c d : (length p <= d + 1)%nat ->
  exists r, up_remainder p c d = Some r /\
  exists f, (forall k, (d <= k)%nat -> f k = 0) /\
    forall k, cf p k = times_1_plus c 1 f k + (if (k =? d)%nat then r else 0).
Proof. exact (up_remainder_correct p c d). Qed.
Print Assumptions C32_up_remainder.
Example C32_up_remainder_ex : up_remainder [1; 5; 7] 2 2 = Some 1 /\ up_remainder [1; 5; 6] 2 3 = Some 0.
Proof. split; reflexivity. Qed.

Theorem C32_factor_by_1_plus_q p d : normal p -> (length p <= d + 1)%nat ->
  exists q r, factor_by_1_plus_q p d = Some (q, r) /\ normal q /\ (length q <= d)%nat /\
    forall k, cf p k = times_1_plus 1 1 (cf q) k + (if (k =? d)%nat then r else 0).
Proof. exact (factor_1_correct p d). Qed.
Print Assumptions C32_factor_by_1_plus_q.
Example C32_factor_by_1_plus_q_ex : normal [1; 3; 4; 2] /\ factor_by_1_plus_q [1; 3; 4; 2] 3 = Some ([1; 2; 2], 0) /\
  factor_by_1_plus_q [1; 3; 4; 2] 4 = Some ([1; 2; 2], 0) /\ factor_by_1_plus_q [1; 3] 1 = Some ([1], 2).
Proof. split; [nrm|]. repeat split. Qed.

Theorem C32_factor_by_1_plus_q_to_the p k d : normal p -> (length p <= d + 1)%nat -> (1 <= k <= d + 1)%nat ->
  exists q r, factor_by_1_plus_q_to_the p k d = Some (q, r) /\ normal q /\ (length q + k <= d + 1)%nat /\
    (forall i, (i + k <= d)%nat -> cf p i = times_1_plus 1 k (cf q) i) /\
    r = cf p d - times_1_plus 1 k (cf q) d.
Proof. exact (factor_k_correct p k d). Qed.
Print Assumptions C32_factor_by_1_plus_q_to_the.
Example C32_factor_by_1_plus_q_to_the_ex : normal [1; 2; 3; 4; 5] /\
  factor_by_1_plus_q_to_the [1; 2; 3; 4; 5] 2 4 = Some ([1; 2; 2], 3) /\
  factor_by_1_plus_q_to_the [1; 2; 3] 3 4 = Some ([1; 2], -2).
Proof. split; [nrm|]. repeat split. Qed.

Theorem C32_factor_exact p s k d : normal p -> normal s -> (length s + k <= d + 1)%nat -> (1 <= k)%nat ->
  (forall i, cf p i = times_1_plus 1 k (cf s) i) -> factor_by_1_plus_q_to_the p k d = Some (s, 0).
Proof. exact (factor_k_exact p s k d). Qed.
Print Assumptions C32_factor_exact.
Example C32_factor_exact_ex : normal [1; 2; 4; 2; 3] /\ normal [1; 2; 3] /\
  factor_by_1_plus_q_to_the [1; 2; 4; 2; 3] 2 5 = Some ([1; 2; 3], 0).
Proof. split; [nrm|]. split; [nrm|reflexivity]. Qed.

(** Without the bound on k, which the function does not check, an index before the vector is used. *)
Theorem C32_factor_out_of_range p k d : normal p -> (0 < length p <= d + 1)%nat -> (d + 1 < k)%nat ->
  factor_by_1_plus_q_to_the p k d = None.
Proof. exact (factor_k_undefined p k d). Qed.
Print Assumptions C32_factor_out_of_range.
Example C32_factor_out_of_range_ex : normal [1; 1] /\ factor_by_1_plus_q_to_the [1; 1] 3 1 = None.
Proof. split; [nrm|reflexivity]. Qed.

(** ** C33 *)
Theorem C33_safe_add w a b : safe_add w a b = if a + b <? 2 ^ w then Some (a + b) else None.
Proof. exact (safe_add_spec w a b). Qed.
Print Assumptions C33_safe_add.
Example C33_safe_add_ex : safe_add 8 200 55 = Some 255 /\ safe_add 8 200 56 = None.
Proof. split; reflexivity. Qed.

Theorem C33_safe_multiply w a b : 0 <= a -> 0 <= b < 2 ^ w ->
  safe_multiply w a b = if a * b <? 2 ^ w then Some (a * b) else None.
Proof. exact (safe_multiply_spec w a b). Qed.
Print Assumptions C33_safe_multiply.
Example C33_safe_multiply_ex : safe_multiply 8 15 17 = Some 255 /\ safe_multiply 8 16 16 = None.
Proof. split; reflexivity. Qed.

Theorem C33_safeAdd_mult w p q d c :
  let q0 := match q with Some q => q | None => p end in
  fits w p -> fits w q0 -> normal p -> normal q0 -> 0 <= c < 2 ^ w ->
  match safeAdd_mult w p q d c with
  | Done r => normal r /\ (forall i, cf r i = cf p i + c * shift d (cf q0) i) /\
              (forall i, cf p i + c * shift d (cf q0) i < 2 ^ w)
  | Threw _ => exists i, 2 ^ w <= cf p i + c * shift d (cf q0) i
  | Undefined => False
  end.
Proof. exact (safeAdd_mult_correct w p q d c). Qed.
Print Assumptions C33_safeAdd_mult.
Example C33_safeAdd_mult_ex : fits 8 [1; 2; 3] /\ normal [1; 2; 3] /\
  safeAdd_mult 8 [1; 2; 3] None 1 80 = Done [1; 82; 163; 240] /\
  safeAdd_mult 8 [1; 2; 3] (Some [1; 1]) 4 5 = Done [1; 2; 3; 0; 5; 5] /\
  exists s, safeAdd_mult 8 [1; 2; 3] None 0 85 = Threw s.
Proof. split; [fit|]. split; [nrm|]. split; [reflexivity|]. split; [reflexivity|]. eexists. reflexivity. Qed.

Theorem C33_safeAdd w p q d :
  let q0 := match q with Some q => q | None => p end in
  fits w p -> fits w q0 -> normal p -> normal q0 ->
  match safeAdd w p q d with
  | Done r => normal r /\ (forall i, cf r i = cf p i + shift d (cf q0) i) /\
              (forall i, cf p i + shift d (cf q0) i < 2 ^ w)
  | Threw _ => exists i, 2 ^ w <= cf p i + shift d (cf q0) i
  | Undefined => False
  end.
Proof. exact (safeAdd_correct w p q d). Qed.
Print Assumptions C33_safeAdd.
Example C33_safeAdd_ex : fits 8 [1; 2; 3] /\ normal [1; 2; 3] /\
  safeAdd 8 [1; 2; 3] None 1 = Done [1; 3; 5; 3] /\ safeAdd 8 [1; 2; 3] None 0 = Done [2; 4; 6] /\
  exists s, safeAdd 8 [1; 200] (Some [56]) 1 = Threw s.
Proof. split; [fit|]. split; [nrm|]. split; [reflexivity|]. split; [reflexivity|]. eexists. reflexivity. Qed.

Theorem C33_safeSubtract_mult w p q d c :
  let q0 := match q with Some q => q | None => p end in
  fits w p -> fits w q0 -> normal p -> normal q0 -> 0 <= c < 2 ^ w ->
  (forall i, c * shift d (cf q0) i <= cf p i) ->
  exists r, safeSubtract_mult w p q d c = Done r /\ normal r /\ forall i, cf r i = cf p i - c * shift d (cf q0) i.
Proof. exact (safeSubtract_mult_correct w p q d c). Qed.
Print Assumptions C33_safeSubtract_mult.
Example C33_safeSubtract_mult_ex : fits 8 [1; 200; 90] /\ normal [1; 200; 90] /\
  safeSubtract_mult 8 [1; 200; 90] (Some [60; 30]) 1 3 = Done [1; 20].
Proof. split; [fit|]. split; [nrm|reflexivity]. Qed.

Theorem C33_safeSubtract w p q d :
  let q0 := match q with Some q => q | None => p end in
  fits w p -> fits w q0 -> normal p -> normal q0 ->
  (forall i, shift d (cf q0) i <= cf p i) ->
  exists r, safeSubtract w p q d = Done r /\ normal r /\ forall i, cf r i = cf p i - shift d (cf q0) i.
Proof. exact (safeSubtract_correct w p q d). Qed.
Print Assumptions C33_safeSubtract.
Example C33_safeSubtract_ex : fits 8 [1; 200; 90] /\ normal [1; 200; 90] /\
  safeSubtract 8 [1; 200; 90] (Some [60; 30]) 1 = Done [1; 140; 60] /\ safeSubtract 8 [1; 200; 90] None 0 = Done [].
Proof. split; [fit|]. split; [nrm|]. split; reflexivity. Qed.

Theorem C33_safeDivide p c : normal p -> 0 < c -> (forall i, (c | cf p i)) ->
  exists r, safeDivide p c = Some r /\ normal r /\ forall i, cf p i = c * cf r i.
Proof. exact (safeDivide_correct p c). Qed.
Print Assumptions C33_safeDivide.
Example C33_safeDivide_ex : normal [4; 0; 6] /\ safeDivide [4; 0; 6] 2 = Some [2; 0; 3].
Proof. split; [nrm|reflexivity]. Qed.

(** The quotient [s] may be one of the full size of [p], in which case the
    product (1+q)s has one more term than [p]. *)
Theorem C33_safe_quotient_by_1_plus_q w p s : fits w p -> normal p -> normal s -> fits w s -> (length s <= length p)%nat ->
  (forall i, (i < length p)%nat -> cf p i = times_1_plus 1 1 (cf s) i) ->
  safe_quotient_by_1_plus_q w p = Some s.
Proof. exact (safe_quotient_correct w p s). Qed.
Print Assumptions C33_safe_quotient_by_1_plus_q.
Example C33_safe_quotient_by_1_plus_q_ex : fits 8 [1; 3; 3; 1] /\ normal [1; 3; 3; 1] /\
  safe_quotient_by_1_plus_q 8 [1; 3; 3; 1] = Some [1; 2; 1] /\ safe_quotient_by_1_plus_q 8 [1; 3; 3] = Some [1; 2; 1].
Proof. split; [fit|]. split; [nrm|]. split; reflexivity. Qed.

(** ** C54 *)
Theorem C54_compare p q : compare p q = true <-> precedes p q.
Proof. exact (compare_correct p q). Qed.
Print Assumptions C54_compare.
Example C54_compare_ex : compare [9; 1] [0; 0; 1] = true /\ compare [9; 1; 1] [0; 2; 1] = true /\ compare [0; 2; 1] [9; 1; 1] = false.
Proof. repeat split. Qed.

Theorem C54_compare_strict_total p q r :
  (compare p p = false) /\ (compare p q = true -> compare q r = true -> compare p r = true) /\
  (compare p q = true \/ p = q \/ compare q p = true).
Proof.
  rewrite !compare_correct. split; [|split; [apply precedes_trans|apply precedes_total]].
  destruct (compare p p) eqn:E; [|reflexivity]. apply compare_correct in E. destruct (precedes_irrefl p E).
Qed.
Print Assumptions C54_compare_strict_total.
Example C54_compare_strict_total_ex : compare [3; 1] [3; 1] = false /\ compare [2; 1] [3; 1] = true /\ compare [3; 1] [2; 1] = false.
Proof. repeat split. Qed.

Theorem C54_equal p q : peq p q = true <-> p = q.
Proof. exact (peq_correct p q). Qed.
Print Assumptions C54_equal.
Example C54_equal_ex : peq [1; 2] [1; 2] = true /\ peq [1; 2] [1] = false.
Proof. split; reflexivity. Qed.

Theorem C54_less p q : pless p q = true <-> lex p q.
Proof. exact (pless_correct p q). Qed.
Print Assumptions C54_less.
Example C54_less_ex : pless [1; 5] [1; 6] = true /\ pless [1] [1; 0] = true /\ pless [2] [1; 7] = false.
Proof. repeat split. Qed.

Theorem C54_entry_differs p e : entry_differs p e = true <-> p <> e.
Proof. exact (entry_differs_correct p e). Qed.
Print Assumptions C54_entry_differs.
Example C54_entry_differs_ex : entry_differs [1; 2] [1; 3] = true /\ entry_differs [1; 2] [1; 2] = false /\ entry_differs [] [] = false.
Proof. repeat split. Qed.

Theorem C54_multi_term p : normal p -> multi_term p = true <-> exists i j, i <> j /\ cf p i <> 0 /\ cf p j <> 0.
Proof. exact (multi_term_correct p). Qed.
Print Assumptions C54_multi_term.
Example C54_multi_term_ex : normal [0; 0; 3] /\ multi_term [0; 0; 3] = false /\ multi_term [0; 1; 3] = true.
Proof. split; [nrm|]. split; reflexivity. Qed.

(** ** C55: after NumericOverflow the object can have a zero leading
    coefficient. The vector is resized before the highest term is computed. *)
Theorem C55_throw_keeps_invariant_refuted :
  exists w p q d c s, fits w p /\ fits w q /\ normal p /\ normal q /\ 0 <= c < 2 ^ w /\
    safeAdd_mult w p (Some q) d c = Threw s /\ ~ normal s.
Proof.
  exists 8, [1], [0; 0; 16], 0%nat, 16, [1; 0; 0].
  split; [fit|]. split; [fit|]. split; [nrm|]. split; [nrm|]. split; [lia|]. split; [vm_compute; reflexivity|].
  intros [H|H]; [discriminate|]. apply H. reflexivity.
Qed.
Print Assumptions C55_throw_keeps_invariant_refuted.
