(** Properties C17-C20 and C53: machine-word arithmetic, class Rational and
    Split_integer of arithmetic.h / arithmetic.cpp. *)

From Coq Require Import ZArith List Bool Lia.
From Verif Require Import BitsSpec ArithModel ArithSpec ArithProofs ArithRat.
Open Scope Z_scope.

(** * C17: floor division *)
Theorem C17_divide a b : - 2 ^ 63 <= a < 2 ^ 63 -> 0 < b < 2 ^ 64 -> divide a (s64 b) = Some (a / b).
Proof. exact (divide_exact a b). Qed.
Print Assumptions C17_divide.
Example C17_divide_ex : divide (- 2 ^ 63) (s64 (2 ^ 64 - 1)) = Some (-1) /\ divide (-7) 2 = Some (-4).
Proof. vm_compute. auto. Qed.

(** The remainder is delivered through a signed result type: exact when it fits. *)
Theorem C17_remainder a b : - 2 ^ 63 <= a < 2 ^ 63 -> 0 < b < 2 ^ 64 ->
  remainder a (s64 b) = Some (s64 (a mod b)).
Proof. exact (remainder_exact a b). Qed.
Print Assumptions C17_remainder.
Example C17_remainder_ex : remainder (-7) 3 = Some 2.
Proof. vm_compute. reflexivity. Qed.

Theorem C17_division_identity a b : - 2 ^ 63 <= a < 2 ^ 63 -> 0 < b <= 2 ^ 63 ->
  exists q r, divide a (s64 b) = Some q /\ remainder a (s64 b) = Some r /\ a = q * b + r /\ 0 <= r < b.
Proof.
  intros Ha Hb. exists (a / b), (a mod b).
  pose proof (Z.mod_pos_bound a b ltac:(lia)) as M.
  rewrite divide_exact, remainder_exact by lia. rewrite s64_small by lia.
  split; [reflexivity|]. split; [reflexivity|]. split; [|exact M].
  rewrite (Z.div_mod a b) at 1 by lia. ring.
Qed.
Print Assumptions C17_division_identity.
Example C17_division_identity_ex : divide (- 2 ^ 63) 10 = Some (-922337203685477581) /\ remainder (- 2 ^ 63) 10 = Some 2.
Proof. vm_compute. auto. Qed.

(** * C18: gcd and lcm *)
Theorem C18_unsigned_gcd a b : 0 <= a -> 0 < b < 2 ^ 64 -> unsigned_gcd a b = Some (Z.gcd a b).
Proof. exact (unsigned_gcd_correct a b). Qed.
Print Assumptions C18_unsigned_gcd.
Example C18_unsigned_gcd_ex : unsigned_gcd 12200160415121876738 7540113804746346429 = Some 1.
Proof. vm_compute. reflexivity. Qed.

Theorem C18_gcd_signed a b : sint a -> 0 < b < 2 ^ 64 -> gcd_s a b = Some (Z.gcd a b).
Proof. exact (gcd_s_correct a b). Qed.
Print Assumptions C18_gcd_signed.
Example C18_gcd_signed_ex : sint (-84) /\ gcd_s (-84) 30 = Some 6.
Proof. split; [unfold sint; lia|vm_compute; reflexivity]. Qed.

Theorem C18_lcm a b : 0 < a < 2 ^ 64 -> 0 <= b < 2 ^ 64 -> Z.lcm a b < 2 ^ 64 ->
  exists m, lcm a b = Some (Z.lcm a b, Z.gcd a b, m) /\
    (a | m) /\ (b | m - Z.gcd a b) /\ 0 <= m /\ (0 < b -> m <= Z.lcm a b).
Proof. exact (lcm_correct a b). Qed.
Print Assumptions C18_lcm.
Example C18_lcm_ex : lcm 84 30 = Some (420, 6, 336) /\ 336 mod 30 = 6.
Proof. vm_compute. auto. Qed.

(** The comment in arithmetic.cpp:50-58 promises [gcd==mult_a%b] and [mult_a<lcm];
    both can fail literally (only the congruence holds). *)
Theorem C18_lcm_comment_refuted : exists a b l g m,
  0 < a /\ 0 < b /\ lcm a b = Some (l, g, m) /\ m mod b <> g.
Proof. exists 6, 3, 6, 3, 0. vm_compute. repeat split; discriminate. Qed.
Print Assumptions C18_lcm_comment_refuted.

(** * C19: Rational *)
Theorem C19_normalize n d : sint n -> 0 < d < 2 ^ 64 -> yields (rat_make n d) n d.
Proof. exact (normalize_correct n d). Qed.
Print Assumptions C19_normalize.
Example C19_normalize_ex : rat_make (-84) 30 = Some (mkr (-14) 5) /\ rat_make 0 (2 ^ 64 - 1) = Some (mkr 0 1).
Proof. vm_compute. auto. Qed.

Theorem C19_add r q : lowest r -> lowest q ->
  let l := Z.lcm (rden r) (rden q) in
  l < 2 ^ 64 -> sint (rnum r * (l / rden r)) -> sint (rnum q * (l / rden q)) ->
  sint (rnum r * (l / rden r) + rnum q * (l / rden q)) ->
  yields (rat_add r q) (rnum r * rden q + rnum q * rden r) (rden r * rden q).
Proof. exact (rat_add_correct r q). Qed.
Print Assumptions C19_add.
Example C19_add_ex : lowest (mkr (-5) 6) /\ lowest (mkr 3 10) /\ rat_add (mkr (-5) 6) (mkr 3 10) = Some (mkr (-8) 15).
Proof. unfold lowest, sint. cbn [rnum rden]. repeat split; try lia; vm_compute; auto. Qed.

Theorem C19_sub r q : lowest r -> lowest q ->
  let l := Z.lcm (rden r) (rden q) in
  l < 2 ^ 64 -> sint (rnum r * (l / rden r)) -> sint (rnum q * (l / rden q)) ->
  sint (rnum r * (l / rden r) - rnum q * (l / rden q)) ->
  yields (rat_sub r q) (rnum r * rden q - rnum q * rden r) (rden r * rden q).
Proof. exact (rat_sub_correct r q). Qed.
Print Assumptions C19_sub.
Example C19_sub_ex : rat_sub (mkr 1 6) (mkr 3 10) = Some (mkr (-2) 15).
Proof. vm_compute. reflexivity. Qed.

(** Full statement for the product: as [C19_mul_partial] without the two
    sign-or-coprime hypotheses.  It is false (next theorem): operator* divides a
    negative numerator by an unsigned gcd. *)
Theorem C19_mul_partial r q : lowest r -> lowest q ->
  let d := Z.gcd (rnum r) (rden q) in let e := Z.gcd (rnum q) (rden r) in
  (0 <= rnum r \/ d = 1) -> (0 <= rnum q \/ e = 1) ->
  sint (rnum r / d * (rnum q / e)) -> rden r / e * (rden q / d) < 2 ^ 64 ->
  yields (rat_mul r q) (rnum r * rnum q) (rden r * rden q).
Proof. exact (rat_mul_correct_partial r q). Qed.
Print Assumptions C19_mul_partial.
Example C19_mul_partial_ex : rat_mul (mkr 6 35) (mkr 49 9) = Some (mkr 14 15) /\ rat_mul (mkr (-2) 3) (mkr (-5) 7) = Some (mkr 10 21).
Proof. vm_compute. auto. Qed.

Theorem C19_mul_refuted : exists r q, lowest r /\ lowest q /\
  ~ yields (rat_mul r q) (rnum r * rnum q) (rden r * rden q).
Proof.
  exists (mkr (-2) 3), (mkr 1 2). unfold lowest, sint. cbn [rnum rden].
  split; [repeat split; lia|]. split; [repeat split; lia|].
  intros (s & E & _ & V). vm_compute in E. inversion E; subst s; clear E. cbn [rnum rden] in V. lia.
Qed.
Print Assumptions C19_mul_refuted.

Theorem C19_div r q : lowest r -> lowest q -> rnum q <> 0 ->
  let d := Z.gcd (rden r) (rden q) in let g := Z.gcd (rnum r) (rnum q) in
  sint (rnum r / g * (rden q / d)) -> rden r / d * (Z.abs (rnum q) / g) < 2 ^ 64 ->
  yields (rat_div r q) (rnum r * rden q) (rden r * rnum q).
Proof. exact (rat_div_correct r q). Qed.
Print Assumptions C19_div.
Example C19_div_ex : rat_div (mkr (-2) 3) (mkr (-4) 9) = Some (mkr 3 2).
Proof. vm_compute. reflexivity. Qed.

Theorem C19_mod r q : lowest r -> lowest q -> rnum q <> 0 ->
  let d := Z.gcd (rden r) (rden q) in
  sint (rnum r * (rden q / d)) -> rden r / d * Z.abs (rnum q) < 2 ^ 63 -> rden r * (rden q / d) < 2 ^ 64 ->
  yields (rat_mod r q) ((rnum r * rden q) mod (rden r * Z.abs (rnum q))) (rden r * rden q).
Proof. exact (rat_mod_correct r q). Qed.
Print Assumptions C19_mod.
Example C19_mod_ex : rat_mod (mkr (-7) 6) (mkr (-3) 10) = Some (mkr 1 30).
Proof. vm_compute. reflexivity. Qed.

Theorem C19_mul_int r n : lowest r -> sint n ->
  sint (rnum r * (n / Z.gcd (rden r) n)) -> yields (rat_mul_n r n) (rnum r * n) (rden r).
Proof. exact (rat_mul_n_correct r n). Qed.
Print Assumptions C19_mul_int.
Example C19_mul_int_ex : rat_mul_n (mkr 5 12) (-8) = Some (mkr (-10) 3).
Proof. vm_compute. reflexivity. Qed.

Theorem C19_div_int r n : lowest r -> sint n -> n <> 0 ->
  rden r * (Z.abs n / Z.gcd (rnum r) n) < 2 ^ 64 -> yields (rat_div_n r n) (rnum r) (rden r * n).
Proof. exact (rat_div_n_correct r n). Qed.
Print Assumptions C19_div_int.
Example C19_div_int_ex : rat_div_n (mkr (-10) 3) (-8) = Some (mkr 5 12).
Proof. vm_compute. reflexivity. Qed.

Theorem C19_mod_int r n : lowest r -> sint n -> n <> 0 -> rden r * Z.abs n < 2 ^ 63 ->
  rat_mod_n r n = Some (mkr (rnum r mod (rden r * Z.abs n)) (rden r))
  /\ lowest (mkr (rnum r mod (rden r * Z.abs n)) (rden r)).
Proof. exact (rat_mod_n_correct r n). Qed.
Print Assumptions C19_mod_int.
Example C19_mod_int_ex : rat_mod_n (mkr (-10) 3) (-2) = Some (mkr 2 3).
Proof. vm_compute. reflexivity. Qed.

Theorem C19_mod1 r : lowest r -> rden r <= 2 ^ 63 ->
  rat_mod1 r = Some (mkr (rnum r mod rden r) (rden r)) /\ lowest (mkr (rnum r mod rden r) (rden r)).
Proof. exact (rat_mod1_correct r). Qed.
Print Assumptions C19_mod1.
Example C19_mod1_ex : rat_mod1 (mkr (-10) 3) = Some (mkr 2 3).
Proof. vm_compute. reflexivity. Qed.

Theorem C19_floor r : sint (rnum r) -> 0 < rden r < 2 ^ 64 -> rat_floor r = Some (rnum r / rden r).
Proof. exact (rat_floor_correct r). Qed.
Print Assumptions C19_floor.
Theorem C19_ceil r : sint (rnum r) -> 0 < rden r < 2 ^ 64 -> rat_ceil r = Some (- (- rnum r / rden r)).
Proof. exact (rat_ceil_correct r). Qed.
Print Assumptions C19_ceil.
Theorem C19_quotient r n : sint (rnum r) -> 0 < rden r -> 0 < n -> n * rden r < 2 ^ 64 ->
  rat_quotient r n = Some (rnum r / (n * rden r)).
Proof. exact (rat_quotient_correct r n). Qed.
Print Assumptions C19_quotient.
Example C19_floor_ex : rat_floor (mkr (-10) 3) = Some (-4) /\ rat_ceil (mkr (-10) 3) = Some (-3) /\ rat_quotient (mkr (-10) 3) 2 = Some (-2).
Proof. vm_compute. auto. Qed.

Theorem C19_add_int r n : lowest r -> sint (rnum r + n * rden r) ->
  rat_add_n r n = mkr (rnum r + n * rden r) (rden r) /\ lowest (rat_add_n r n).
Proof. exact (rat_add_n_correct r n). Qed.
Print Assumptions C19_add_int.
Theorem C19_sub_int r n : lowest r -> sint (rnum r - n * rden r) ->
  rat_sub_n r n = mkr (rnum r - n * rden r) (rden r) /\ lowest (rat_sub_n r n).
Proof. exact (rat_sub_n_correct r n). Qed.
Print Assumptions C19_sub_int.
Example C19_add_int_ex : rat_add_n (mkr (-10) 3) 2 = mkr (-4) 3 /\ rat_sub_n (mkr 1 3) 2 = mkr (-5) 3.
Proof. vm_compute. auto. Qed.

Theorem C19_neg r : lowest r -> rat_neg r = Some (mkr (- rnum r) (rden r)) /\ lowest (mkr (- rnum r) (rden r)).
Proof. exact (rat_neg_correct r). Qed.
Print Assumptions C19_neg.
Theorem C19_inverse r : lowest r -> rnum r <> 0 -> rden r < 2 ^ 63 -> yields (rat_inverse r) (rden r) (rnum r).
Proof. exact (rat_inverse_correct r). Qed.
Print Assumptions C19_inverse.
Example C19_inverse_ex : rat_inverse (mkr (-10) 3) = Some (mkr (-3) 10) /\ rat_neg (mkr (-10) 3) = Some (mkr 10 3).
Proof. vm_compute. auto. Qed.

Theorem C19_power r n : lowest r -> 0 <= n < 2 ^ 31 ->
  Z.abs (rnum r) ^ n < 2 ^ 63 -> rden r ^ n < 2 ^ 64 ->
  rat_pow r n = Some (mkr (rnum r ^ n) (rden r ^ n)) /\ lowest (mkr (rnum r ^ n) (rden r ^ n)).
Proof. exact (rat_pow_correct r n). Qed.
Print Assumptions C19_power.
Theorem C19_power_negative r n : lowest r -> rnum r <> 0 -> 0 < n < 2 ^ 31 ->
  Z.abs (rnum r) ^ n < 2 ^ 64 -> rden r ^ n < 2 ^ 63 ->
  yields (rat_pow r (- n)) (rden r ^ n) (rnum r ^ n).
Proof. exact (rat_pow_neg_correct r n). Qed.
Print Assumptions C19_power_negative.
Example C19_power_ex : rat_pow (mkr (-2) 3) 5 = Some (mkr (-32) 243) /\ rat_pow (mkr (-2) 3) (-5) = Some (mkr (-243) 32).
Proof. vm_compute. auto. Qed.

Theorem C19_compare r q : sint (rnum r * rden q) -> sint (rnum q * rden r) ->
  0 < rden r < 2 ^ 64 -> 0 < rden q < 2 ^ 64 ->
  rat_eq r q = Some (rnum r * rden q =? rnum q * rden r) /\
  rat_lt r q = Some (rnum r * rden q <? rnum q * rden r) /\
  rat_le r q = Some (rnum r * rden q <=? rnum q * rden r).
Proof. intros. split; [|split]; apply rat_cmp_correct; assumption. Qed.
Print Assumptions C19_compare.
Example C19_compare_ex : rat_lt (mkr (-2) 3) (mkr (-1) 2) = Some true /\ rat_eq (mkr 2 4) (mkr 1 2) = Some true.
Proof. vm_compute. auto. Qed.

(** * C20: modular helpers *)
Theorem C20_modAdd a b n : word n -> 0 <= a < n -> 0 <= b < n -> modAdd a b n = (a + b) mod n.
Proof. exact (modAdd_correct a b n). Qed.
Print Assumptions C20_modAdd.
Example C20_modAdd_ex : modAdd (2 ^ 64 - 3) (2 ^ 64 - 5) (2 ^ 64 - 1) = 2 ^ 64 - 7.
Proof. vm_compute. reflexivity. Qed.

Theorem C20_modProd a b n : 0 <= a < n -> 0 <= b < n ->
  modProd a b n = if n <=? 2 ^ 32 then Some ((a * b) mod n) else None.
Proof. exact (modProd_correct a b n). Qed.
Print Assumptions C20_modProd.
Example C20_modProd_ex : modProd (2 ^ 32 - 1) (2 ^ 32 - 1) (2 ^ 32) = Some 1.
Proof. vm_compute. reflexivity. Qed.

Theorem C20_power x n : word x -> 0 <= n < 2 ^ 32 -> power x n = (x ^ n) mod 2 ^ 64.
Proof. exact (power_correct x n). Qed.
Print Assumptions C20_power.
Example C20_power_ex : power 3 41 = 3 ^ 41 mod 2 ^ 64 /\ power 3 41 <> 3 ^ 41 /\ power 2 10 = 1024.
Proof. vm_compute. repeat split; discriminate. Qed.

Theorem C20_signs n : exp_minus_1 n = (-1) ^ (Z.abs n) /\ exp_i (2 * n) = (-1) ^ (Z.abs n).
Proof.
  assert (P : forall k, 0 <= k -> (-1) ^ k = if Z.even k then 1 else -1).
  { intros k Hk. destruct (Z.even k) eqn:E.
    - apply Z.even_spec in E. change (-1) with (- (1)). rewrite Z.pow_opp_even by exact E. apply Z.pow_1_l. exact Hk.
    - change (-1) with (- (1)). rewrite Z.pow_opp_odd; [rewrite Z.pow_1_l by lia; reflexivity|].
      apply Z.odd_spec. rewrite <- Z.negb_even, E. reflexivity. }
  rewrite P by lia.
  assert (Ev : Z.even (Z.abs n) = Z.even n) by (destruct n; reflexivity). rewrite Ev.
  assert (R2 : (Z.rem n 2 =? 0) = Z.even n).
  { destruct (Z.eqb_spec (Z.rem n 2) 0) as [E|E].
    - apply Z.rem_divide in E; [|lia]. destruct E as [c ->]. rewrite Z.even_mul. symmetry. apply orb_true_r.
    - symmetry. apply not_true_is_false. intros C. apply Z.even_spec in C. destruct C as [c C].
      apply E. apply Z.rem_divide; [lia|]. exists c. lia. }
  split.
  - unfold exp_minus_1. rewrite R2. reflexivity.
  - unfold exp_i. replace 4 with (2 * 2) by reflexivity. rewrite Z.mul_rem_distr_l by lia.
    replace (2 * Z.rem n 2 =? 0) with (Z.rem n 2 =? 0); [rewrite R2; reflexivity|].
    destruct (Z.eqb_spec (Z.rem n 2) 0), (Z.eqb_spec (2 * Z.rem n 2) 0); lia.
Qed.
Print Assumptions C20_signs.
Example C20_signs_ex : exp_minus_1 (-3) = -1 /\ exp_i (-6) = -1 /\ exp_i 8 = 1.
Proof. vm_compute. auto. Qed.

(** * C53: Split_integer is Z[s]/(s^2-1) *)
Theorem C53_coefficients a b : split_e (split_make a b) = a /\ split_s (split_make a b) = b.
Proof. exact (conj (split_e_make a b) (split_s_make a b)). Qed.
Print Assumptions C53_coefficients.

Theorem C53_ring a b c d n :
  split_add (split_make a b) (split_make c d) = split_make (a + c) (b + d) /\
  split_sub (split_make a b) (split_make c d) = split_make (a - c) (b - d) /\
  split_neg (split_make a b) = split_make (- a) (- b) /\
  split_mul (split_make a b) (split_make c d) = split_make (a * c + b * d) (a * d + b * c) /\
  split_mul_n (split_make a b) n = split_make (a * n) (b * n) /\
  split_times_s (split_make a b) = split_mul (split_make a b) (split_make 0 1) /\
  split_times_1_s (split_make a b) = split_mul (split_make a b) (split_make 1 (-1)) /\
  split_times_1_plus_s (split_make a b) = split_mul (split_make a b) (split_make 1 1).
Proof.
  split; [apply split_add_make|]. split; [apply split_sub_make|]. split; [apply split_neg_make|].
  split; [apply split_mul_make|]. split; [apply split_mul_n_make|]. rewrite !split_mul_make.
  rewrite split_times_s_make, split_times_1_s_make, split_times_1_plus_s_make.
  repeat split; f_equal; ring.
Qed.
Print Assumptions C53_ring.
Example C53_ring_ex : split_mul (split_make 2 3) (split_make (-1) 4) = split_make 10 5 /\ split_s (split_make 10 5) = 5.
Proof. vm_compute. auto. Qed.
