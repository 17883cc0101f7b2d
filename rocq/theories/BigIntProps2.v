(** Properties C06, C09-C14 of big_int: division, bitwise operations, bit
    queries, decimal text, gcd and lcm, aliasing. *)

From Coq Require Import ZArith List Bool Lia.
From Verif Require Import BigIntModel BigIntSpec BigIntBase BigIntAdd BigIntSubFrom BigIntMul
  BigIntDiv BigIntDiv2 BigIntGcd BigIntBits BigIntBits2 BigIntBits3 BigIntText BigIntCheck.
Import ListNotations.
Open Scope Z_scope.

(** ** C06: division.  The full statement
      forall d v, normal d -> normal v -> sval v <> 0 ->
        exists q r, reduce_mod d v = Some (q, r) /\ normal q /\ normal r /\
          sval d = sval q * sval v + sval r /\ (0 <= sval r < sval v \/ sval v < sval r <= 0)
    fails for the pairs satisfying [bad_division] (positive dividend, negative
    divisor of the same length and smaller absolute value, for which the
    shortcut of bigint.cpp:552-566 is taken by mistake) and holds elsewhere. *)
Theorem C06_reduce_mod_partial d v : normal d -> normal v -> sval v <> 0 -> ~ bad_division d v ->
  exists q r, reduce_mod d v = Some (q, r) /\ normal q /\ normal r /\
    sval d = sval q * sval v + sval r /\ (0 <= sval r < sval v \/ sval v < sval r <= 0).
Proof.
  intros Nd Nv H0 Hb. destruct (reduce_mod_correct_partial d v Nd Nv H0 Hb) as (q & r & E & Nq & Nr & Vq & Vr).
  exists q, r. do 3 (split; [assumption|]). rewrite Vq, Vr. split.
  - rewrite (Z.mul_comm _ (sval v)). apply Z.div_mod, H0.
  - destruct (Z.lt_ge_cases 0 (sval v)).
    + left. apply Z.mod_pos_bound; assumption.
    + right. apply Z.mod_neg_bound. lia.
Qed.
Print Assumptions C06_reduce_mod_partial.
Example C06_reduce_mod_ex :
  normal [0; 0; 4294967295; 2147483647] /\ normal [4294967295; 0; 2147483648] /\
  sval [4294967295; 0; 2147483648] <> 0 /\
  ~ bad_division [0; 0; 4294967295; 2147483647] [4294967295; 0; 2147483648] /\
  reduce_mod [0; 0; 4294967295; 2147483647] [4294967295; 0; 2147483648] =
    Some ([0; 4294967295], [0; 4294967295]).
Proof.
  split; [norm|]. split; [norm|]. split; [vm_compute; discriminate|].
  split; [intros (_ & _ & H & _); discriminate H|]. vm_compute; reflexivity.
Qed.

Theorem C06_bad_division d v : normal d -> normal v -> bad_division d v ->
  exists q r, reduce_mod d v = Some (q, r) /\ sval q = -1 /\ sval r = sval d + sval v /\
    ~ (0 <= sval r < sval v \/ sval v < sval r <= 0).
Proof.
  intros Nd Nv Hb. destruct (reduce_mod_wrong d v Nd Nv Hb) as (q & r & E & Vq & Vr & H1 & H2).
  exists q, r. do 3 (split; [assumption|]). lia.
Qed.
Print Assumptions C06_bad_division.
Example C06_bad_division_ex : normal [5; 1] /\ normal [4294967293; 4294967294] /\
  bad_division [5; 1] [4294967293; 4294967294] /\
  sval [5; 1] = 2 ^ 32 + 5 /\ sval [4294967293; 4294967294] = - (2 ^ 32 + 3) /\
  reduce_mod [5; 1] [4294967293; 4294967294] = Some ([4294967295], [2]).
Proof. split; [norm|]. split; [norm|]. split; [vm_compute; repeat split; reflexivity|]. vm_compute; auto. Qed.

Theorem C06_reduce_mod_refuted : exists d v q r, normal d /\ normal v /\ sval v < 0 /\
  reduce_mod d v = Some (q, r) /\ 0 < sval r.
Proof.
  exists [5; 1], [4294967293; 4294967294], [4294967295], [2].
  split; [norm|]. split; [norm|]. vm_compute; auto.
Qed.
Print Assumptions C06_reduce_mod_refuted.

Theorem C06_division_by_zero d v : normal d -> normal v -> sval v = 0 ->
  reduce_mod d v = None.
Proof. exact (reduce_mod_zero d v). Qed.
Print Assumptions C06_division_by_zero.
Example C06_division_by_zero_ex : normal [3; 4] /\ normal [0] /\ sval [0] = 0 /\ reduce_mod [3; 4] [0] = None.
Proof. split; [norm|]. split; [norm|]. vm_compute; auto. Qed.

Theorem C06_quotient_remainder_partial d v : normal d -> normal v -> sval v <> 0 -> ~ bad_division d v ->
  (exists q, big_div d v = Some q /\ normal q /\ sval q = sval d / sval v) /\
  (exists r, big_mod d v = Some r /\ normal r /\ sval r = sval d mod sval v).
Proof.
  intros Nd Nv H0 Hb.
  split; [apply big_div_correct_partial | apply big_mod_correct_partial]; assumption.
Qed.
Print Assumptions C06_quotient_remainder_partial.
Example C06_quotient_remainder_ex : normal [4294967294; 4294967290] /\ normal [3; 1] /\
  sval [3; 1] <> 0 /\ ~ bad_division [4294967294; 4294967290] [3; 1] /\
  big_div [4294967294; 4294967290] [3; 1] = Some [4294967291] /\
  big_mod [4294967294; 4294967290] [3; 1] = Some [13].
Proof.
  split; [norm|]. split; [norm|]. split; [vm_compute; discriminate|].
  split; [intros (H & _); discriminate H|]. vm_compute; auto.
Qed.

(** ** C09: bitwise operations.  [Z.testbit v i] is bit i of the infinite two's
    complement expansion of v. *)
Theorem C09_and_bits d x : normal d -> normal x ->
  normal (and_assign d x) /\ and_copy d x = and_assign d x /\
  forall i, 0 <= i -> Z.testbit (sval (and_assign d x)) i = Z.testbit (sval d) i && Z.testbit (sval x) i.
Proof.
  intros Nd Nx. destruct (and_assign_correct d x Nd Nx) as [N V].
  destruct (and_assign_correct x d Nx Nd) as [N' V'].
  split; [exact N|]. split.
  - unfold and_copy. destruct (if is_negative d then _ else _); [reflexivity|].
    apply normal_unique; auto. rewrite V, V'. apply Z.land_comm.
  - intros i _. rewrite V. apply Z.land_spec.
Qed.
Print Assumptions C09_and_bits.
Example C09_and_ex : normal [5; 4294967295; 7] /\ normal [4294967284] /\
  and_assign [5; 4294967295; 7] [4294967284] = [4; 4294967295; 7].
Proof. split; [norm|]. split; [norm|]. vm_compute; reflexivity. Qed.

Theorem C09_or_bits d x : normal d -> normal x ->
  normal (or_assign d x) /\ or_copy d x = or_assign d x /\
  forall i, 0 <= i -> Z.testbit (sval (or_assign d x)) i = Z.testbit (sval d) i || Z.testbit (sval x) i.
Proof.
  intros Nd Nx. destruct (or_assign_correct d x Nd Nx) as [N V].
  destruct (or_assign_correct x d Nx Nd) as [N' V'].
  split; [exact N|]. split.
  - unfold or_copy. destruct (if is_negative d then _ else _); [reflexivity|].
    apply normal_unique; auto. rewrite V, V'. apply Z.lor_comm.
  - intros i _. rewrite V. apply Z.lor_spec.
Qed.
Print Assumptions C09_or_bits.
Example C09_or_ex : normal [5; 4294967295; 7] /\ normal [4294967284; 4294967288] /\
  or_assign [5; 4294967295; 7] [4294967284; 4294967288] = [4294967285].
Proof. split; [norm|]. split; [norm|]. vm_compute; reflexivity. Qed.

Theorem C09_xor_bits d x : normal d -> normal x ->
  normal (xor_assign d x) /\
  forall i, 0 <= i -> Z.testbit (sval (xor_assign d x)) i = xorb (Z.testbit (sval d) i) (Z.testbit (sval x) i).
Proof.
  intros Nd Nx. destruct (xor_assign_correct d x Nd Nx) as [N V].
  split; [exact N|]. intros i _. rewrite V. apply Z.lxor_spec.
Qed.
Print Assumptions C09_xor_bits.
Example C09_xor_ex : normal [5; 6; 7] /\ normal [4; 6; 7] /\ xor_assign [5; 6; 7] [4; 6; 7] = [1].
Proof. split; [norm|]. split; [norm|]. vm_compute; reflexivity. Qed.

Theorem C09_andnot_bits d x : normal d -> normal x ->
  normal (andnot_assign d x) /\ andnot_copy d x = andnot_assign d x /\
  forall i, 0 <= i ->
    Z.testbit (sval (andnot_assign d x)) i = Z.testbit (sval d) i && negb (Z.testbit (sval x) i).
Proof.
  intros Nd Nx. destruct (andnot_assign_correct d x Nd Nx) as [N V].
  split; [exact N|]. split.
  - unfold andnot_copy. destruct (if is_negative d then _ else _); [reflexivity|].
    destruct (complement_correct x Nx) as [Nc Vc].
    destruct (and_assign_correct (complement x) d Nc Nd) as [N' V'].
    apply normal_unique; auto. rewrite V, V', Vc, Z.land_comm, Z.ldiff_land.
    replace (- sval x - 1) with (Z.lnot (sval x)) by (unfold Z.lnot; lia). reflexivity.
  - intros i _. rewrite V. apply Z.ldiff_spec.
Qed.
Print Assumptions C09_andnot_bits.
Example C09_andnot_ex : normal [4294967281] /\ normal [1; 4] /\
  andnot_assign [4294967281] [1; 4] = [4294967280; 4294967291].
Proof. split; [norm|]. split; [norm|]. vm_compute; reflexivity. Qed.

Theorem C09_subset_bits d x : normal d -> normal x ->
  (bitwise_subset d x = true <->
   forall i, 0 <= i -> Z.testbit (sval d) i = true -> Z.testbit (sval x) i = true).
Proof.
  intros Nd Nx. rewrite (bitwise_subset_correct d x Nd Nx), Z.eqb_eq. split.
  - intros H i _ Hi. pose proof (Z.ldiff_spec (sval d) (sval x) i) as L.
    rewrite H, Z.bits_0, Hi in L. destruct (Z.testbit (sval x) i); [reflexivity|discriminate].
  - intros H. apply Z.bits_inj'. intros i Hi. rewrite Z.ldiff_spec, Z.bits_0.
    specialize (H i Hi). destruct (Z.testbit (sval d) i); [rewrite H by reflexivity|]; reflexivity.
Qed.
Print Assumptions C09_subset_bits.
Example C09_subset_ex : normal [4; 8] /\ normal [4294967292] /\
  bitwise_subset [4; 8] [4294967292] = true /\ bitwise_subset [4294967292] [4; 8] = false.
Proof. split; [norm|]. split; [norm|]. vm_compute; auto. Qed.

(** ** C10: bit queries *)
Theorem C10_index_of_set_bit d n : normal d -> 0 <= n ->
  (index_of_set_bit d n = -1 /\ 0 <= sval d /\ forall k, count_bits (sval d) k <= n) \/
  (0 <= index_of_set_bit d n /\ Z.testbit (sval d) (index_of_set_bit d n) = true /\
   count_bits (sval d) (Z.to_nat (index_of_set_bit d n)) = n).
Proof. exact (index_of_set_bit_correct d n). Qed.
Print Assumptions C10_index_of_set_bit.
Example C10_index_ex : normal [5; 4294967294] /\
  map (index_of_set_bit [5; 4294967294]) [0; 1; 2; 40] = [0; 2; 33; 71] /\
  index_of_set_bit [5] 2 = -1.
Proof. split; [norm|]. vm_compute; auto. Qed.

Theorem C10_bit_length d : normal d ->
  (0 <= sval d -> 0 <= bit_length d /\ sval d < 2 ^ bit_length d /\
     (0 < bit_length d -> 2 ^ (bit_length d - 1) <= sval d)) /\
  (sval d < 0 -> bit_length d < 0 /\ - 2 ^ (-1 - bit_length d) <= sval d /\
     (0 < -1 - bit_length d -> sval d < - 2 ^ (-1 - bit_length d - 1))).
Proof. exact (bit_length_correct d). Qed.
Print Assumptions C10_bit_length.
Example C10_bit_length_ex : normal [0; 1] /\ bit_length [0; 1] = 33 /\
  normal [0; 4294967295] /\ sval [0; 4294967295] = - 2 ^ 32 /\ bit_length [0; 4294967295] = -33.
Proof. split; [norm|]. split; [vm_compute; reflexivity|]. split; [norm|]. vm_compute; auto. Qed.

(** ** C11: decimal output, and reading it back *)
Theorem C11_print_exact d : normal d ->
  exists ds, print d = Some (sval d <? 0, ds) /\ num_value 10 ds = Z.abs (sval d) /\
    Forall (fun x => 0 <= x <= 9) ds /\ (ds = [0] \/ (ds <> [] /\ hd 0 ds <> 0)).
Proof. exact (print_correct d). Qed.
Print Assumptions C11_print_exact.
Example C11_print_ex : normal [4294967295; 4294967294] /\
  print [4294967295; 4294967294] = Some (true, [4; 2; 9; 4; 9; 6; 7; 2; 9; 7]).
Proof. split; [norm|]. vm_compute; reflexivity. Qed.

Theorem C11_round_trip d : normal d ->
  exists ds, print d = Some (sval d <? 0, ds) /\
    let v := from_string (map (fun x => x + 48) ds) 10 char_val in
    d = if sval d <? 0 then negate v else v.
Proof. exact (print_parse d). Qed.
Print Assumptions C11_round_trip.
Example C11_round_trip_ex : normal [4294967295; 4294967294] /\
  from_string (map (fun x => x + 48) [4; 2; 9; 4; 9; 6; 7; 2; 9; 7]) 10 char_val = [1; 1] /\
  negate [1; 1] = [4294967295; 4294967294].
Proof. split; [norm|]. vm_compute; auto. Qed.

(** ** C12: reading digits.  With the library's own digit conversion [char_val]
    the statement holds for bases up to ten and fails for letters. *)
Theorem C12_any_conversion s base conv : 0 < base < 2 ^ 32 -> (forall c, In c s -> digit (conv c)) ->
  normal (from_string s base conv) /\ sval (from_string s base conv) = num_value base (map conv s).
Proof. exact (from_string_correct s base conv). Qed.
Print Assumptions C12_any_conversion.
Example C12_any_conversion_ex : 0 < 16 < 2 ^ 32 /\ (forall c, In c [1; 0; 0; 0; 0; 0; 0; 0; 15] -> digit (id c)) /\
  from_string [1; 0; 0; 0; 0; 0; 0; 0; 15] 16 id = [15; 1].
Proof.
  split; [lia|]. split; [|vm_compute; reflexivity].
  intros c H. unfold digit, id. cbn in H.
  repeat match goal with H : _ \/ _ |- _ => destruct H as [<-|H]; [lia|] end. tauto.
Qed.

Theorem C12_char_val_partial s base : 2 <= base <= 10 -> (forall c, In c s -> 48 <= c < 48 + base) ->
  normal (from_string s base char_val) /\
  sval (from_string s base char_val) = num_value base (map (fun c => c - 48) s).
Proof. exact (from_decimal_correct s base). Qed.
Print Assumptions C12_char_val_partial.
Example C12_char_val_ex : (forall c, In c [49; 50; 55] -> 48 <= c < 48 + 8) /\
  from_string [49; 50; 55] 8 char_val = [87].
Proof.
  split; [|vm_compute; reflexivity]. intros c H. cbn in H.
  repeat match goal with H : _ \/ _ |- _ => destruct H as [<-|H]; [lia|] end. tauto.
Qed.

(** Reading the character 'B' (66) as a hexadecimal digit does not give 11. *)
Theorem C12_hexadecimal_refuted : exists s, s = [66] /\ sval (from_string s 16 char_val) <> 11.
Proof. exists [66]. split; [reflexivity|]. vm_compute. discriminate. Qed.
Print Assumptions C12_hexadecimal_refuted.

(** ** C13: gcd and lcm *)
Theorem C13_gcd_exact a b : normal a -> normal b ->
  exists g, big_gcd a b = Some g /\ normal g /\ 0 <= sval g /\
    (sval g | sval a) /\ (sval g | sval b) /\
    forall c, (c | sval a) -> (c | sval b) -> (c | sval g).
Proof.
  intros Na Nb. destruct (big_gcd_correct a b Na Nb) as (g & E & Ng & V).
  exists g. do 2 (split; [assumption|]). rewrite V.
  split; [apply Z.gcd_nonneg|]. split; [apply Z.gcd_divide_l|]. split; [apply Z.gcd_divide_r|].
  intros c. apply Z.gcd_greatest.
Qed.
Print Assumptions C13_gcd_exact.
Example C13_gcd_ex : normal [4294967290; 4294967289] /\ normal [0; 21] /\
  big_gcd [4294967290; 4294967289] [0; 21] = Some [6] /\ big_gcd [0; 21] [0; 4294967282] = Some [0; 7].
Proof. split; [norm|]. split; [norm|]. vm_compute; auto. Qed.

(** lcm: the absolute value is right unless both arguments are zero; the sign
    is that of the product.  The full statement would have 0 <= sval m and no
    hypothesis on zero. *)
Theorem C13_lcm_partial a b : normal a -> normal b -> sval a <> 0 \/ sval b <> 0 ->
  exists m, big_lcm a b = Some m /\ normal m /\
    (sval a | sval m) /\ (sval b | sval m) /\
    (forall c, (sval a | c) -> (sval b | c) -> (sval m | c)) /\
    Z.sgn (sval m) = Z.sgn (sval a) * Z.sgn (sval b).
Proof.
  intros Na Nb H. destruct (big_lcm_correct_partial a b Na Nb H) as (m & E & Nm & V & P).
  exists m. do 2 (split; [assumption|]).
  assert (D1 : (sval a | sval m)) by (apply Z.divide_abs_r; rewrite V; apply Z.divide_lcm_l).
  assert (D2 : (sval b | sval m)) by (apply Z.divide_abs_r; rewrite V; apply Z.divide_lcm_r).
  split; [exact D1|]. split; [exact D2|]. split.
  - intros c Ha Hb. apply Z.divide_abs_l. rewrite V. apply Z.lcm_least; assumption.
  - rewrite <- Z.sgn_mul, <- P, Z.sgn_mul.
    assert (G : 0 < Z.gcd (sval a) (sval b)).
    { pose proof (Z.gcd_nonneg (sval a) (sval b)).
      destruct (Z.eq_dec (Z.gcd (sval a) (sval b)) 0) as [G|]; [|lia].
      pose proof (Z.gcd_eq_0_l _ _ G). pose proof (Z.gcd_eq_0_r _ _ G). lia. }
    rewrite (Z.sgn_pos _ G). ring.
Qed.
Print Assumptions C13_lcm_partial.
Example C13_lcm_ex : normal [0; 6] /\ normal [4294967292] /\ (sval [0; 6] <> 0 \/ sval [4294967292] <> 0) /\
  big_lcm [0; 6] [4294967292] = Some [0; 4294967290].
Proof. split; [norm|]. split; [norm|]. split; [left; vm_compute; discriminate|]. vm_compute; reflexivity. Qed.

Theorem C13_lcm_sign_refuted : exists a b m, normal a /\ normal b /\ big_lcm a b = Some m /\ sval m < 0.
Proof.
  exists [4294967294], [3], [4294967290]. split; [norm|]. split; [norm|]. vm_compute; auto.
Qed.
Print Assumptions C13_lcm_sign_refuted.
Theorem C13_lcm_zero_refuted : exists a b, normal a /\ normal b /\ big_lcm a b = None.
Proof. exists [0], [0]. split; [norm|]. split; [norm|]. vm_compute; reflexivity. Qed.
Print Assumptions C13_lcm_zero_refuted.

(** ** C14: subtracting an object from itself, and adding it to itself when the
    sum fits in the same number of digits (or when the compiler evaluates the
    right operand of [xor] in bigint.cpp:210 first). *)
Theorem C14_sub_self d : normal d -> sub_self d = [0].
Proof. exact (sub_self_correct d). Qed.
Print Assumptions C14_sub_self.
Example C14_sub_self_ex : normal [7; 4294967200] /\ sub_self [7; 4294967200] = [0].
Proof. split; [norm|]. vm_compute; reflexivity. Qed.

Theorem C14_add_self_partial (left_first : bool) d : normal d ->
  (left_first = true ->
   - 2 ^ (32 * Z.of_nat (length d) - 1) <= 2 * sval d < 2 ^ (32 * Z.of_nat (length d) - 1)) ->
  normal (add_self left_first d) /\ sval (add_self left_first d) = 2 * sval d.
Proof. exact (add_self_correct_partial left_first d). Qed.
Print Assumptions C14_add_self_partial.
Example C14_add_self_ex : normal [2147483649; 1073741823] /\
  add_self true [2147483649; 1073741823] = [2; 2147483647] /\
  add_self false [1073741824] = [2147483648; 0] /\ add_self true [1073741824] = [2147483648].
Proof. split; [norm|]. vm_compute; auto. Qed.
