(** Proofs about exact rationals: every operation gives the canonical form of
    the right fraction. *)

From Coq Require Import ZArith Znumtheory List Bool Lia.
From Verif Require Import BigIntModel BigIntSpec BigIntBase BigIntAdd BigIntSubFrom BigIntMul
  BigIntDiv BigIntDiv2 BigIntGcd BigRatModel BigRatSpec.
Import ListNotations.
Open Scope Z_scope.

(** ** Coprimality *)
Lemma cop_sym a b : Z.gcd a b = 1 -> Z.gcd b a = 1.
Proof. rewrite Z.gcd_comm. auto. Qed.
Lemma cop_mul_l a b c : Z.gcd a c = 1 -> Z.gcd b c = 1 -> Z.gcd (a * b) c = 1.
Proof.
  rewrite !Zgcd_1_rel_prime. intros H1 H2. apply rel_prime_sym, rel_prime_mult; apply rel_prime_sym; assumption.
Qed.
Lemma cop_mul_r a b c : Z.gcd a b = 1 -> Z.gcd a c = 1 -> Z.gcd a (b * c) = 1.
Proof. intros. apply cop_sym, cop_mul_l; apply cop_sym; assumption. Qed.
Lemma cop_div_l k g c : Z.gcd (k * g) c = 1 -> Z.gcd k c = 1.
Proof.
  intros H. apply Z.divide_1_r_nonneg; [apply Z.gcd_nonneg|]. rewrite <- H.
  apply Z.gcd_greatest; [apply Z.divide_mul_l|]; [apply Z.gcd_divide_l | apply Z.gcd_divide_r].
Qed.
Lemma cop_div_r k g c : Z.gcd c (k * g) = 1 -> Z.gcd c k = 1.
Proof. intros H. apply cop_sym, cop_div_l with g, cop_sym, H. Qed.
Lemma cop_opp_l a b : Z.gcd a b = 1 -> Z.gcd (- a) b = 1.
Proof. rewrite Z.gcd_opp_l. auto. Qed.
Lemma cop_opp_r a b : Z.gcd a b = 1 -> Z.gcd a (- b) = 1.
Proof. rewrite Z.gcd_opp_r. auto. Qed.
Lemma cop_split a b g : Z.gcd a b = g -> 0 < g -> exists k l, a = k * g /\ b = l * g /\ Z.gcd k l = 1.
Proof.
  intros E P. destruct (Z.gcd_divide_l a b) as [k Hk]. destruct (Z.gcd_divide_r a b) as [l Hl].
  rewrite E in Hk, Hl. exists k, l. split; [exact Hk|]. split; [exact Hl|].
  rewrite Hk, Hl, Z.gcd_mul_mono_r_nonneg in E by lia. nia.
Qed.
Lemma cop_add a b k : Z.gcd a b = 1 -> Z.gcd (a + k * b) b = 1.
Proof. intros H. rewrite Z.gcd_comm, Z.gcd_add_mult_diag_r, Z.gcd_comm. exact H. Qed.
Lemma gcd_pos a b : a <> 0 \/ b <> 0 -> 0 < Z.gcd a b.
Proof.
  intros H. pose proof (Z.gcd_nonneg a b). destruct (Z.eq_dec (Z.gcd a b) 0) as [E|E]; [|lia].
  apply Z.gcd_eq_0 in E. lia.
Qed.

(** ** Steps of the computations *)
Lemma big_div_exact x d k : normal x -> normal d -> 0 < sval d -> sval x = k * sval d ->
  exists q, big_div x d = Some q /\ normal q /\ sval q = k.
Proof.
  intros Nx Nd P E.
  destruct (big_div_correct_partial x d Nx Nd ltac:(lia) (pos_not_bad _ _ P)) as (q & E1 & E2 & E3).
  exists q. split; [exact E1|]. split; [exact E2|]. rewrite E3, E, Z.div_mul by lia. reflexivity.
Qed.
Lemma mul_ok a b : normal a -> normal b -> normal (mul a b) /\ sval (mul a b) = sval a * sval b.
Proof. intros. apply mul_correct; apply normal_wf; assumption. Qed.
Lemma ctor_ok n d : normal d -> sval d <> 0 -> big_rat_ctor n d = Some (mk_rat n d).
Proof.
  intros N H. unfold big_rat_ctor. rewrite is_zero_correct by assumption.
  destruct (Z.eqb_spec (sval d) 0); [contradiction|reflexivity].
Qed.
Lemma ctor_gives n d p q : normal n -> normal d -> 0 < sval d -> Z.gcd (sval n) (sval d) = 1 ->
  sval n * q = p * sval d -> gives (big_rat_ctor n d) p q.
Proof.
  intros Nn Nd P G E. exists (mk_rat n d). split; [apply ctor_ok; [assumption|lia]|].
  split; [|exact E]. unfold canonical. auto.
Qed.
Lemma some_gives n d p q : normal n -> normal d -> 0 < sval d -> Z.gcd (sval n) (sval d) = 1 ->
  sval n * q = p * sval d -> gives (Some (mk_rat n d)) p q.
Proof.
  intros Nn Nd P G E. exists (mk_rat n d). split; [reflexivity|].
  split; [|exact E]. unfold canonical. auto.
Qed.
Lemma gcd_step a b : normal a -> normal b -> sval a <> 0 \/ sval b <> 0 ->
  exists g k l, big_gcd a b = Some g /\ normal g /\ 0 < sval g /\
    sval a = k * sval g /\ sval b = l * sval g /\ Z.gcd k l = 1 /\ eq_int g 1 = (sval g =? 1).
Proof.
  intros Na Nb NZ. destruct (big_gcd_correct a b Na Nb) as (g & E1 & E2 & E3).
  assert (P : 0 < sval g) by (rewrite E3; apply gcd_pos; exact NZ).
  destruct (cop_split _ _ (sval g) (eq_sym E3) P) as (k & l & H1 & H2 & H3).
  exists g, k, l. rewrite eq_int_correct by (assumption || lia). repeat (split; [assumption|]). reflexivity.
Qed.

Lemma canonical_int x : normal x -> canonical (of_big_int x).
Proof.
  intros N. split; [exact N|]. split; [apply normal_1; ub; lia|]. split; [reflexivity|].
  cbn [num den of_big_int]. change (sval [1]) with 1. apply Z.gcd_1_r.
Qed.

Theorem from_fraction_correct n d : normal n -> normal d -> sval d <> 0 ->
  gives (from_fraction n d) (sval n) (sval d).
Proof.
  intros Nn Nd D0. unfold from_fraction. rewrite ctor_ok by assumption. unfold normalise. cbn [num den].
  set (neg := is_negative d). assert (En : neg = (sval d <? 0)) by (apply back_sign, normal_wf; exact Nd).
  cbn [num den].
  set (d0 := if neg then negate d else d). set (n0 := if neg then negate n else n).
  assert (Hd : normal d0 /\ 0 < sval d0 /\ normal n0 /\ sval n0 * sval d = sval n * sval d0).
  { unfold d0, n0. rewrite En. destruct (negate_correct d Nd) as [A1 A2]. destruct (negate_correct n Nn) as [B1 B2].
    destruct (Z.ltb_spec (sval d) 0).
    - rewrite A2, B2. repeat (split; [assumption || lia|]). lia.
    - repeat (split; [assumption || lia|]). lia. }
  destruct Hd as (Nd0 & P & Nn0 & V). clearbody d0 n0. clear neg En.
  destruct (gcd_step d0 n0 Nd0 Nn0 ltac:(lia)) as (g & k & l & -> & Ng & Pg & H1 & H2 & H3 & ->).
  destruct (Z.eqb_spec (sval g) 1) as [G|G].
  - apply some_gives; auto. rewrite H1, H2, G, !Z.mul_1_r. apply cop_sym, H3.
  - destruct (big_div_exact n0 g l Nn0 Ng Pg H2) as (n1 & -> & Nn1 & Vn1).
    destruct (big_div_exact d0 g k Nd0 Ng Pg H1) as (d1 & -> & Nd1 & Vd1).
    apply some_gives; auto; rewrite ?Vn1, ?Vd1.
    + nia.
    + apply cop_sym, H3.
    + apply Z.mul_reg_r with (sval g); [lia|].
      transitivity (sval n0 * sval d); [rewrite H2; ring|]. rewrite V, H1. ring.
Qed.

Theorem from_fraction_zero n d : normal d -> sval d = 0 -> from_fraction n d = None.
Proof.
  intros Nd E. unfold from_fraction, big_rat_ctor. rewrite is_zero_correct, E by assumption. reflexivity.
Qed.

Ltac can H := let N := fresh "Nn" in let D := fresh "Nd" in let P := fresh "P" in let G := fresh "G" in
  destruct H as (N & D & P & G).

(** ** Comparison *)
Theorem rat_lt_correct r x : canonical r -> canonical x ->
  rat_lt r x = (sval (num r) * sval (den x) <? sval (num x) * sval (den r)).
Proof.
  intros Hr Hx. can Hr. can Hx. unfold rat_lt.
  destruct (mul_ok (num r) (den x)) as [A1 A2]; auto. destruct (mul_ok (num x) (den r)) as [B1 B2]; auto.
  rewrite big_lt_correct, A2, B2 by assumption. reflexivity.
Qed.
Lemma cop_eq a b c d : 0 < b -> 0 < d -> Z.gcd a b = 1 -> Z.gcd c d = 1 -> a * d = c * b -> a = c /\ b = d.
Proof.
  intros Pb Pd G1 G2 E.
  assert (D1 : (b | d)) by (apply Gauss with a; [exists c; lia | apply rel_prime_sym, Zgcd_1_rel_prime, G1]).
  assert (D2 : (d | b)) by (apply Gauss with c; [exists a; lia | apply rel_prime_sym, Zgcd_1_rel_prime, G2]).
  assert (b = d) by (apply Z.divide_antisym_nonneg; auto; lia). split; [nia|assumption].
Qed.
Theorem rat_eq_correct r x : canonical r -> canonical x ->
  rat_eq r x = (sval (num r) * sval (den x) =? sval (num x) * sval (den r)).
Proof.
  intros Hr Hx. can Hr. can Hx. unfold rat_eq. rewrite !big_eq_correct by assumption.
  destruct (Z.eqb_spec (sval (num r) * sval (den x)) (sval (num x) * sval (den r))) as [E|E].
  - apply cop_eq in E as [-> ->]; auto. rewrite !Z.eqb_refl. reflexivity.
  - apply not_true_is_false. rewrite andb_true_iff, !Z.eqb_eq. intros [E1 E2]. rewrite E1, E2 in E. auto.
Qed.
Theorem rat_eq_int_correct r v : canonical r -> - 2 ^ 31 <= v < 2 ^ 31 ->
  rat_eq_int r v = (sval (num r) =? v * sval (den r)).
Proof.
  intros Hr Hv. can Hr. unfold rat_eq_int. rewrite !eq_int_correct by (assumption || lia).
  destruct (Z.eqb_spec (sval (den r)) 1) as [E|E]; [rewrite E, Z.mul_1_r; reflexivity|]. cbn [andb].
  symmetry. apply Z.eqb_neq. intros F. apply E.
  apply Z.divide_1_r_nonneg; [lia|]. rewrite <- G. apply Z.gcd_greatest; [exists v; exact F|apply Z.divide_refl].
Qed.

(** ** Sums with integers *)
Lemma cop_shift n d k s : Z.gcd n d = 1 -> s = 1 \/ s = -1 -> Z.gcd (s * n + k * d) d = 1.
Proof.
  intros H S. apply cop_add. destruct S as [-> | ->]; [rewrite Z.mul_1_l; exact H|].
  replace (-1 * n) with (- n) by ring. apply cop_opp_l, H.
Qed.

Theorem rat_add_int_correct r x : canonical r -> normal x ->
  gives (rat_add_int r x) (sval (num r) + sval x * sval (den r)) (sval (den r)) /\
  gives (int_add_rat x r) (sval (num r) + sval x * sval (den r)) (sval (den r)) /\
  is_frac (rat_add_int_assign r x) (sval (num r) + sval x * sval (den r)) (sval (den r)).
Proof.
  intros Hr Nx. can Hr. destruct (mul_ok x (den r) Nx Nd) as [A1 A2].
  destruct (add_assign_correct (mul x (den r)) (num r) A1 Nn) as [B1 B2].
  destruct (add_assign_move_correct (num r) (mul x (den r)) Nn A1) as [C1 C2]. rewrite A2 in B2, C2.
  assert (G1 : Z.gcd (sval (num r) + sval x * sval (den r)) (sval (den r)) = 1) by (apply cop_add; exact G).
  assert (X : gives (rat_add_int r x) (sval (num r) + sval x * sval (den r)) (sval (den r))).
  { apply ctor_gives; auto; unfold plus_cm; rewrite B2, Z.add_comm; [exact G1|reflexivity]. }
  split; [exact X|]. split; [exact X|]. split; [|cbn [num den rat_add_int_assign]; rewrite C2; ring].
  split; [exact C1|]. split; [exact Nd|]. split; [exact P|]. cbn [num den rat_add_int_assign]. rewrite C2. exact G1.
Qed.

(** The subtraction overloads for temporaries inherit the defect of sub_from:
    [sub_safe a x] says that it does not show in a - x. *)
Definition sub_safe (a x : bigint) : Prop := 0 <= sval a \/ (length x <= length a + 1)%nat.

Theorem rat_sub_int_correct_partial r x : canonical r -> normal x -> sub_safe (num r) (mul x (den r)) ->
  gives (rat_sub_int r x) (sval (num r) - sval x * sval (den r)) (sval (den r)) /\
  is_frac (rat_sub_int_assign r x) (sval (num r) - sval x * sval (den r)) (sval (den r)).
Proof.
  intros Hr Nx S. can Hr. destruct (mul_ok x (den r) Nx Nd) as [A1 A2].
  destruct (subtract_from_correct_partial (mul x (den r)) (num r) A1 Nn S) as [B1 B2].
  destruct (sub_assign_move_correct_partial (num r) (mul x (den r)) Nn A1 S) as [C1 C2]. rewrite A2 in B2, C2.
  assert (G1 : Z.gcd (sval (num r) - sval x * sval (den r)) (sval (den r)) = 1).
  { replace (sval (num r) - sval x * sval (den r)) with (1 * sval (num r) + (- sval x) * sval (den r)) by ring.
    apply cop_shift; auto. }
  split.
  - apply ctor_gives; auto; unfold minus_cm; rewrite B2; [exact G1|reflexivity].
  - split; [|cbn [num den rat_sub_int_assign]; rewrite C2; ring].
    split; [exact C1|]. split; [exact Nd|]. split; [exact P|]. cbn [num den rat_sub_int_assign]. rewrite C2. exact G1.
Qed.

Theorem int_sub_rat_correct r x : canonical r -> normal x ->
  gives (int_sub_rat x r) (sval x * sval (den r) - sval (num r)) (sval (den r)).
Proof.
  intros Hr Nx. can Hr. destruct (mul_ok x (den r) Nx Nd) as [A1 A2].
  destruct (sub_assign_correct (mul x (den r)) (num r) A1 Nn) as [B1 B2]. rewrite A2 in B2.
  apply ctor_gives; auto; unfold minus_mc; rewrite B2; [|reflexivity].
  replace (sval x * sval (den r) - sval (num r)) with (-1 * sval (num r) + sval x * sval (den r)) by ring.
  apply cop_shift; auto.
Qed.

Theorem rat_subtract_from_correct_partial r x : canonical r -> normal x -> sub_safe (mul x (den r)) (num r) ->
  is_frac (rat_subtract_from r x) (sval x * sval (den r) - sval (num r)) (sval (den r)).
Proof.
  intros Hr Nx S. can Hr. destruct (mul_ok x (den r) Nx Nd) as [A1 A2].
  destruct (subtract_from_move_correct_partial (num r) (mul x (den r)) Nn A1 S) as [C1 C2]. rewrite A2 in C2.
  split; [|cbn [num den rat_subtract_from]; rewrite C2; ring].
  split; [exact C1|]. split; [exact Nd|]. split; [exact P|]. cbn [num den rat_subtract_from]. rewrite C2.
  replace (sval x * sval (den r) - sval (num r)) with (-1 * sval (num r) + sval x * sval (den r)) by ring.
  apply cop_shift; auto.
Qed.

(** ** Products and quotients with integers *)
Theorem rat_mul_int_correct r x : canonical r -> normal x ->
  gives (rat_mul_int r x) (sval (num r) * sval x) (sval (den r)) /\
  gives (rat_mul_int_assign r x) (sval (num r) * sval x) (sval (den r)).
Proof.
  intros Hr Nx. can Hr. unfold rat_mul_int, rat_mul_int_assign.
  destruct (gcd_step (den r) x Nd Nx ltac:(lia)) as (g & k & l & -> & Ng & Pg & H1 & H2 & H3 & ->).
  destruct (Z.eqb_spec (sval g) 1) as [E|E].
  - destruct (mul_ok (num r) x Nn Nx) as [A1 A2].
    assert (Z.gcd (sval (mul (num r) x)) (sval (den r)) = 1).
    { rewrite A2. apply cop_mul_l; [exact G|]. rewrite H1, H2, E, !Z.mul_1_r. apply cop_sym, H3. }
    split; [apply ctor_gives | apply some_gives]; auto; rewrite ?A2; ring.
  - destruct (big_div_exact x g l Nx Ng Pg H2) as (q & -> & Nq & Vq).
    destruct (big_div_exact (den r) g k Nd Ng Pg H1) as (e & -> & Ne & Ve).
    destruct (mul_ok (num r) q Nn Nq) as [A1 A2].
    assert (Z.gcd (sval (mul (num r) q)) (sval e) = 1).
    { rewrite A2, Vq, Ve. apply cop_mul_l; [apply cop_div_r with (sval g); rewrite <- H1; exact G | apply cop_sym, H3]. }
    assert (0 < sval e) by (rewrite Ve; nia).
    split; [apply ctor_gives | apply some_gives]; auto; rewrite ?A2, ?Vq, ?Ve, ?H1, ?H2; ring.
Qed.

Theorem rat_div_int_correct r x : canonical r -> normal x -> sval x <> 0 ->
  gives (rat_div_int r x) (sval (num r)) (sval (den r) * sval x) /\
  gives (rat_div_int_assign r x) (sval (num r)) (sval (den r) * sval x).
Proof.
  intros Hr Nx X0. can Hr. unfold rat_div_int, rat_div_int_assign.
  rewrite is_zero_correct by assumption. destruct (Z.eqb_spec (sval x) 0); [contradiction|].
  destruct (gcd_step (num r) x Nn Nx ltac:(lia)) as (g & k & l & -> & Ng & Pg & H1 & H2 & H3 & ->).
  destruct (negate_correct x Nx) as [C1 C2]. destruct (negate_correct (num r) Nn) as [D1 D2].
  rewrite (back_sign x) by (apply Nx).
  assert (Gk : Z.gcd k (sval (den r)) = 1) by (apply cop_div_l with (sval g); rewrite <- H1; exact G).
  split.
  - destruct (Z.ltb_spec (sval x) 0) as [S|S]; destruct (Z.eqb_spec (sval g) 1) as [E|E].
    + destruct (mul_ok (den r) (negate x) Nd C1) as [A1 A2].
      apply ctor_gives; auto; rewrite ?A2, ?C2, ?D2; [nia| |ring].
      rewrite H1, H2, E, !Z.mul_1_r. apply cop_opp_l, cop_mul_r; [exact Gk|apply cop_opp_r, H3].
    + destruct (big_div_exact (negate (num r)) g (- k) D1 Ng Pg ltac:(lia)) as (n1 & -> & Nn1 & Vn1).
      destruct (big_div_exact (negate x) g (- l) C1 Ng Pg ltac:(lia)) as (q & -> & Nq & Vq).
      destruct (mul_ok (den r) q Nd Nq) as [A1 A2].
      apply ctor_gives; auto; rewrite ?A2, ?Vn1, ?Vq; [nia| |rewrite H1, H2; ring].
      apply cop_opp_l, cop_mul_r; [exact Gk|apply cop_opp_r, H3].
    + destruct (mul_ok (den r) x Nd Nx) as [A1 A2].
      apply ctor_gives; auto; rewrite ?A2; [nia| |ring].
      rewrite H1, H2, E, !Z.mul_1_r. apply cop_mul_r; [exact Gk|exact H3].
    + destruct (big_div_exact (num r) g k Nn Ng Pg H1) as (n1 & -> & Nn1 & Vn1).
      destruct (big_div_exact x g l Nx Ng Pg H2) as (q & -> & Nq & Vq).
      destruct (mul_ok (den r) q Nd Nq) as [A1 A2].
      apply ctor_gives; auto; rewrite ?A2, ?Vn1, ?Vq; [nia| |rewrite H1, H2; ring].
      apply cop_mul_r; [exact Gk|exact H3].
  - destruct (big_div_exact (num r) g k Nn Ng Pg H1) as (n1 & E1 & Nn1 & Vn1).
    destruct (big_div_exact x g l Nx Ng Pg H2) as (q & E2 & Nq & Vq).
    assert (exists n2, (if sval g =? 1 then Some (num r) else big_div (num r) g) = Some n2 /\ normal n2 /\ sval n2 = k)
      as (n2 & -> & Nn2 & Vn2).
    { destruct (Z.eqb_spec (sval g) 1); eauto. exists (num r). split; [auto|]. split; [auto|]. nia. }
    assert (exists n2, (if sval g =? 1 then @Some bigint x else big_div x g) = Some n2 /\ normal n2 /\ sval n2 = l)
      as (q2 & -> & Nq2 & Vq2).
    { destruct (Z.eqb_spec (sval g) 1); eauto. exists x. split; [auto|]. split; [auto|]. nia. }
    destruct (mul_ok (den r) q2 Nd Nq2) as [A1 A2].
    rewrite (back_sign (mul (den r) q2)) by apply A1. rewrite A2, Vq2.
    assert (l <> 0) by nia.
    assert (Gl : Z.gcd k (sval (den r) * l) = 1) by (apply cop_mul_r; [exact Gk|exact H3]).
    destruct (Z.ltb_spec (sval (den r) * l) 0).
    + destruct (negate_correct n2 Nn2) as [F1 F2]. destruct (negate_correct _ A1) as [L1 L2].
      apply some_gives; auto; rewrite ?F2, ?L2, ?A2, ?Vq2, ?Vn2; [lia| |rewrite H1, H2; ring].
      apply cop_opp_l, cop_opp_r, Gl.
    + apply some_gives; auto; rewrite ?A2, ?Vq2, ?Vn2; [nia|exact Gl|rewrite H1, H2; ring].
Qed.

Theorem int_div_rat_correct r x : canonical r -> normal x -> sval (num r) <> 0 ->
  gives (int_div_rat x r) (sval x * sval (den r)) (sval (num r)).
Proof.
  intros Hr Nx X0. can Hr. unfold int_div_rat, rat_is_zero.
  rewrite is_zero_correct by assumption. destruct (Z.eqb_spec (sval (num r)) 0); [contradiction|].
  destruct (gcd_step (num r) x Nn Nx ltac:(lia)) as (g & k & l & -> & Ng & Pg & H1 & H2 & H3 & ->).
  destruct (negate_correct x Nx) as [C1 C2]. destruct (negate_correct (num r) Nn) as [D1 D2].
  rewrite (back_sign (num r)) by (apply Nn).
  assert (Gk : Z.gcd k (sval (den r)) = 1) by (apply cop_div_l with (sval g); rewrite <- H1; exact G).
  apply cop_sym in Gk. apply cop_sym in H3.
  destruct (Z.ltb_spec (sval (num r)) 0) as [S|S]; destruct (Z.eqb_spec (sval g) 1) as [E|E].
  - destruct (mul_ok (negate x) (den r) C1 Nd) as [A1 A2].
    apply ctor_gives; auto; rewrite ?A2, ?C2, ?D2; [lia| |ring].
    rewrite H1, H2, E, !Z.mul_1_r. apply cop_opp_r, cop_mul_l; [apply cop_opp_l, H3|exact Gk].
  - destruct (big_div_exact (negate (num r)) g (- k) D1 Ng Pg ltac:(lia)) as (n1 & En & Nn1 & Vn1).
    destruct (big_div_exact (negate x) g (- l) C1 Ng Pg ltac:(lia)) as (q & -> & Nq & Vq).
    rewrite En. destruct (mul_ok q (den r) Nq Nd) as [A1 A2].
    apply ctor_gives; auto; rewrite ?A2, ?Vn1, ?Vq; [nia| |rewrite H1, H2; ring].
    apply cop_opp_r, cop_mul_l; [apply cop_opp_l, H3|exact Gk].
  - destruct (mul_ok x (den r) Nx Nd) as [A1 A2].
    apply ctor_gives; auto; rewrite ?A2; [lia| |ring].
    rewrite H1, H2, E, !Z.mul_1_r. apply cop_mul_l; [exact H3|exact Gk].
  - destruct (big_div_exact (num r) g k Nn Ng Pg H1) as (n1 & En & Nn1 & Vn1).
    destruct (big_div_exact x g l Nx Ng Pg H2) as (q & -> & Nq & Vq).
    rewrite En. destruct (mul_ok q (den r) Nq Nd) as [A1 A2].
    apply ctor_gives; auto; rewrite ?A2, ?Vn1, ?Vq; [nia| |rewrite H1, H2; ring].
    apply cop_mul_l; [exact H3|exact Gk].
Qed.

(** ** Sums and differences of rationals *)
Lemma addsub_gives op s r x : canonical r -> canonical x -> s = 1 \/ s = -1 ->
  (forall a b, normal a -> normal b -> (exists n m, (a = mul (num r) n /\ b = mul (num x) m /\ normal n /\ normal m /\
     sval n * sval (den r) = sval m * sval (den x) /\ 0 < sval n)) -> normal (op a b) /\ sval (op a b) = sval a + s * sval b) ->
  gives (rat_addsub op r x) (sval (num r) * sval (den x) + s * (sval (num x) * sval (den r))) (sval (den r) * sval (den x)).
Proof.
  intros Hr Hx S OP. can Hr. can Hx. unfold rat_addsub.
  destruct (gcd_step (den r) (den x) Nd Nd0 ltac:(lia)) as (g & k & l & -> & Ng & Pg & H1 & H2 & H3 & ->).
  assert (Pk : 0 < k) by nia. assert (Pl : 0 < l) by nia.
  assert (Gk : Z.gcd (sval (num r)) k = 1) by (apply cop_div_r with (sval g); rewrite <- H1; exact G).
  assert (Gl : Z.gcd (sval (num x)) l = 1) by (apply cop_div_r with (sval g); rewrite <- H2; exact G0).
  assert (Num : Z.gcd (sval (num r) * l + s * (sval (num x) * k)) k = 1 /\
                Z.gcd (sval (num r) * l + s * (sval (num x) * k)) l = 1).
  { split.
    - replace (sval (num r) * l + s * (sval (num x) * k)) with (1 * (sval (num r) * l) + (s * sval (num x)) * k) by ring.
      apply cop_shift; [|auto]. apply cop_mul_l; [exact Gk|apply cop_sym, H3].
    - replace (sval (num r) * l + s * (sval (num x) * k)) with (s * (sval (num x) * k) + (sval (num r)) * l) by ring.
      apply cop_shift; [|auto]. apply cop_mul_l; [exact Gl|exact H3]. }
  destruct Num as [N1 N2].
  destruct (Z.eqb_spec (sval g) 1) as [E|E].
  - rewrite E, Z.mul_1_r in H1, H2.
    destruct (mul_ok (num r) (den x)) as [A1 A2]; auto. destruct (mul_ok (num x) (den r)) as [B1 B2]; auto.
    destruct (mul_ok (den r) (den x)) as [C1 C2]; auto.
    destruct (OP (mul (num r) (den x)) (mul (num x) (den r)) A1 B1) as [O1 O2].
    { exists (den x), (den r). do 4 (split; [auto|]). split; [ring|auto]. }
    apply ctor_gives; auto; rewrite ?O2, ?C2, ?A2, ?B2; [nia| |ring].
    rewrite H1, H2. apply cop_mul_r; assumption.
  - destruct (big_div_exact (den x) g l Nd0 Ng Pg H2) as (q & -> & Nq & Vq).
    destruct (big_div_exact (den r) g k Nd Ng Pg H1) as (e & -> & Ne & Ve).
    destruct (mul_ok (num r) q) as [A1 A2]; auto. destruct (mul_ok (num x) e) as [B1 B2]; auto.
    destruct (OP (mul (num r) q) (mul (num x) e) A1 B1) as [O1 O2].
    { exists q, e. do 4 (split; [auto|]). rewrite Vq, Ve, H1, H2. split; [ring|lia]. }
    rewrite A2, B2, Vq, Ve in O2. set (m := op _ _) in *. clearbody m. rewrite <- O2 in N1, N2.
    destruct (mul_ok (den r) q) as [C1 C2]; auto. rewrite Vq in C2.
    destruct (gcd_step m g O1 Ng ltac:(lia)) as (dd & i & j & -> & Ndd & Pdd & I1 & I2 & I3 & ->).
    destruct (Z.eqb_spec (sval dd) 1) as [F|F].
    + apply ctor_gives; auto; rewrite ?C2, ?O2; [nia| |rewrite H1, H2; ring].
      rewrite <- O2, H1. rewrite F, Z.mul_1_r in I1, I2.
      apply cop_mul_r; [apply cop_mul_r; [exact N1|congruence]|exact N2].
    + destruct (big_div_exact m dd i O1 Ndd Pdd I1) as (n & -> & Nnn & Vn).
      destruct (big_div_exact (mul (den r) q) dd (k * l * j) C1 Ndd Pdd) as (f & -> & Nf & Vf).
      { rewrite C2, H1, I2. ring. }
      assert (0 < j) by nia.
      apply ctor_gives; auto; rewrite Vf, ?Vn.
      * nia.
      * rewrite I1 in N1, N2. apply cop_div_l in N1. apply cop_div_l in N2.
        apply cop_mul_r; [apply cop_mul_r; assumption|exact I3].
      * apply Z.mul_reg_r with (sval dd); [lia|].
        transitivity (sval m * (sval (den r) * sval (den x))); [rewrite I1; ring|].
        rewrite O2, H1, H2, I2. ring.
Qed.

Theorem rat_add_correct r x : canonical r -> canonical x ->
  gives (rat_add r x) (sval (num r) * sval (den x) + sval (num x) * sval (den r)) (sval (den r) * sval (den x)).
Proof.
  intros Hr Hx. rewrite <- (Z.mul_1_l (sval (num x) * sval (den r))). apply addsub_gives; auto.
  intros a b Na Nb _. rewrite Z.mul_1_l. unfold plus_mm.
  destruct (Nat.ltb (length a) (length b)); [rewrite Z.add_comm|]; apply add_assign_correct; auto.
Qed.

Lemma minus_mm_correct_partial a b : normal a -> normal b -> sub_safe a b ->
  normal (minus_mm a b) /\ sval (minus_mm a b) = sval a - sval b.
Proof.
  intros Na Nb S. unfold minus_mm. destruct (Nat.ltb (length a) (length b)).
  - apply subtract_from_correct_partial; assumption.
  - apply sub_assign_correct; assumption.
Qed.

(** Exact whenever the left operand is nonnegative.  *)
Theorem rat_sub_correct_partial r x : canonical r -> canonical x -> 0 <= sval (num r) ->
  gives (rat_sub r x) (sval (num r) * sval (den x) - sval (num x) * sval (den r)) (sval (den r) * sval (den x)).
Proof.
  intros Hr Hx S.
  replace (sval (num r) * sval (den x) - sval (num x) * sval (den r)) with
    (sval (num r) * sval (den x) + (-1) * (sval (num x) * sval (den r))) by ring. apply addsub_gives; auto.
  intros a b Na Nb (n & m & -> & -> & Nn & Nm & _ & Pn).
  replace (sval (mul (num r) n) + -1 * sval (mul (num x) m)) with (sval (mul (num r) n) - sval (mul (num x) m)) by ring.
  apply minus_mm_correct_partial; auto. left. destruct (mul_ok (num r) n) as [_ ->]; auto; [apply Hr|nia].
Qed.

(** ** Products, inverse and quotient of rationals *)
Theorem rat_mul_correct r x : canonical r -> canonical x ->
  gives (rat_mul r x) (sval (num r) * sval (num x)) (sval (den r) * sval (den x)) /\
  gives (rat_mul_assign r x) (sval (num r) * sval (num x)) (sval (den r) * sval (den x)).
Proof.
  intros Hr Hx. can Hr. can Hx. unfold rat_mul, rat_mul_assign.
  destruct (gcd_step (num r) (den x) Nn Nd0 ltac:(lia)) as (g & k & l & -> & Ng & Pg & H1 & H2 & H3 & _).
  destruct (gcd_step (den r) (num x) Nd Nn0 ltac:(lia)) as (h & i & j & -> & Nh & Ph & I1 & I2 & I3 & _).
  destruct (big_div_exact (num r) g k) as (a & -> & Na & Va); auto.
  destruct (big_div_exact (num x) h j) as (b & Eb & Nb & Vb); auto.
  destruct (big_div_exact (den r) h i) as (c & Ec & Nc & Vc); auto.
  destruct (big_div_exact (den x) g l) as (e & Ee & Ne & Ve); auto.
  rewrite Eb, Ec, Ee.
  destruct (mul_ok a b Na Nb) as [A1 A2]. destruct (mul_ok c e Nc Ne) as [C1 C2].
  rewrite Va, Vb in A2. rewrite Vc, Ve in C2.
  assert (Gm : Z.gcd (sval (mul a b)) (sval (mul c e)) = 1).
  { rewrite A2, C2. rewrite H1, I1 in G. rewrite H2, I2 in G0.
    apply cop_div_l, cop_div_r in G. apply cop_div_l, cop_div_r in G0.
    apply cop_mul_l; apply cop_mul_r; auto using cop_sym. }
  assert (0 < sval (mul c e)) by (rewrite C2; nia).
  assert (sval (mul a b) * (sval (den r) * sval (den x)) = sval (num r) * sval (num x) * sval (mul c e))
    by (rewrite A2, C2, H1, H2, I1, I2; ring).
  split; [apply ctor_gives | apply some_gives]; auto.
Qed.

Theorem rat_invert_correct r : canonical r -> sval (num r) <> 0 ->
  gives (rat_invert r) (sval (den r)) (sval (num r)).
Proof.
  intros Hr Z0. can Hr. unfold rat_invert, rat_is_zero. rewrite is_zero_correct by assumption.
  destruct (Z.eqb_spec (sval (num r)) 0); [contradiction|]. rewrite (back_sign (num r)) by apply Nn.
  destruct (negate_correct (num r) Nn) as [A1 A2]. destruct (negate_correct (den r) Nd) as [B1 B2].
  destruct (Z.ltb_spec (sval (num r)) 0).
  - apply some_gives; auto; rewrite ?A2, ?B2; [lia| |ring]. apply cop_opp_l, cop_opp_r, cop_sym, G.
  - apply some_gives; auto; [lia|apply cop_sym, G].
Qed.

Theorem rat_div_correct r x : canonical r -> canonical x -> sval (num x) <> 0 ->
  gives (rat_div r x) (sval (num r) * sval (den x)) (sval (den r) * sval (num x)) /\
  gives (rat_div_assign r x) (sval (num r) * sval (den x)) (sval (den r) * sval (num x)).
Proof.
  intros Hr Hx X0. can Hr. can Hx. unfold rat_div, rat_div_assign, rat_is_zero.
  rewrite is_zero_correct by assumption. destruct (Z.eqb_spec (sval (num x)) 0); [contradiction|].
  destruct (gcd_step (num r) (num x) Nn Nn0 ltac:(lia)) as (g & k & l & -> & Ng & Pg & H1 & H2 & H3 & _).
  destruct (gcd_step (den r) (den x) Nd Nd0 ltac:(lia)) as (h & i & j & -> & Nh & Ph & I1 & I2 & I3 & _).
  rewrite (back_sign (num x)) by apply Nn0. set (neg := sval (num x) <? 0).
  set (s := if neg then -1 else 1).
  assert (SG : exists xn xd n, (if neg then negate (num x) else num x) = xn /\ (if neg then negate (den x) else den x) = xd /\
    (if neg then negate (num r) else num r) = n /\ normal xn /\ normal xd /\ normal n /\
    sval xn = (s * l) * sval g /\ sval xd = (s * j) * sval h /\ sval n = (s * k) * sval g /\ 0 < s * l /\ (s = 1 \/ s = -1)).
  { eexists _, _, _. do 3 (split; [reflexivity|]). unfold s, neg.
    destruct (negate_correct (num r) Nn) as [A1 A2]. destruct (negate_correct (den x) Nd0) as [B1 B2].
    destruct (negate_correct (num x) Nn0) as [C1 C2].
    destruct (Z.ltb_spec (sval (num x)) 0).
    - rewrite A2, B2, C2, H1, H2, I2. repeat (split; [assumption || ring|]). split; [nia|auto].
    - rewrite H1, H2, I2. repeat (split; [assumption || ring|]). split; [nia|auto]. }
  destruct SG as (xn & xd & n1 & -> & -> & -> & Nxn & Nxd & Nn1 & V1 & V2 & V3 & Ps & Ss).
  destruct (big_div_exact (num r) g k) as (a & -> & Na & Va); auto.
  destruct (big_div_exact xd h (s * j)) as (b & -> & Nb & Vb); auto.
  destruct (big_div_exact (den r) h i) as (c & -> & Nc & Vc); auto.
  destruct (big_div_exact xn g (s * l)) as (e & -> & Ne & Ve); auto.
  destruct (big_div_exact n1 g (s * k)) as (a' & -> & Na' & Va'); auto.
  destruct (big_div_exact (den x) h j) as (b' & -> & Nb' & Vb'); auto.
  destruct (mul_ok a b Na Nb) as [A1 A2]. destruct (mul_ok c e Nc Ne) as [C1 C2].
  destruct (mul_ok a' b' Na' Nb') as [D1 D2].
  rewrite Va, Vb in A2. rewrite Vc, Ve in C2. rewrite Va', Vb' in D2.
  assert (Gm : Z.gcd (s * (k * j)) (i * (s * l)) = 1).
  { rewrite H1, I1 in G. rewrite H2, I2 in G0.
    apply cop_div_l, cop_div_r in G. apply cop_div_l, cop_div_r in G0.
    assert (W : Z.gcd (k * j) (i * l) = 1) by (apply cop_mul_l; apply cop_mul_r; auto using cop_sym).
    destruct Ss as [-> | ->].
    - rewrite !Z.mul_1_l. exact W.
    - replace (-1 * (k * j)) with (- (k * j)) by ring. replace (i * (-1 * l)) with (- (i * l)) by ring.
      apply cop_opp_l, cop_opp_r, W. }
  assert (0 < sval (mul c e)) by (rewrite C2; nia).
  split; [apply ctor_gives | apply some_gives]; auto; rewrite C2, ?A2, ?D2.
  - replace (k * (s * j)) with (s * (k * j)) by ring. exact Gm.
  - rewrite H1, H2, I1, I2. ring.
  - replace (s * k * j) with (s * (k * j)) by ring. exact Gm.
  - rewrite H1, H2, I1, I2. ring.
Qed.

Theorem rat_zero_divisor r x : canonical x ->
  (sval (num x) = 0 -> rat_div r x = None /\ rat_div_assign r x = None /\ rat_invert x = None) /\
  (forall y, normal y -> sval y = 0 -> rat_div_int r y = None /\ rat_div_int_assign r y = None).
Proof.
  intros Hx. split.
  - intros E. can Hx. unfold rat_div, rat_div_assign, rat_invert, rat_is_zero.
    rewrite is_zero_correct, E by assumption. auto.
  - intros y Ny E. unfold rat_div_int, rat_div_int_assign. rewrite is_zero_correct, E by assumption. auto.
Qed.

Theorem rat_opp_correct r : canonical r ->
  gives (rat_opp r) (- sval (num r)) (sval (den r)) /\ is_frac (rat_negate r) (- sval (num r)) (sval (den r)).
Proof.
  intros Hr. can Hr. destruct (negate_correct (num r) Nn) as [A1 A2].
  split.
  - apply ctor_gives; auto; rewrite ?A2; [apply cop_opp_l, G|ring].
  - split; [|cbn [num den rat_negate]; rewrite A2; ring].
    split; [exact A1|]. split; [exact Nd|]. split; [exact P|]. cbn [num den rat_negate]. rewrite A2. apply cop_opp_l, G.
Qed.

(** ** Rounding *)
Theorem rat_floor_correct r : canonical r ->
  exists q, rat_floor r = Some q /\ normal q /\
    sval q * sval (den r) <= sval (num r) < (sval q + 1) * sval (den r).
Proof.
  intros Hr. can Hr. unfold rat_floor.
  destruct (big_div_correct_partial (num r) (den r) Nn Nd ltac:(lia) (pos_not_bad _ _ P)) as (q & E & Nq & V).
  exists q. split; [exact E|]. split; [exact Nq|]. rewrite V.
  pose proof (Z.div_mod (sval (num r)) (sval (den r)) ltac:(lia)).
  pose proof (Z.mod_pos_bound (sval (num r)) (sval (den r)) P). nia.
Qed.
Theorem rat_ceil_correct r : canonical r ->
  exists q, rat_ceil r = Some q /\ normal q /\
    (sval q - 1) * sval (den r) < sval (num r) <= sval q * sval (den r).
Proof.
  intros Hr. can Hr. unfold rat_ceil. destruct (negate_correct (num r) Nn) as [A1 A2].
  destruct (big_div_correct_partial (negate (num r)) (den r) A1 Nd ltac:(lia) (pos_not_bad _ _ P)) as (q & -> & Nq & V).
  destruct (negate_correct q Nq) as [B1 B2].
  exists (negate q). split; [reflexivity|]. split; [exact B1|]. rewrite B2, V, A2.
  pose proof (Z.div_mod (- sval (num r)) (sval (den r)) ltac:(lia)).
  pose proof (Z.mod_pos_bound (- sval (num r)) (sval (den r)) P). nia.
Qed.
Theorem rat_frac_correct r : canonical r ->
  exists f q, rat_frac r = Some f /\ is_frac f (sval (num r) - q * sval (den r)) (sval (den r)) /\
    0 <= sval (num f) < sval (den f).
Proof.
  intros Hr. can Hr. unfold rat_frac.
  destruct (big_mod_correct_partial (num r) (den r) Nn Nd ltac:(lia) (pos_not_bad _ _ P)) as (m & -> & Nm & V).
  exists (mk_rat m (den r)), (sval (num r) / sval (den r)). split; [reflexivity|].
  unfold is_frac, canonical. cbn [num den]. rewrite V.
  pose proof (Z.div_mod (sval (num r)) (sval (den r)) ltac:(lia)).
  split; [|apply Z.mod_pos_bound; exact P]. split; [|nia].
  split; [exact Nm|]. split; [exact Nd|]. split; [exact P|].
  rewrite Z.gcd_mod, Z.gcd_comm by lia. exact G.
Qed.

(** Quotients and remainders: exact for a positive modulus. *)
Theorem rat_quotient_int_correct_partial r n : canonical r -> normal n -> 0 < sval n ->
  exists q, rat_quotient_int r n = Some q /\ normal q /\
    sval q * (sval n * sval (den r)) <= sval (num r) < (sval q + 1) * (sval n * sval (den r)).
Proof.
  intros Hr Nn0 Pn. can Hr. unfold rat_quotient_int. destruct (mul_ok n (den r)) as [A1 A2]; auto.
  assert (Pm : 0 < sval (mul n (den r))) by (rewrite A2; nia).
  destruct (big_div_correct_partial (num r) _ Nn A1 ltac:(lia) (pos_not_bad _ _ Pm)) as (q & E & Nq & V).
  exists q. split; [exact E|]. split; [exact Nq|]. rewrite <- A2, V.
  pose proof (Z.div_mod (sval (num r)) (sval (mul n (den r))) ltac:(lia)).
  pose proof (Z.mod_pos_bound (sval (num r)) (sval (mul n (den r))) Pm). nia.
Qed.
Theorem rat_mod_int_correct_partial r n : canonical r -> normal n -> 0 < sval n ->
  exists m q, rat_mod_int r n = Some m /\
    is_frac m (sval (num r) - q * sval n * sval (den r)) (sval (den r)) /\
    0 <= sval (num m) < sval n * sval (den m).
Proof.
  intros Hr Nn0 Pn. can Hr. unfold rat_mod_int. destruct (mul_ok n (den r)) as [A1 A2]; auto.
  assert (Pm : 0 < sval (mul n (den r))) by (rewrite A2; nia).
  destruct (big_mod_correct_partial (num r) _ Nn A1 ltac:(lia) (pos_not_bad _ _ Pm)) as (m & -> & Nm & V).
  exists (mk_rat m (den r)), (sval (num r) / sval (mul n (den r))). split; [reflexivity|].
  unfold is_frac, canonical. cbn [num den]. rewrite V.
  pose proof (Z.div_mod (sval (num r)) (sval (mul n (den r))) ltac:(lia)) as DM.
  assert (VV : sval (num r) mod sval (mul n (den r)) =
    sval (num r) - sval (num r) / sval (mul n (den r)) * sval n * sval (den r)) by (rewrite A2 in *; lia).
  split; [split; [|rewrite VV; ring]|rewrite A2 in *; apply Z.mod_pos_bound; exact Pm].
  split; [exact Nm|]. split; [exact Nd|]. split; [exact P|]. rewrite VV.
  replace (sval (num r) - sval (num r) / sval (mul n (den r)) * sval n * sval (den r)) with
   (1 * sval (num r) + (- (sval (num r) / sval (mul n (den r)) * sval n)) * sval (den r)) by ring.
  apply cop_shift; auto.
Qed.

Theorem rat_quotient_correct_partial r x : canonical r -> canonical x -> 0 < sval (num x) ->
  exists q, rat_quotient r x = Some q /\ normal q /\
    sval q = (sval (num r) * sval (den x)) / (sval (den r) * sval (num x)).
Proof.
  intros Hr Hx Px. can Hr. can Hx. unfold rat_quotient.
  destruct (mul_ok (num r) (den x)) as [A1 A2]; auto. destruct (mul_ok (den r) (num x)) as [B1 B2]; auto.
  assert (Pm : 0 < sval (mul (den r) (num x))) by (rewrite B2; nia).
  destruct (big_div_correct_partial _ _ A1 B1 ltac:(lia) (pos_not_bad _ _ Pm)) as (q & E & Nq & V).
  exists q. rewrite V, A2, B2. auto.
Qed.

Theorem rat_mod_correct_partial r x : canonical r -> canonical x -> 0 < sval (num x) ->
  gives (rat_mod r x)
    ((sval (num r) * sval (den x)) mod (sval (den r) * sval (num x))) (sval (den r) * sval (den x)).
Proof.
  intros Hr Hx Px. can Hr. can Hx. unfold rat_mod.
  destruct (gcd_step (den r) (den x) Nd Nd0 ltac:(lia)) as (g & k & l & -> & Ng & Pg & H1 & H2 & H3 & ->).
  destruct (Z.eqb_spec (sval g) 1) as [E|E].
  - destruct (mul_ok (num r) (den x)) as [A1 A2]; auto. destruct (mul_ok (den r) (num x)) as [B1 B2]; auto.
    assert (Pm : 0 < sval (mul (den r) (num x))) by (rewrite B2; nia).
    destruct (big_mod_correct_partial _ _ A1 B1 ltac:(lia) (pos_not_bad _ _ Pm)) as (m & -> & Nm & V).
    destruct (mul_ok (den r) (den x)) as [C1 C2]; auto. rewrite A2, B2 in V. rewrite <- V, <- C2.
    apply from_fraction_correct; auto. rewrite C2. nia.
  - destruct (big_div_exact (den r) g k Nd Ng Pg H1) as (q & -> & Nq & Vq).
    destruct (big_div_exact (den x) g l Nd0 Ng Pg H2) as (p & -> & Np & Vp).
    destruct (mul_ok (num r) p) as [A1 A2]; auto. destruct (mul_ok q (num x)) as [B1 B2]; auto.
    assert (0 < k) by nia. assert (0 < l) by nia.
    assert (Pm : 0 < sval (mul q (num x))) by (rewrite B2, Vq; nia).
    destruct (big_mod_correct_partial _ _ A1 B1 ltac:(lia) (pos_not_bad _ _ Pm)) as (m & -> & Nm & V).
    destruct (mul_ok q (den x)) as [C1 C2]; auto. rewrite A2, B2, Vp, Vq in V.
    destruct (from_fraction_correct m (mul q (den x)) Nm C1) as (f & -> & Hf & Ef); [rewrite C2, Vq; nia|].
    exists f. split; [reflexivity|]. split; [exact Hf|].
    replace (sval (num r) * sval (den x)) with (sval (num r) * l * sval g) by (rewrite H2; ring).
    replace (sval (den r) * sval (num x)) with (k * sval (num x) * sval g) by (rewrite H1; ring).
    rewrite Z.mul_mod_distr_r by nia. rewrite <- V.
    rewrite C2, Vq in Ef.
    transitivity (sval (num f) * (k * sval (den x)) * sval g); [rewrite H1; ring|]. rewrite Ef. ring.
Qed.

(** ** Powers *)
Lemma iter_mul x k : normal x ->
  normal (Nat.iter k (fun a => mul a x) x) /\ sval (Nat.iter k (fun a => mul a x) x) = sval x ^ Z.of_nat (S k).
Proof.
  intros N. induction k as [|k [I1 I2]]; [cbn [Nat.iter nat_rect]; rewrite Z.pow_1_r; auto|].
  cbn [Nat.iter nat_rect]. fold (Nat.iter k (fun a => mul a x) x).
  destruct (mul_ok (Nat.iter k (fun a => mul a x) x) x I1 N) as [A1 A2]. split; [exact A1|].
  rewrite A2, I2, (Nat2Z.inj_succ (S k)), Z.pow_succ_r by lia. ring.
Qed.
Lemma cop_pow a b n : 0 <= n -> Z.gcd a b = 1 -> Z.gcd (a ^ n) (b ^ n) = 1.
Proof.
  intros Hn G. assert (H : Z.gcd (a ^ n) b = 1).
  { revert n Hn. apply natlike_ind; [apply Z.gcd_1_l|]. intros n Hn I. rewrite Z.pow_succ_r by exact Hn.
    apply cop_mul_l; assumption. }
  pattern n at 2. revert n Hn H. intros n Hn H. set (c := a ^ n) in *. clearbody c. revert n Hn.
  apply natlike_ind; [apply Z.gcd_1_r|]. intros m Hm I. rewrite Z.pow_succ_r by exact Hm.
  apply cop_mul_r; assumption.
Qed.

Theorem rat_power_correct r e : canonical r -> (0 <= e \/ sval (num r) <> 0) ->
  gives (rat_power r e)
    (if e <? 0 then sval (den r) ^ (- e) else sval (num r) ^ e)
    (if e <? 0 then sval (num r) ^ (- e) else sval (den r) ^ e).
Proof.
  intros Hr H. unfold rat_power. destruct (Z.eqb_spec e 0) as [-> | E0].
  - exists (of_big_int [1]). split; [reflexivity|]. split; [apply canonical_int, normal_1; ub; lia|]. reflexivity.
  - can Hr. set (k := (Z.abs_nat e - 1)%nat).
    destruct (iter_mul (num r) k Nn) as [A1 A2]. destruct (iter_mul (den r) k Nd) as [B1 B2].
    assert (EK : Z.of_nat (S k) = Z.abs e) by (unfold k; lia). rewrite EK in A2, B2.
    set (pn := Nat.iter k _ (num r)) in *. set (pd := Nat.iter k _ (den r)) in *. clearbody pn pd.
    assert (PP : 0 < sval pd) by (rewrite B2; apply Z.pow_pos_nonneg; lia).
    assert (C : canonical (mk_rat pn pd)).
    { split; [exact A1|]. split; [exact B1|]. split; [exact PP|]. cbn [num den]. rewrite A2, B2. apply cop_pow; [lia|exact G]. }
    destruct (Z.ltb_spec e 0) as [S|S].
    + replace (- e) with (Z.abs e) by lia. rewrite <- A2, <- B2.
      apply (rat_invert_correct (mk_rat pn pd) C). cbn [num]. rewrite A2.
      apply Z.pow_nonzero; lia.
    + replace e with (Z.abs e) by lia. rewrite <- A2, <- B2.
      exists (mk_rat pn pd). split; [reflexivity|]. split; [exact C|reflexivity].
Qed.
