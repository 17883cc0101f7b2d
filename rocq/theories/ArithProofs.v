(** Proofs for arithmetic.h and arithmetic.cpp. *)

From Coq Require Import ZArith List Bool Lia Znumtheory.
From Verif Require Import BitsModel BitsSpec BitsProofs ArithModel ArithSpec.
Import ListNotations.
Open Scope Z_scope.

Lemma W_val : W64 = 2 ^ 64. Proof. reflexivity. Qed.
Lemma H_val : H63 = 2 ^ 63. Proof. reflexivity. Qed.
Lemma W_H : W64 = 2 * H63. Proof. reflexivity. Qed.
Lemma W_v : W64 = 18446744073709551616. Proof. reflexivity. Qed.
Lemma H_v : H63 = 9223372036854775808. Proof. reflexivity. Qed.
Lemma p64_v : 2 ^ 64 = 18446744073709551616. Proof. reflexivity. Qed.
Lemma p63_v : 2 ^ 63 = 9223372036854775808. Proof. reflexivity. Qed.
Ltac uw := unfold word, sint, not64 in *; rewrite ?p64_v, ?p63_v, ?W_v, ?H_v in *.

Lemma u64_small x : word x -> u64 x = x.
Proof. intros H. apply Z.mod_small. exact H. Qed.
Lemma u64_word x : word (u64 x).
Proof. unfold word, u64. rewrite <- W_val. apply Z.mod_pos_bound. reflexivity. Qed.
Lemma s64_small x : - 2 ^ 63 <= x < 2 ^ 63 -> s64 x = x.
Proof. intros H. unfold s64. rewrite Z.mod_small by (uw; lia). lia. Qed.
Lemma s64_big x : 2 ^ 63 <= x < 2 ^ 64 -> s64 x = x - 2 ^ 64.
Proof.
  intros H. unfold s64. replace (x + H63) with (x - H63 + 1 * W64) by (uw; lia).
  rewrite Z.mod_add, Z.mod_small by (uw; lia). uw. lia.
Qed.
Lemma u64_s64 x : u64 (s64 x) = u64 x.
Proof.
  unfold u64, s64. rewrite Zminus_mod_idemp_l. f_equal. lia.
Qed.
Lemma s64_u64 x : s64 (u64 x) = s64 x.
Proof. unfold u64, s64. rewrite Zplus_mod_idemp_l. reflexivity. Qed.
Lemma u64_mul x y : u64 (u64 x * y) = u64 (x * y).
Proof. unfold u64. apply Zmult_mod_idemp_l. Qed.
Lemma u64_idem x : u64 (u64 x) = u64 x.
Proof. apply u64_small, u64_word. Qed.
Lemma s64_range x : - 2 ^ 63 <= s64 x < 2 ^ 63.
Proof. unfold s64. pose proof (Z.mod_pos_bound (x + H63) W64). uw. lia. Qed.
Lemma chk_some x : - 2 ^ 63 <= x < 2 ^ 63 -> chk x = Some x.
Proof.
  intros H. unfold chk. destruct (Z.leb_spec (- H63) x); [|uw; lia].
  destruct (Z.ltb_spec x H63); [reflexivity|uw; lia].
Qed.

(** ** divide and remainder *)
Theorem divide_correct a b : - 2 ^ 63 <= a < 2 ^ 63 -> 0 < b < 2 ^ 64 ->
  divide a (s64 b) = Some (if (2 ^ 63 <=? a / b) then a / b - 2 ^ 64 else a / b).
Proof.
  intros Ha Hb. unfold divide. rewrite u64_s64, u64_small by (uw; lia).
  rewrite (proj2 (Z.eqb_neq b 0)) by lia.
  assert (Q : - 2 ^ 63 <= a / b < 2 ^ 63).
  { split; [apply Z.div_le_lower_bound; uw; nia | apply Z.div_lt_upper_bound; uw; nia]. }
  destruct (Z.leb_spec (2 ^ 63) (a / b)); [lia|].
  destruct (Z.leb_spec 0 a).
  - rewrite s64_small by lia. reflexivity.
  - assert (E : (-1 - a) / b = -1 - a / b).
    { symmetry. apply Z.div_unique with (r := b - 1 - a mod b).
      - left. pose proof (Z.mod_pos_bound a b). lia.
      - pose proof (Z.div_mod a b). lia. }
    rewrite E, s64_small by lia. replace (-1 - (-1 - a / b)) with (a / b) by lia. apply chk_some. lia.
Qed.

Theorem divide_exact a b : - 2 ^ 63 <= a < 2 ^ 63 -> 0 < b < 2 ^ 64 ->
  divide a (s64 b) = Some (a / b).
Proof.
  intros Ha Hb. rewrite divide_correct by auto.
  assert (Q : a / b < 2 ^ 63) by (apply Z.div_lt_upper_bound; uw; nia).
  destruct (Z.leb_spec (2 ^ 63) (a / b)); [lia|reflexivity].
Qed.

Theorem remainder_exact a b : - 2 ^ 63 <= a < 2 ^ 63 -> 0 < b < 2 ^ 64 ->
  remainder a (s64 b) = Some (s64 (a mod b)).
Proof.
  intros Ha Hb. unfold remainder. rewrite u64_s64, u64_small by (uw; lia).
  rewrite (proj2 (Z.eqb_neq b 0)) by lia.
  destruct (Z.leb_spec 0 a); [reflexivity|]. do 2 f_equal.
  assert (E : (-1 - a) mod b = b - 1 - a mod b).
  { symmetry. apply Z.mod_unique with (q := -1 - a / b).
    - left. pose proof (Z.mod_pos_bound a b). lia.
    - pose proof (Z.div_mod a b). lia. }
  rewrite E. unfold u64, not64. pose proof (Z.mod_pos_bound a b).
  replace (W64 - 1 - (b - 1 - a mod b) + b) with (a mod b + 1 * W64) by lia.
  rewrite Z.mod_add, Z.mod_small by (uw; lia). reflexivity.
Qed.

(** ** gcd *)
Lemma gcd_mod_r a b : Z.gcd a (b mod a) = Z.gcd a b.
Proof. destruct (Z.eq_dec a 0) as [->|H]; [rewrite Zmod_0_r; reflexivity|]. rewrite Z.gcd_comm, Z.gcd_mod by auto. reflexivity. Qed.

Lemma ugcd_loop_correct k : forall a b, 0 <= a -> 0 < b < 2 ^ Z.of_nat k ->
  ugcd_loop k a b = Some (Z.gcd a b).
Proof.
  induction k as [|k IH]; intros a b Ha Hb; [cbn in Hb; lia|].
  cbn [ugcd_loop]. rewrite (proj2 (Z.eqb_neq b 0)) by lia. cbv zeta.
  pose proof (Z.mod_pos_bound a b). pose proof (Z.div_mod a b).
  assert (G : Z.gcd a b = Z.gcd (a mod b) b) by (rewrite Z.gcd_mod by lia; apply Z.gcd_comm).
  destruct (Z.eqb_spec (a mod b) 0) as [E|E].
  - rewrite G, E. cbn [Z.gcd]. rewrite Z.abs_eq by lia. reflexivity.
  - set (a' := a mod b) in *. pose proof (Z.mod_pos_bound b a'). pose proof (Z.div_mod b a').
    assert (G' : Z.gcd a' b = Z.gcd a' (b mod a')) by (symmetry; apply gcd_mod_r).
    destruct (Z.eqb_spec (b mod a') 0) as [E'|E'].
    + rewrite G, G', E', Z.gcd_0_r, Z.abs_eq by lia. reflexivity.
    + rewrite IH; [rewrite G, G'; reflexivity|lia|].
      rewrite Nat2Z.inj_succ, Z.pow_succ_r in Hb by lia.
      assert (1 <= b / a') by (apply Z.div_le_lower_bound; lia). nia.
Qed.
Theorem unsigned_gcd_correct a b : 0 <= a -> 0 < b < 2 ^ 64 -> unsigned_gcd a b = Some (Z.gcd a b).
Proof. intros. apply ugcd_loop_correct; auto. Qed.
Theorem gcd_s_correct a b : sint a -> 0 < b < 2 ^ 64 -> gcd_s a b = Some (Z.gcd a b).
Proof.
  intros Ha Hb. unfold gcd_s. destruct (Z.ltb_spec 0 a).
  - apply unsigned_gcd_correct; lia.
  - destruct (Z.eqb_spec a 0) as [->|].
    + cbn [Z.gcd]. rewrite Z.abs_eq by lia. reflexivity.
    + rewrite chk_some by (uw; lia). rewrite unsigned_gcd_correct by lia. rewrite Z.gcd_opp_l. reflexivity.
Qed.

(** ** lcm *)
Lemma lcm_gcd a b : 0 < a -> 0 <= b -> Z.lcm a b * Z.gcd a b = a * b.
Proof.
  intros Ha Hb. unfold Z.lcm. rewrite Z.abs_eq.
  - pose proof (Z.gcd_divide_r a b) as [q Q]. 
    assert (0 < Z.gcd a b).
    { pose proof (Z.gcd_nonneg a b). destruct (Z.eq_dec (Z.gcd a b) 0) as [E|]; [|lia].
      apply Z.gcd_eq_0_l in E. lia. }
    rewrite Q at 1. rewrite Z.div_mul by lia. rewrite Q at 2. ring.
  - apply Z.mul_nonneg_nonneg; [lia|]. apply Z.div_pos; [lia|].
    pose proof (Z.gcd_nonneg a b). destruct (Z.eq_dec (Z.gcd a b) 0) as [E|]; [|lia].
    apply Z.gcd_eq_0_l in E. lia.
Qed.

Lemma lcm_loop_correct A B k : 0 < A -> 0 <= B -> Z.lcm A B < 2 ^ 64 -> 
  forall c d mc md, 0 < c < 2 ^ Z.of_nat k -> 0 <= d ->
  Z.gcd c d = Z.gcd A B -> c * md + d * mc = A * B ->
  0 < mc < 2 ^ 64 -> 0 <= md < 2 ^ 64 -> (A | mc) -> (A | md) -> (B | mc - c) -> (B | md + d) ->
  exists m, lcm_loop k c d mc md = Some (Z.lcm A B, Z.gcd A B, m) /\
    (A | m) /\ (B | m - Z.gcd A B) /\ 0 <= m /\ (0 < d -> m <= Z.lcm A B).
Proof.
  intros HA HB HL. pose proof (lcm_gcd A B HA HB) as LG.
  assert (G0 : 0 < Z.gcd A B).
  { pose proof (Z.gcd_nonneg A B). destruct (Z.eq_dec (Z.gcd A B) 0) as [E|]; [|lia].
    apply Z.gcd_eq_0_l in E. lia. }
  set (L := Z.lcm A B) in *. set (G := Z.gcd A B) in *. rewrite p64_v in HL.
  induction k as [|k IH]; intros c d mc md Hc Hd Hg Hi Hmc Hmd A1 A2 B1 B2; [cbn in Hc; lia|].
  cbn [lcm_loop]. rewrite (proj2 (Z.eqb_neq c 0)) by lia. cbv zeta.
  pose proof (Z.mod_pos_bound d c) as Md. pose proof (Z.div_mod d c) as Dd.
  assert (Qd : 0 <= d / c) by (apply Z.div_pos; lia).
  set (qd := d / c) in *. set (d' := d mod c) in *.
  assert (Hg' : Z.gcd c d' = G) by (unfold d'; rewrite gcd_mod_r; exact Hg).
  assert (Hi' : c * (md + qd * mc) + d' * mc = L * G).
  { rewrite LG. rewrite <- Hi. rewrite Dd by lia. ring. }
  assert (Gc : G <= c) by (rewrite <- Hg'; apply Z.divide_pos_le; [lia|apply Z.gcd_divide_l]).
  assert (M1 : md + qd * mc <= L) by nia.
  assert (M0 : 0 <= qd * mc) by nia.
  rewrite (u64_small (qd * mc)) by (uw; lia). rewrite (u64_small (md + qd * mc)) by (uw; lia).
  set (md' := md + qd * mc) in *.
  assert (A2' : (A | md')) by (apply Z.divide_add_r; [auto|apply Z.divide_mul_r; auto]).
  assert (B2' : (B | md' + d')).
  { replace (md' + d') with ((md + d) + qd * (mc - c)) by (unfold md'; rewrite Dd by lia; ring).
    apply Z.divide_add_r; [auto|apply Z.divide_mul_r; auto]. }
  destruct (Z.eqb_spec d' 0) as [E|E].
  - assert (Ec : c = G) by (rewrite E, Z.gcd_0_r, Z.abs_eq in Hg' by lia; exact Hg').
    exists mc. split.
    + do 3 f_equal; [|exact Ec]. rewrite E, Ec in Hi'. nia.
    + split; [exact A1|]. split; [rewrite <- Ec; exact B1|]. split; [lia|].
      intros Pd. assert (1 <= qd) by nia. unfold md' in M1. nia.
  - pose proof (Z.mod_pos_bound c d') as Mc. pose proof (Z.div_mod c d') as Dc.
    assert (Qc : 1 <= c / d') by (apply Z.div_le_lower_bound; lia).
    set (qc := c / d') in *. set (c' := c mod d') in *.
    assert (Hg2 : Z.gcd c' d' = G).
    { unfold c'. rewrite Z.gcd_comm, gcd_mod_r, Z.gcd_comm. exact Hg'. }
    assert (Hi2 : c' * md' + d' * (mc + qc * md') = L * G).
    { rewrite <- Hi'. assert (Dc2 : c = d' * qc + c') by (apply Dc; lia).
      replace (c * md') with ((d' * qc + c') * md') by (rewrite <- Dc2; reflexivity). ring. }
    assert (Gd : G <= d') by (rewrite <- Hg'; apply Z.divide_pos_le; [lia|apply Z.gcd_divide_r]).
    assert (Pm : 0 <= md') by lia.
    assert (M2 : mc + qc * md' <= L) by nia.
    assert (M3 : 0 <= qc * md') by nia.
    rewrite (u64_small (qc * md')) by (uw; lia). rewrite (u64_small (mc + qc * md')) by (uw; lia).
    assert (A1' : (A | mc + qc * md')) by (apply Z.divide_add_r; [auto|apply Z.divide_mul_r; auto]).
    assert (B1' : (B | mc + qc * md' - c')).
    { replace (mc + qc * md' - c') with ((mc - c) + qc * (md' + d')) by (assert (Dc2 : c = d' * qc + c') by (apply Dc; lia); lia).
      apply Z.divide_add_r; [auto|apply Z.divide_mul_r; auto]. }
    destruct (Z.ltb_spec 0 c').
    + assert (K1 : 0 < c' < 2 ^ Z.of_nat k).
      { rewrite Nat2Z.inj_succ, Z.pow_succ_r in Hc by lia.
        assert (Dc2 : c = d' * qc + c') by (apply Dc; lia).
        assert (Pd' : 0 < d') by lia.
        assert (d' <= d' * qc) by (clear - Qc Pd'; nia). lia. }
      rewrite LG in Hi2.
      destruct (IH c' d' (mc + qc * md') md') as (m & E1 & E2 & E3 & E4 & E5); auto; try (uw; lia).
      exists m. do 4 (split; [auto|]). intros _. apply E5. lia.
    + assert (C0 : c' = 0) by lia.
      assert (Ed : d' = G) by (rewrite C0 in Hg2; cbn [Z.gcd] in Hg2; rewrite Z.abs_eq in Hg2 by lia; exact Hg2).
      assert (EL : mc + qc * md' = L) by (rewrite C0, Ed in Hi2; nia).
      assert (W : md' <= mc + qc * md') by (clear - Qc Pm Hmc; nia).
      exists (if md' =? 0 then 0 else mc + qc * md' - md'). split.
      * do 2 f_equal; [rewrite EL, Ed; reflexivity|].
        destruct (md' =? 0); [reflexivity|]. apply u64_small. uw. lia.
      * destruct (Z.eqb_spec md' 0) as [Z0|Z0].
        -- split; [apply Z.divide_0_r|]. split.
           ++ rewrite Z0, Ed in B2'. replace (0 - G) with (- (0 + G)) by ring. apply Z.divide_opp_r. exact B2'.
           ++ lia.
        -- split; [apply Z.divide_sub_r; auto|]. split; [|lia].
           replace (mc + qc * md' - md' - G) with ((mc + qc * md' - c') - (md' + d')) by lia.
           apply Z.divide_sub_r; auto.
Qed.

Theorem lcm_correct a b : 0 < a < 2 ^ 64 -> 0 <= b < 2 ^ 64 -> Z.lcm a b < 2 ^ 64 ->
  exists m, lcm a b = Some (Z.lcm a b, Z.gcd a b, m) /\
    (a | m) /\ (b | m - Z.gcd a b) /\ 0 <= m /\ (0 < b -> m <= Z.lcm a b).
Proof.
  intros Ha Hb HL. apply (lcm_loop_correct a b 64); try lia; auto.
  - apply Z.divide_refl.
  - apply Z.divide_0_r.
  - rewrite Z.sub_diag. apply Z.divide_0_r.
  - apply Z.divide_refl.
Qed.

(** ** modular helpers *)
Theorem modAdd_correct a b n : word n -> 0 <= a < n -> 0 <= b < n -> modAdd a b n = (a + b) mod n.
Proof.
  intros Hn Ha Hb. unfold modAdd. rewrite (u64_small (n - b)) by (uw; lia).
  destruct (Z.ltb_spec a (n - b)).
  - rewrite u64_small by (uw; lia). symmetry. apply Z.mod_small. lia.
  - rewrite u64_small by (uw; lia). apply Z.mod_unique with (q := 1); lia.
Qed.
Theorem modProd_correct a b n : 0 <= a < n -> 0 <= b < n ->
  modProd a b n = if n <=? 2 ^ 32 then Some ((a * b) mod n) else None.
Proof.
  intros Ha Hb. unfold modProd. destruct (Z.ltb_spec (2 ^ 32) n); destruct (Z.leb_spec n (2 ^ 32)); try lia; auto.
  rewrite (proj2 (Z.eqb_neq n 0)) by lia. rewrite u64_small; [reflexivity|].
  change (2 ^ 32) with 4294967296 in *. uw. nia.
Qed.

Lemma power_bits_correct x n l : 0 <= n -> forall r e, 0 <= r -> 0 <= e ->
  u64 r = u64 (x ^ e) -> e = n / 2 ^ Z.of_nat l ->
  u64 (power_bits l x n r) = u64 (x ^ n) /\ (word r -> word (power_bits l x n r)).
Proof.
  intros Hn. induction l as [|l IH]; intros r e Hr He E1 E2; cbn [power_bits].
  - rewrite Z.div_1_r in E2. subst. auto.
  - cbv zeta. rewrite Nat2Z.inj_succ, Z.pow_succ_r in E2 by lia.
    set (y := n / 2 ^ Z.of_nat l).
    assert (P : 0 < 2 ^ Z.of_nat l) by (apply Z.pow_pos_nonneg; lia).
    assert (Hy : 0 <= y) by (apply Z.div_pos; lia).
    assert (Ee : e = y / 2) by (rewrite E2; unfold y; rewrite Z.div_div by lia; f_equal; ring).
    assert (L1 : Z.land y 1 = y mod 2) by (change 1 with (Z.ones 1); rewrite Z.land_ones by lia; reflexivity).
    rewrite L1.
    pose proof (Z.div_mod y 2) as Dy. pose proof (Z.mod_pos_bound y 2) as My.
    assert (Sq : u64 (r * r) = u64 (x ^ (2 * e))).
    { replace (2 * e) with (e + e) by lia. rewrite Z.pow_add_r by lia.
      unfold u64 in *. rewrite (Z.mul_mod r r), E1, <- Z.mul_mod by (vm_compute; discriminate). reflexivity. }
    destruct (Z.eqb_spec (y mod 2) 0) as [M|M]; cbn [negb].
    + destruct (IH (u64 (r * r)) y) as [I1 I2]; auto.
      * apply u64_word.
      * rewrite u64_idem, Sq. do 2 f_equal. lia.
      * split; [exact I1|]. intros _. apply I2, u64_word.
    + destruct (IH (u64 (u64 (r * r) * x)) y) as [I1 I2]; auto.
      * apply u64_word.
      * replace y with (2 * e + 1) by lia. rewrite Z.pow_add_r, Z.pow_1_r by lia.
        rewrite Sq, u64_idem. apply u64_mul.
      * split; [exact I1|]. intros _. apply I2, u64_word.
Qed.

Theorem power_correct x n : word x -> 0 <= n < 2 ^ 32 -> power x n = (x ^ n) mod 2 ^ 64.
Proof.
  intros Hx Hn. unfold power. destruct (Z.eqb_spec n 0) as [->|N0].
  - rewrite Z.pow_0_r. reflexivity.
  - destruct (Z.leb_spec x 1).
    + assert (C : x = 0 \/ x = 1) by (uw; lia). destruct C as [->| ->].
      * rewrite Z.pow_0_l by lia. reflexivity.
      * rewrite Z.pow_1_l by lia. reflexivity.
    + assert (Wn : word n) by (uw; change (2 ^ 32) with 4294967296 in Hn; lia).
      destruct (lastBit_correct n Wn) as [[? _]|[Hl Hb]]; [lia|].
      destruct (power_bits_correct x n (Z.to_nat (lastBit n))) with (r := 1) (e := 0) as [P1 P2]; try lia.
      * rewrite Z.pow_0_r. reflexivity.
      * rewrite Z2Nat.id by lia. symmetry. apply Z.div_small. lia.
      * rewrite <- (u64_small (power_bits _ _ _ _)) by (apply P2; uw; lia). rewrite P1. reflexivity.
Qed.
