(** Bitwise operations on big integers. *)

From Coq Require Import ZArith List Bool Lia.
From Verif Require Import BigIntModel BigIntSpec BigIntBase BigIntAdd BigIntMul BigIntDiv.
Import ListNotations.
Open Scope Z_scope.

(** ** Digits *)
Lemma digit_bit x : digit x -> (neg_flag <=? x) = Z.testbit x 31.
Proof.
  intros H. rewrite <- (Z.mod_small x (2 ^ 32)) at 2 by exact H.
  destruct (Z.leb_spec neg_flag x) as [L|L]; symmetry.
  - rewrite Z.mod_small by exact H. apply Z.testbit_true; [lia|].
    replace (x / 2 ^ 31) with 1; [reflexivity|]. ub. Z.div_mod_to_equations. lia.
  - rewrite Z.mod_small by exact H. apply Z.testbit_false; [lia|].
    replace (x / 2 ^ 31) with 0; [reflexivity|]. ub. Z.div_mod_to_equations. lia.
Qed.
Lemma digit_op f x y : (forall n, 0 <= n -> Z.testbit x n = false -> Z.testbit y n = false -> Z.testbit (f x y) n = false) ->
  0 <= f x y -> digit x -> digit y -> digit (f x y).
Proof.
  intros F P Hx Hy. split; [exact P|].
  destruct (Z.eq_dec (f x y) 0) as [->|N]; [reflexivity|].
  apply Z.log2_lt_pow2; [lia|]. apply Z.nle_gt. intros L.
  assert (Z.testbit (f x y) (Z.log2 (f x y)) = true) by (apply Z.bit_log2; lia).
  assert (T : forall z, digit z -> Z.testbit z (Z.log2 (f x y)) = false).
  { intros z Hz. destruct (Z.eq_dec z 0) as [->|Nz]; [apply Z.bits_0|].
    apply Z.bits_above_log2; [apply Hz|]. apply Z.lt_le_trans with 32; [|exact L].
    apply Z.log2_lt_pow2; [destruct Hz; lia|apply Hz]. }
  rewrite F in H; auto; [discriminate|]. apply Z.log2_nonneg.
Qed.
Lemma digit_land x y : digit x -> digit y -> digit (Z.land x y).
Proof.
  intros Hx Hy. apply (digit_op Z.land); auto.
  - intros n _ H1 H2. rewrite Z.land_spec, H1. reflexivity.
  - apply Z.land_nonneg. left. apply Hx.
Qed.
Lemma digit_lxor x y : digit x -> digit y -> digit (Z.lxor x y).
Proof.
  intros Hx Hy. apply (digit_op Z.lxor); auto.
  - intros n _ H1 H2. rewrite Z.lxor_spec, H1, H2. reflexivity.
  - apply Z.lxor_nonneg. split; intros; [apply Hy|apply Hx].
Qed.

Lemma bit_low x u n : digit x -> 0 <= n < 32 -> Z.testbit (x + B * u) n = Z.testbit x n.
Proof.
  intros Hx Hn. rewrite <- (Z.mod_pow2_bits_low (x + B * u) 32 n) by lia.
  rewrite <- (Z.mod_pow2_bits_low x 32 n) by lia. f_equal.
  rewrite pow32. rewrite Z.mul_comm, Z.mod_add by (rewrite B_val; lia). reflexivity.
Qed.
Lemma bit_high x u n : digit x -> 32 <= n -> Z.testbit (x + B * u) n = Z.testbit u (n - 32).
Proof.
  intros Hx Hn. replace n with (n - 32 + 32) at 1 by lia. rewrite <- Z.div_pow2_bits by lia. f_equal.
  rewrite pow32, Z.mul_comm, Z.div_add by (rewrite B_val; lia). rewrite Z.div_small; [lia|]. exact Hx.
Qed.

(** The operations work digit by digit. *)
Lemma land_digits x y u v : digit x -> digit y ->
  Z.land (x + B * u) (y + B * v) = Z.land x y + B * Z.land u v.
Proof.
  intros Hx Hy. apply Z.bits_inj'. intros n Hn. rewrite Z.land_spec.
  pose proof (digit_land x y Hx Hy).
  destruct (Z.lt_ge_cases n 32).
  - rewrite !bit_low by (assumption || lia). symmetry. apply Z.land_spec.
  - rewrite !bit_high by assumption. symmetry. apply Z.land_spec.
Qed.
Lemma lxor_digits x y u v : digit x -> digit y ->
  Z.lxor (x + B * u) (y + B * v) = Z.lxor x y + B * Z.lxor u v.
Proof.
  intros Hx Hy. apply Z.bits_inj'. intros n Hn. rewrite Z.lxor_spec.
  pose proof (digit_lxor x y Hx Hy).
  destruct (Z.lt_ge_cases n 32).
  - rewrite !bit_low by (assumption || lia). symmetry. apply Z.lxor_spec.
  - rewrite !bit_high by assumption. symmetry. apply Z.lxor_spec.
Qed.

Lemma map2_length f a : forall b, length a = length b -> length (map2 f a b) = length a.
Proof.
  induction a as [|x a IH]; intros [|y b] L; cbn [map2 length] in *; auto; try discriminate.
Qed.
Lemma map2_digits f a : (forall x y, digit x -> digit y -> digit (f x y)) ->
  forall b, Forall digit a -> Forall digit b -> Forall digit (map2 f a b).
Proof.
  intros F. induction a as [|x a IH]; intros [|y b] Ha Hb; cbn [map2]; auto.
  inversion Ha; inversion Hb; subst. constructor; auto.
Qed.
Lemma map2_value f (g : Z -> Z -> Z) : (forall x y u v, digit x -> digit y -> g (x + B * u) (y + B * v) = f x y + B * g u v) ->
  forall a b u v, Forall digit a -> Forall digit b -> length a = length b ->
  g (uval a + Bp (length a) * u) (uval b + Bp (length b) * v) = uval (map2 f a b) + Bp (length a) * g u v.
Proof.
  intros F. induction a as [|x a IH]; intros [|y b] u v Ha Hb L; try discriminate.
  - cbn [uval map2 length]. rewrite Bp_0, !Z.mul_1_l. reflexivity.
  - inversion Ha; inversion Hb; subst. cbn [map2 length] in *. injection L as L.
    rewrite !uval_cons, !Bp_S.
    replace (x + B * uval a + B * Bp (length a) * u) with (x + B * (uval a + Bp (length a) * u)) by ring.
    replace (y + B * uval b + B * Bp (length b) * v) with (y + B * (uval b + Bp (length b) * v)) by ring.
    rewrite F, IH by assumption. ring.
Qed.
Lemma map2_app f a b : forall c d, length a = length c -> map2 f (a ++ b) (c ++ d) = map2 f a c ++ map2 f b d.
Proof.
  induction a as [|x a IH]; intros [|y c] d L; try discriminate; [reflexivity|].
  cbn [app map2]. f_equal. apply IH. injection L as L. exact L.
Qed.
Lemma map2_firstn f a : forall b, map2 f a b = map2 f a (firstn (length a) b).
Proof. induction a as [|x a IH]; intros [|y b]; cbn [map2 length firstn]; auto. f_equal. apply IH. Qed.
Lemma map2_comm f a : (forall x y, f x y = f y x) -> forall b, map2 f a b = map2 f b a.
Proof. intros C. induction a as [|x a IH]; intros [|y b]; cbn [map2]; auto. rewrite C, IH. reflexivity. Qed.

(** Sign as an integer: 0 or -1. *)
Definition sg (d : bigint) : Z := if is_negative d then -1 else 0.
Lemma sval_sg d : sval d = uval d + Bp (length d) * sg d.
Proof.
  unfold sval, sg, is_negative, back. rewrite pow31. fold (Bp (length d)). unfold Bp. rewrite pow32.
  destruct (neg_flag <=? last d 0); ring.
Qed.

Lemma split_at {A} n (d : list A) : (n <= length d)%nat -> exists a b, d = a ++ b /\ length a = n.
Proof.
  intros L. exists (firstn n d), (skipn n d). rewrite firstn_skipn. split; [reflexivity|].
  rewrite firstn_length. lia.
Qed.
Lemma skipn_app_len {A} (a b : list A) : skipn (length a) (a ++ b) = b.
Proof. rewrite skipn_app, skipn_all, Nat.sub_diag. reflexivity. Qed.
Lemma firstn_app_len {A} (a b : list A) : firstn (length a) (a ++ b) = a.
Proof. rewrite firstn_app, firstn_all, Nat.sub_diag, app_nil_r. reflexivity. Qed.

Lemma low2_app f a b x : length a = length x -> low2 f (a ++ b) x = map2 f a x ++ b.
Proof.
  intros L. unfold low2. rewrite <- L at 1. rewrite skipn_app_len. f_equal.
  transitivity (map2 f (a ++ b) (x ++ [])); [rewrite app_nil_r; reflexivity|].
  rewrite map2_app by exact L. destruct b; cbn [map2]; apply app_nil_r.
Qed.
Lemma low2_same f a x : length a = length x -> low2 f a x = map2 f a x.
Proof. intros L. rewrite <- (app_nil_r a) at 1. rewrite low2_app, app_nil_r by exact L. reflexivity. Qed.

Lemma is_negative_app a b : b <> [] -> is_negative (a ++ b) = is_negative b.
Proof. intros H. unfold is_negative, back. rewrite last_app_ne by exact H. reflexivity. Qed.

Lemma digit_0 : digit 0. Proof. ub; lia. Qed.

(** ** Stripping leading zeros *)
Lemma strip_lead_spec r : r <> [] -> Forall digit r ->
  uval (rev (strip_lead 0 r)) = uval (rev r) /\ strip_lead 0 r <> [] /\ Forall digit (strip_lead 0 r) /\
  (length (strip_lead 0 r) = 1%nat \/ hd 0 (strip_lead 0 r) <> 0).
Proof.
  induction r as [|x r IH]; intros N F; [congruence|]. inversion F as [|? ? Hx Fr]; subst.
  destruct r as [|y r].
  - cbn [strip_lead]. auto.
  - change (strip_lead 0 (x :: y :: r)) with (if x =? 0 then strip_lead 0 (y :: r) else x :: y :: r).
    destruct (Z.eqb_spec x 0) as [->|X].
    + destruct (IH ltac:(discriminate) Fr) as (I1 & I2 & I3 & I4).
      split; [|auto]. rewrite I1. change (rev (0 :: y :: r)) with (rev (y :: r) ++ [0]).
      rewrite uval_app. cbn [uval]. ring.
    + split; [reflexivity|]. split; [discriminate|]. split; [exact F|]. right. exact X.
Qed.

Lemma strip_spec l : wf l -> normal (strip 0 l) /\ sval (strip 0 l) = uval l.
Proof.
  intros [N F].
  assert (Nr : rev l <> []) by (intros E; apply (f_equal (@rev Z)) in E; rewrite rev_involutive in E; auto).
  destruct (strip_lead_spec (rev l) Nr (Forall_rev F)) as (E & N2 & F2 & H).
  rewrite rev_involutive in E. unfold strip. set (r := strip_lead 0 (rev l)) in *. clearbody r.
  destruct r as [|x t]; [congruence|]. cbn [hd] in *. change (neg_flag <=? 0) with false.
  inversion F2 as [|? ? Hx Ft]; subst. cbn [rev] in E.
  assert (Ft' : Forall digit (rev t)) by (apply Forall_rev; exact Ft).
  destruct (Z.leb_spec neg_flag x) as [L|L]; cbn [Bool.eqb].
  - cbn [rev]. rewrite <- app_assoc. cbn [app].
    split.
    + apply normal_top2; auto using digit_0. unfold redundant. ub. lia.
    + change [x; 0] with ([x] ++ [0]). rewrite app_assoc, sval_snoc, <- E.
      change (s32 0) with 0. ring.
  - cbn [rev]. split.
    + destruct H as [H|H].
      * destruct t; [apply normal_1; exact Hx|discriminate].
      * destruct t as [|y t]; [apply normal_1; exact Hx|]. cbn [rev]. rewrite <- app_assoc. cbn [app].
        inversion Ft; subst. apply normal_top2; auto; [apply Forall_rev; assumption|].
        unfold redundant. ub. lia.
    + rewrite <- E, sval_snoc, uval_app. cbn [uval]. rewrite rev_length. unfold s32.
      destruct (Z.ltb_spec x neg_flag); [ring|lia].
Qed.

(** ** AND *)
Lemma redundant_dec y x : {redundant y x} + {~ redundant y x}.
Proof.
  unfold redundant.
  destruct (Z.eq_dec x 0); destruct (Z.eq_dec x (B - 1)); destruct (Z_lt_dec y neg_flag);
    try (left; lia); right; lia.
Qed.

Lemma land_top x y : digit x -> digit y ->
  (neg_flag <=? Z.land x y) = (neg_flag <=? x) && (neg_flag <=? y).
Proof.
  intros Hx Hy. rewrite !digit_bit by auto using digit_land. apply Z.land_spec.
Qed.
Lemma land_all x y : digit x -> digit y -> Z.land x y = B - 1 -> x = B - 1 /\ y = B - 1.
Proof.
  intros Hx Hy E.
  assert (H : forall z, digit z -> (forall n, 0 <= n < 32 -> Z.testbit z n = true) -> z = B - 1).
  { intros z Hz T. replace (B - 1) with (Z.ones 32) by reflexivity. rewrite <- (Z.mod_small z (2 ^ 32)) by exact Hz.
    apply Z.bits_inj'. intros n Hn. destruct (Z.lt_ge_cases n 32).
    - rewrite Z.mod_pow2_bits_low, Z.ones_spec_low by lia. apply T. lia.
    - rewrite Z.mod_pow2_bits_high, Z.ones_spec_high by lia. reflexivity. }
  assert (T : forall n, 0 <= n < 32 -> Z.testbit x n && Z.testbit y n = true).
  { intros n Hn. rewrite <- Z.land_spec, E. replace (B - 1) with (Z.ones 32) by reflexivity.
    apply Z.ones_spec_low. exact Hn. }
  split; apply H; auto; intros n Hn; apply T in Hn; apply andb_true_iff in Hn; apply Hn.
Qed.
Lemma land_ones_l x : digit x -> Z.land (B - 1) x = x.
Proof.
  intros H. replace (B - 1) with (Z.ones 32) by reflexivity. rewrite Z.land_comm, Z.land_ones by lia.
  apply Z.mod_small. exact H.
Qed.

Lemma wf_app_inv a b : b <> [] -> wf (a ++ b) -> Forall digit a /\ wf b.
Proof. intros N [_ F]. apply Forall_app in F as [Fa Fb]. split; [exact Fa|]. split; assumption. Qed.

Lemma sg_land a b : Forall digit a -> Forall digit b -> length a = length b -> a <> [] ->
  sg (map2 Z.land a b) = Z.land (sg a) (sg b) /\ is_negative (map2 Z.land a b) = is_negative a && is_negative b.
Proof.
  intros Fa Fb L N.
  destruct (exists_last N) as (a' & x & ->).
  assert (Nb : b <> []) by (destruct b; [rewrite app_length in L; cbn in L; lia|discriminate]).
  destruct (exists_last Nb) as (b' & y & ->).
  rewrite !app_length in L. cbn [length] in L.
  apply Forall_app in Fa as [Fa Hx]. apply Forall_app in Fb as [Fb Hy]. inversion Hx; inversion Hy; subst.
  assert (E : is_negative (map2 Z.land (a' ++ [x]) (b' ++ [y])) = is_negative (a' ++ [x]) && is_negative (b' ++ [y])).
  { rewrite map2_app by lia. cbn [map2]. unfold is_negative, back. rewrite !last_snoc. apply land_top; assumption. }
  split; [|exact E]. unfold sg. rewrite E.
  destruct (is_negative (a' ++ [x])), (is_negative (b' ++ [y])); reflexivity.
Qed.

Lemma and_neg D x : normal D -> normal x -> is_negative x = true -> (length x <= length D)%nat ->
  is_negative D = true \/ (length x < length D)%nat ->
  normal (low2 Z.land D x) /\ sval (low2 Z.land D x) = Z.land (sval D) (sval x).
Proof.
  intros ND Nx Sx L C.
  destruct (split_at (length x) D L) as (a & b & -> & La). rewrite low2_app by exact La.
  pose proof (normal_wf _ ND) as WD. pose proof (normal_wf _ Nx) as Wx. destruct Wx as [Nex Fx].
  assert (Fab : Forall digit a /\ Forall digit b) by (apply Forall_app, WD). destruct Fab as [Fa Fb].
  assert (Fm : Forall digit (map2 Z.land a x)) by (apply map2_digits; auto using digit_land).
  assert (Nea : a <> []) by (intros ->; cbn in La; destruct x; [congruence|discriminate]).
  assert (sgx : sg x = -1) by (unfold sg; rewrite Sx; reflexivity).
  assert (V : Z.land (sval (a ++ b)) (sval x) = uval (map2 Z.land a x) + Bp (length a) * (uval b + Bp (length b) * sg (a ++ b))).
  { rewrite !sval_sg, sgx, uval_app, app_length, Bp_add.
    replace (uval a + Bp (length a) * uval b + Bp (length a) * Bp (length b) * sg (a ++ b)) with
      (uval a + Bp (length a) * (uval b + Bp (length b) * sg (a ++ b))) by ring.
    rewrite (map2_value Z.land Z.land land_digits), Z.land_m1_r by assumption. reflexivity. }
  rewrite V. destruct b as [|b0 b1].
  - rewrite app_nil_r in *. cbn [uval length]. rewrite Bp_0.
    assert (SD : is_negative a = true) by (destruct C as [C|C]; [exact C|lia]).
    destruct (sg_land a x Fa Fx La Nea) as [G1 G2].
    assert (sga : sg a = -1) by (unfold sg; rewrite SD; reflexivity).
    split.
    + destruct (le_lt_dec 2 (length a)) as [L2|L2].
      * destruct (snoc2 a L2) as (c & y & z & ->). destruct (snoc2 x) as (c' & y' & z' & ->); [lia|].
        rewrite !app_length in La. cbn [length] in La.
        rewrite map2_app by lia. cbn [map2].
        apply Forall_app in Fa as [Fc Fyz]. apply Forall_app in Fx as [Fc' Fyz'].
        inversion Fyz as [|? ? Hy Fz]; inversion Fz as [|? ? Hz _]; inversion Fyz' as [|? ? Hy' Fz']; inversion Fz' as [|? ? Hz' _]; subst.
        apply normal_top2 in ND; auto. apply normal_top2 in Nx; auto.
        apply normal_top2; auto using digit_land; [apply map2_digits; auto using digit_land|].
        unfold is_negative, back in SD, Sx.
        change [y; z] with ([y] ++ [z]) in SD. rewrite app_assoc, last_snoc in SD.
        change [y'; z'] with ([y'] ++ [z']) in Sx. rewrite app_assoc, last_snoc in Sx.
        pose proof (land_top z z' Hz Hz') as T. rewrite SD, Sx in T. apply Z.leb_le in T.
        intros [[R1 R2]|[R1 R2]]; [rewrite neg_val in T; lia|].
        apply land_all in R1 as [-> ->]; auto. apply ND. right. split; [reflexivity|].
        apply Z.leb_le in R2. rewrite land_top in R2 by assumption. apply andb_true_iff in R2 as [R2 _].
        apply Z.leb_le. exact R2.
      * destruct a as [|a0 [|a1 a2]]; [congruence| |cbn in L2; lia].
        destruct x as [|x0 [|x1 x2]]; [congruence| |discriminate].
        cbn [map2]. inversion Fm; subst. apply normal_1. assumption.
    + rewrite sval_sg, G1, map2_length, sga, sgx by exact La. rewrite Z.land_m1_r. rewrite app_nil_r, sga. ring.
  - assert (Neb : b0 :: b1 <> []) by discriminate. remember (b0 :: b1) as b eqn:Eb. clear Eb b0 b1.
    split.
    + destruct (le_lt_dec 2 (length b)) as [L2|L2].
      * assert (Wb : wf b) by (split; assumption).
        apply normal_app; auto. apply normal_app in ND; auto.
      * destruct b as [|z [|? ?]]; [congruence| |cbn in L2; lia].
        destruct (exists_last Nea) as (c & y & ->). destruct (exists_last Nex) as (c' & y' & ->).
        rewrite !app_length in La. cbn [length] in La. rewrite map2_app by lia. cbn [map2].
        apply Forall_app in Fa as [Fc Fy]. apply Forall_app in Fx as [Fc' Fy'].
        inversion Fy as [|? ? Hy _]; inversion Fy' as [|? ? Hy' _]; inversion Fb as [|? ? Hz _]; subst.
        rewrite <- app_assoc in ND |- *. cbn [app] in *. apply normal_top2 in ND; auto.
        apply normal_top2; auto using digit_land; [apply map2_digits; auto using digit_land|].
        unfold is_negative, back in Sx. rewrite last_snoc in Sx.
        pose proof (land_top y y' Hy Hy') as T. rewrite Sx, andb_true_r in T.
        intros R. apply ND. unfold redundant in *. destruct R as [[R1 R2]|[R1 R2]]; [left|right]; (split; [exact R1|]).
        -- apply Z.leb_gt. rewrite <- T. apply Z.leb_gt. exact R2.
        -- apply Z.leb_le. rewrite <- T. apply Z.leb_le. exact R2.
    + rewrite sval_sg, uval_app, app_length, Bp_add, map2_length by exact La.
      unfold sg. rewrite !is_negative_app by exact Neb. ring.
Qed.

Lemma low2_swap n d x : n = length d -> (n < length x)%nat ->
  low2 Z.land (d ++ skipn n x) (firstn n x) = low2 Z.land x d.
Proof.
  intros -> L. destruct (split_at (length d) x ltac:(lia)) as (a & b & -> & La).
  rewrite <- La at 1 2. rewrite skipn_app_len, firstn_app_len, !low2_app by auto.
  f_equal. apply map2_comm, Z.land_comm.
Qed.

(** The value when the positive argument(s) of size at most [i] decide. *)
Lemma and_pos d x i : wf d -> wf x -> (0 < i)%nat -> (i <= length d)%nat -> (i <= length x)%nat ->
  (i = length d /\ is_negative d = false \/ i = length x /\ is_negative x = false) ->
  normal (strip 0 (map2 Z.land (firstn i d) (firstn i x))) /\
  sval (strip 0 (map2 Z.land (firstn i d) (firstn i x))) = Z.land (sval d) (sval x).
Proof.
  intros Wd Wx Pi Ld Lx C.
  destruct (split_at i d Ld) as (a & b & -> & La). destruct (split_at i x Lx) as (a' & b' & -> & La').
  rewrite <- La at 1 3. rewrite <- La' at 1 2. rewrite !firstn_app_len.
  assert (Fab : Forall digit a /\ Forall digit b) by (apply Forall_app, Wd). destruct Fab as [Fa Fb].
  assert (Fab' : Forall digit a' /\ Forall digit b') by (apply Forall_app, Wx). destruct Fab' as [Fa' Fb'].
  assert (Wm : wf (map2 Z.land a a')).
  { split; [|apply map2_digits; auto using digit_land].
    intros E. apply (f_equal (@length Z)) in E. rewrite map2_length in E by lia. cbn in E. lia. }
  destruct (strip_spec _ Wm) as [S1 S2]. split; [exact S1|]. rewrite S2.
  rewrite !sval_sg, !uval_app, !app_length, !Bp_add.
  replace (uval a + Bp (length a) * uval b + Bp (length a) * Bp (length b) * sg (a ++ b)) with
      (uval a + Bp (length a) * (uval b + Bp (length b) * sg (a ++ b))) by ring.
  replace (uval a' + Bp (length a') * uval b' + Bp (length a') * Bp (length b') * sg (a' ++ b')) with
      (uval a' + Bp (length a') * (uval b' + Bp (length b') * sg (a' ++ b'))) by ring.
  rewrite (map2_value Z.land Z.land land_digits) by (assumption || lia).
  destruct C as [[E S]|[E S]].
  - rewrite app_length in E. assert (b = []) by (destruct b; [reflexivity|cbn in E; lia]). subst b.
    unfold sg at 1. rewrite S. cbn [uval length]. replace (0 + Bp 0 * 0) with 0 by ring. rewrite Z.land_0_l. ring.
  - rewrite app_length in E. assert (b' = []) by (destruct b'; [reflexivity|cbn in E; lia]). subst b'.
    unfold sg at 2. rewrite S. cbn [uval length]. replace (0 + Bp 0 * 0) with 0 by ring. rewrite Z.land_0_r. ring.
Qed.

Theorem and_assign_correct d x : normal d -> normal x ->
  normal (and_assign d x) /\ sval (and_assign d x) = Z.land (sval d) (sval x).
Proof.
  intros Nd Nx. unfold and_assign.
  pose proof (normal_wf _ Nd) as Wd. pose proof (normal_wf _ Nx) as Wx.
  pose proof (wf_len1 _ Wd) as Ld. pose proof (wf_len1 _ Wx) as Lx.
  destruct (is_negative d) eqn:Sd; destruct (is_negative x) eqn:Sx; cbn [andb xorb].
  - destruct (Nat.ltb_spec (length d) (length x)).
    + rewrite low2_swap by auto. rewrite Z.land_comm. apply and_neg; auto. lia.
    + apply and_neg; auto.
  - destruct (Nat.ltb_spec (length d) (length x)).
    + rewrite low2_swap by auto. rewrite Z.land_comm. apply and_neg; auto. lia.
    + apply and_pos; auto; lia.
  - destruct (Nat.ltb_spec (length x) (length d)).
    + apply and_neg; auto. lia.
    + apply and_pos; auto; lia.
  - apply and_pos; auto; try lia. destruct (le_lt_dec (length d) (length x)); [left|right]; (split; [lia|assumption]).
Qed.

(** ** OR and AND NOT through complements *)
Lemma is_negative_cpl d : wf d -> is_negative (map cpl d) = negb (is_negative d).
Proof.
  intros W. unfold is_negative, back. rewrite last_map_cpl by apply W.
  destruct (wf_snoc_inv d W) as (a & x & -> & _ & Hx). rewrite last_snoc.
  destruct (Z.leb_spec neg_flag x); [apply Z.leb_gt|apply Z.leb_le]; ub; lia.
Qed.
Lemma map2_andnot a : forall b, map2 andnot_digit a b = map2 Z.land a (map cpl b).
Proof. induction a as [|x a IH]; intros [|y b]; cbn [map2 map]; auto. rewrite IH. reflexivity. Qed.
Lemma low2_andnot a b : low2 andnot_digit a b = low2 Z.land a (map cpl b).
Proof. unfold low2. rewrite map2_andnot, map_length. reflexivity. Qed.

Lemma andnot_as_and d x : wf d -> wf x -> andnot_assign d x = and_assign d (map cpl x).
Proof.
  intros Wd Wx. unfold andnot_assign, and_assign. rewrite is_negative_cpl, map_length by exact Wx.
  rewrite !low2_andnot, map2_andnot, skipn_map, !firstn_map.
  destruct (is_negative d), (is_negative x); reflexivity.
Qed.
Theorem andnot_assign_correct d x : normal d -> normal x ->
  normal (andnot_assign d x) /\ sval (andnot_assign d x) = Z.ldiff (sval d) (sval x).
Proof.
  intros Nd Nx. rewrite andnot_as_and by (apply normal_wf; assumption).
  destruct (and_assign_correct d (map cpl x) Nd (normal_cpl _ Nx)) as [H1 H2]. split; [exact H1|].
  rewrite H2, sval_cpl by (apply normal_wf; exact Nx). rewrite Z.ldiff_land. f_equal. unfold Z.lnot. lia.
Qed.

Lemma lor_cpl x y : digit x -> digit y -> Z.lor x y = cpl (Z.land (cpl x) (cpl y)).
Proof.
  intros Hx Hy. pose proof (digit_cpl _ Hx). pose proof (digit_cpl _ Hy).
  assert (E : forall z, cpl z = Z.lnot z + B * 1) by (intros z; unfold cpl, Z.lnot; lia).
  assert (E2 : Z.land (cpl x) (cpl y) = Z.lnot (Z.lor x y) + B * 1); [|rewrite E2; unfold cpl, Z.lnot; lia].
  apply Z.bits_inj'. intros n Hn. rewrite Z.land_spec.
  assert (T : forall z, digit z -> Z.testbit (Z.lnot z + B * 1) n = if n <? 32 then negb (Z.testbit z n) else false).
  { intros z Hz. destruct (Z.ltb_spec n 32).
    - rewrite <- Z.lnot_spec by lia. rewrite <- (Z.mod_pow2_bits_low (Z.lnot z) 32), <- (Z.mod_pow2_bits_low (_ + _) 32) by lia.
      f_equal. rewrite pow32. rewrite Z.mul_comm, Z.mod_add by (rewrite B_val; lia). reflexivity.
    - rewrite <- E. destruct (Z.eq_dec (cpl z) 0) as [->|N]; [apply Z.bits_0|].
      pose proof (digit_cpl _ Hz) as Hc. apply Z.bits_above_log2; [apply Hc|].
      apply Z.lt_le_trans with 32; [|assumption]. apply Z.log2_lt_pow2; [destruct Hc; lia|apply Hc]. }
  assert (Ho : digit (Z.lor x y)).
  { apply (digit_op Z.lor); auto; [|apply Z.lor_nonneg; split; [apply Hx|apply Hy]].
    intros k _ H1 H2. rewrite Z.lor_spec, H1, H2. reflexivity. }
  rewrite !E, !T by assumption. rewrite Z.lor_spec.
  destruct (n <? 32); [rewrite negb_orb|]; reflexivity.
Qed.
Lemma map2_lor a : forall b, Forall digit a -> Forall digit b ->
  map2 Z.lor a b = map cpl (map2 Z.land (map cpl a) (map cpl b)).
Proof.
  induction a as [|x a IH]; intros [|y b] Fa Fb; cbn [map2 map]; auto.
  inversion Fa; inversion Fb; subst. rewrite IH, lor_cpl by assumption. reflexivity.
Qed.
Lemma low2_lor a b : Forall digit a -> Forall digit b ->
  low2 Z.lor a b = map cpl (low2 Z.land (map cpl a) (map cpl b)).
Proof.
  intros Fa Fb. unfold low2. rewrite map_app, map2_lor by assumption. f_equal.
  rewrite map_length, <- skipn_map, map_cpl_cpl. reflexivity.
Qed.
Lemma strip_lead_cpl r : map cpl (strip_lead 0 (map cpl r)) = strip_lead (B - 1) r.
Proof.
  induction r as [|x [|y r] IH]; [reflexivity|cbn [map strip_lead]; rewrite cpl_cpl; reflexivity|].
  change (strip_lead 0 (map cpl (x :: y :: r))) with
    (if cpl x =? 0 then strip_lead 0 (map cpl (y :: r)) else map cpl (x :: y :: r)).
  change (strip_lead (B - 1) (x :: y :: r)) with (if x =? B - 1 then strip_lead (B - 1) (y :: r) else x :: y :: r).
  destruct (Z.eqb_spec (cpl x) 0) as [E|E]; destruct (Z.eqb_spec x (B - 1)) as [F|F];
    try (unfold cpl in E; lia); [exact IH|apply map_cpl_cpl].
Qed.
Lemma strip_cpl l : wf l -> strip (B - 1) l = map cpl (strip 0 (map cpl l)).
Proof.
  intros [N F]. unfold strip. rewrite <- map_rev.
  pose proof (strip_lead_cpl (rev l)) as E.
  assert (Fr : Forall digit (strip_lead 0 (map cpl (rev l))) /\ strip_lead 0 (map cpl (rev l)) <> []).
  { destruct (strip_lead_spec (map cpl (rev l))) as (_ & A & C & _); auto.
    - intros H. apply map_eq_nil in H. apply (f_equal (@rev Z)) in H. rewrite rev_involutive in H. auto.
    - apply Forall_cpl, Forall_rev, F. }
  set (r := strip_lead 0 (map cpl (rev l))) in *. rewrite <- E. clearbody r. destruct Fr as [Fr Nr].
  destruct r as [|x t]; [congruence|]. inversion Fr as [|? ? Hx Ft]; subst. cbn [map hd].
  assert (T : (neg_flag <=? cpl x) = negb (neg_flag <=? x)).
  { destruct (Z.leb_spec neg_flag x); [apply Z.leb_gt|apply Z.leb_le]; ub; lia. }
  rewrite T. change (neg_flag <=? B - 1) with true. change (neg_flag <=? 0) with false.
  destruct (neg_flag <=? x); cbn [negb Bool.eqb].
  - rewrite !map_rev. cbn [map]. change (cpl 0) with (B - 1). reflexivity.
  - rewrite !map_rev. reflexivity.
Qed.

Lemma or_as_and d x : wf d -> wf x -> or_assign d x = map cpl (and_assign (map cpl d) (map cpl x)).
Proof.
  intros Wd Wx. unfold or_assign, and_assign. rewrite !is_negative_cpl, !map_length by assumption.
  pose proof (wf_len1 _ Wd) as Ld. pose proof (wf_len1 _ Wx) as Lx.
  destruct Wd as [_ Fd]. destruct Wx as [_ Fx].
  assert (FS : Forall digit (d ++ skipn (length d) x)) by (apply Forall_app; split; [exact Fd|apply Forall_skipn, Fx]).
  assert (FF : forall i, Forall digit (firstn i x) /\ Forall digit (firstn i d)) by (intros; split; apply Forall_firstn; assumption).
  assert (SS : forall i, (0 < i)%nat -> (i <= length d)%nat -> (i <= length x)%nat ->
     strip (B - 1) (map2 Z.lor (firstn i d) (firstn i x)) =
     map cpl (strip 0 (map2 Z.land (firstn i (map cpl d)) (firstn i (map cpl x))))).
  { intros i Pi L1 L2. rewrite map2_lor by apply FF.
    rewrite strip_cpl, map_cpl_cpl, !firstn_map; [reflexivity|].
    split; [|apply Forall_cpl, map2_digits; auto using digit_land; apply Forall_cpl, FF].
    intros H. apply (f_equal (@length Z)) in H.
    rewrite map_length, map2_length, map_length, firstn_length in H; [cbn in H; lia|].
    rewrite !map_length, !firstn_length. lia. }
  rewrite !low2_lor by (assumption || apply FF). rewrite map_app, !skipn_map, !firstn_map.
  destruct (is_negative d), (is_negative x); cbn [negb andb xorb].
  - rewrite SS by lia. rewrite !firstn_map. reflexivity.
  - destruct (Nat.ltb_spec (length x) (length d)); [reflexivity|]. rewrite SS by lia. rewrite !firstn_map. reflexivity.
  - destruct (Nat.ltb_spec (length d) (length x)); [reflexivity|]. rewrite SS by lia. rewrite !firstn_map. reflexivity.
  - destruct (Nat.ltb_spec (length d) (length x)); reflexivity.
Qed.
Theorem or_assign_correct d x : normal d -> normal x ->
  normal (or_assign d x) /\ sval (or_assign d x) = Z.lor (sval d) (sval x).
Proof.
  intros Nd Nx. rewrite or_as_and by (apply normal_wf; assumption).
  destruct (and_assign_correct (map cpl d) (map cpl x) (normal_cpl _ Nd) (normal_cpl _ Nx)) as [H1 H2].
  split; [apply normal_cpl, H1|].
  rewrite sval_cpl, H2, !sval_cpl by (apply normal_wf; assumption).
  replace (-1 - sval d) with (Z.lnot (sval d)) by (unfold Z.lnot; lia).
  replace (-1 - sval x) with (Z.lnot (sval x)) by (unfold Z.lnot; lia).
  rewrite <- Z.lnot_lor. unfold Z.lnot. lia.
Qed.
