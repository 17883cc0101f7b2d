(** Division: shift_modulo and the long division of reduce_mod. *)

From Coq Require Import ZArith List Bool Lia.
From Verif Require Import BigIntModel BigIntSpec BigIntBase BigIntAdd BigIntMul.
Import ListNotations.
Open Scope Z_scope.

Ltac Zify.zify_post_hook ::= Z.div_mod_to_equations.

Lemma land_shift a b k : 0 <= k -> 0 <= b < 2 ^ k -> Z.land (a * 2 ^ k) b = 0.
Proof.
  intros Hk Hb. apply Z.bits_inj'. intros n Hn. rewrite Z.land_spec, Z.bits_0.
  destruct (Z.lt_ge_cases n k) as [L|L].
  - rewrite Z.mul_pow2_bits_low by lia. reflexivity.
  - assert (E : Z.testbit b n = false); [|rewrite E; apply andb_false_r].
    destruct (Z.eq_dec b 0) as [->|N]; [apply Z.bits_0|].
    apply Z.bits_above_log2; [lia|]. apply Z.log2_lt_pow2; [lia|].
    apply Z.lt_le_trans with (2 ^ k); [lia|]. apply Z.pow_le_mono_r; lia.
Qed.

Lemma lor_add a b k : 0 <= k -> 0 <= b < 2 ^ k -> Z.lor (a * 2 ^ k) b = a * 2 ^ k + b.
Proof.
  intros Hk Hb. pose proof (land_shift a b k Hk Hb) as E.
  rewrite <- Z.lxor_lor by exact E. symmetry. apply Z.add_nocarry_lxor, E.
Qed.

Lemma lor_B a b : digit b -> Z.lor (a * B) b = a * B + b.
Proof. intros H. rewrite <- pow32. apply lor_add; [lia|exact H]. Qed.

(** shift_modulo *)
Lemma shift_mod_pos_spec base : digit base -> 0 < base -> forall r acc q f,
  Forall digit r -> 0 <= acc < base -> shift_mod_pos r acc base = (q, f) ->
  Forall digit q /\ length q = length r /\ 0 <= f < base /\
  uval (rev r) + Bp (length r) * acc = uval (rev q) * base + f.
Proof.
  intros Hb Pb. induction r as [|x r IH]; intros acc q f Fr Ha E; cbn [shift_mod_pos] in E.
  - injection E as <- <-. repeat split; auto; [lia..|]. cbn [rev uval length]. rewrite Bp_0. lia.
  - inversion Fr as [|? ? Hx Fr']; subst.
    assert (R0 : 0 <= acc * B < 18446744073709551616) by (clear IH; ub; lia).
    rewrite (w64_id _ R0), lor_B in E by assumption.
    set (a := acc * B + x) in *.
    assert (Pa : 0 <= a) by (subst a; clear IH; ub; lia).
    assert (Qa : digit (a / base)).
    { split; [apply Z.div_pos; lia|]. apply Z.div_lt_upper_bound; [lia|].
      subst a. clear IH. ub. nia. }
    destruct (shift_mod_pos r (a mod base) base) as [q' f'] eqn:E'. injection E as <- <-.
    destruct (IH _ _ _ Fr' (Z.mod_pos_bound a base Pb) E') as (I1 & I2 & I3 & I4).
    assert (Ew : w32 (a / base) = a / base) by (clear IH; ub; apply Z.mod_small; lia).
    rewrite Ew. repeat split; [constructor; auto | cbn [length]; lia | lia | lia |].
    cbn [rev length]. rewrite !uval_app, !rev_length, I2. cbn [uval]. rewrite Bp_S.
    rewrite !Z.mul_0_r, !Z.add_0_r.
    pose proof (Z.div_mod a base ltac:(lia)) as D. subst a.
    assert (Bp (length r) * (acc * B + x) = Bp (length r) * (base * ((acc * B + x) / base) + (acc * B + x) mod base)) by congruence.
    lia.
Qed.

Lemma shift_mod_neg_pos base r : forall acc,
  shift_mod_neg r acc base = (map cpl (fst (shift_mod_pos (map cpl r) acc base)),
                              snd (shift_mod_pos (map cpl r) acc base)).
Proof.
  induction r as [|x r IH]; intros acc; [reflexivity|].
  cbn [shift_mod_neg shift_mod_pos map]. rewrite IH.
  destruct (shift_mod_pos (map cpl r) _ base) as [q f]. reflexivity.
Qed.

Lemma uval_zero_cpl d : Forall digit d -> uval (map cpl d) = Bp (length d) - 1 - uval d.
Proof. intros _. apply uval_cpl. Qed.

Lemma nonneg_wf q v : Forall digit q -> q <> [] -> uval q = v -> 2 * v < Bp (length q) -> sval q = v.
Proof.
  intros F Ne E H. assert (W : wf q) by (split; auto).
  pose proof (sval_rng q W) as R. unfold rng in R.
  unfold sval in *. rewrite pow31 in *.
  destruct (Z.leb_spec neg_flag (last q 0)); [|lia]. unfold Bp in *.
  rewrite pow32 in *. lia.
Qed.

Lemma shift_modulo_spec d base : wf d -> digit base -> 0 < base ->
  exists q r, shift_modulo d base = (q, r) /\ normal q /\
  sval q = sval d / base /\ r = sval d mod base.
Proof.
  intros W Hb Pb. unfold shift_modulo. rewrite back_sign by assumption.
  pose proof (sval_rng d W) as R. unfold rng in R.
  destruct (Z.ltb_spec (sval d) 0) as [C|C]; cbn [negb].
  - rewrite shift_mod_neg_pos. destruct (shift_mod_pos (map cpl (rev d)) 0 base) as [q f] eqn:E.
    cbn [fst snd].
    destruct (shift_mod_pos_spec base Hb Pb _ 0 q f (Forall_cpl _ (Forall_rev (proj2 W))) ltac:(lia) E)
      as (I1 & I2 & I3 & I4).
    rewrite <- map_rev, rev_involutive in I4. rewrite map_length, rev_length in I2, I4.
    rewrite <- map_rev.
    assert (Fq : Forall digit (rev q)) by (apply Forall_rev, I1).
    assert (Nq : rev q <> []).
    { intros E1. apply (f_equal (@length Z)) in E1. rewrite rev_length, I2 in E1.
      destruct W as [Ne _]. destruct d; [tauto|discriminate]. }
    pose proof (sval_cpl d W) as Sd.
    assert (Ucd : uval (map cpl d) = - sval d - 1).
    { rewrite <- (nonneg_uval (map cpl d)) by (try apply wf_cpl; assumption || lia). lia. }
    rewrite Ucd, Z.mul_0_r, Z.add_0_r in I4.
    pose proof (uval_bound _ Fq) as Uq. rewrite rev_length, I2 in Uq.
    assert (Sq : sval (rev q) = uval (rev q)).
    { apply nonneg_wf; auto. rewrite rev_length, I2. nia. }
    assert (Wc : wf (map cpl (rev q))) by (apply wf_cpl; split; auto).
    destruct (shrink_neg_spec _ Wc) as (S1 & S2 & S3 & S4).
    rewrite sval_cpl in S2, S3 by (split; auto).
    assert (Hdiv : sval d / base = -1 - uval (rev q) /\ sval d mod base = base - 1 - f).
    { assert (ED : sval d = base * (-1 - uval (rev q)) + (base - 1 - f)) by lia.
      split; symmetry; [apply (Z.div_unique_pos _ _ _ (base - 1 - f)) | apply (Z.mod_unique_pos _ _ (-1 - uval (rev q)))]; lia. }
    destruct Hdiv as [H1 H2]. rewrite H1, H2.
    eexists _, _. split; [reflexivity|]. split; [apply S3; lia|]. split; [lia|].
    clear - I3 Hb. unfold w32. ub.
    replace (base + (4294967296 * 4294967296 - 1 - f)) with (base - 1 - f + 4294967296 * 4294967296) by lia.
    rewrite Z.mod_add by lia. apply Z.mod_small. lia.
  - destruct (shift_mod_pos (rev d) 0 base) as [q f] eqn:E.
    destruct (shift_mod_pos_spec base Hb Pb _ 0 q f (Forall_rev (proj2 W)) ltac:(lia) E)
      as (I1 & I2 & I3 & I4).
    rewrite rev_involutive in I4. rewrite rev_length in I2, I4.
    assert (Fq : Forall digit (rev q)) by (apply Forall_rev, I1).
    assert (Nq : rev q <> []).
    { intros E1. apply (f_equal (@length Z)) in E1. rewrite rev_length, I2 in E1.
      destruct W as [Ne _]. destruct d; [tauto|discriminate]. }
    rewrite <- (nonneg_uval d W C), Z.mul_0_r, Z.add_0_r in I4.
    pose proof (uval_bound _ Fq) as Uq. rewrite rev_length, I2 in Uq.
    assert (Sq : sval (rev q) = uval (rev q)).
    { apply nonneg_wf; auto. rewrite rev_length, I2. nia. }
    destruct (shrink_pos_spec (rev q)) as (S1 & S2 & S3 & S4); [split; auto|].
    eexists _, _. split; [reflexivity|]. split; [apply S3; lia|].
    assert (ED : sval d = base * uval (rev q) + f) by lia.
    split.
    + rewrite S2, Sq. apply (Z.div_unique_pos _ _ _ f); lia.
    + assert (w32 f = f) as -> by (ub; apply Z.mod_small; lia).
      apply (Z.mod_unique_pos _ _ (uval (rev q))); lia.
Qed.

(** The estimate of a quotient digit is right or one too large. *)
Lemma q_estimate_spec V C P lead sub acc :
  digit lead -> digit sub -> B <= 2 * lead -> 0 < P ->
  (lead * B + sub) * P <= V < (lead * B + sub + 1) * P ->
  0 <= acc -> acc * B * P <= C < (acc + 1) * B * P -> 0 <= C < B * V ->
  let q := q_estimate acc lead sub in
  0 <= q < B /\ (q - 1) * V <= C < (q + 1) * V.
Proof.
  intros Hl Hs HB HP HV Ha HC HC2 q. subst q. unfold q_estimate.
  assert (Pl : 0 < lead) by (ub; lia).
  pose proof (Z.div_mod acc lead ltac:(lia)) as D.
  pose proof (Z.mod_pos_bound acc lead Pl) as M.
  pose proof (Z.div_pos acc lead Ha Pl) as Q0.
  set (q0 := acc / lead) in *. set (r := acc mod lead) in *. clearbody q0 r. subst acc.
  assert (PB : 0 < B) by reflexivity. unfold digit in Hl, Hs. rewrite pow32 in Hl, Hs.
  destruct (Z.leb_spec B q0) as [L|L].
  - split; [lia|]. split; [|nia].
    assert (T1 : (B - 2) * (lead + 1) <= lead * B) by nia.
    assert (T2 : V <= (lead + 1) * B * P) by nia.
    assert (T3 : lead * B * B * P <= C).
    { assert (lead * B <= lead * q0 + r) by nia.
      assert (lead * B * (B * P) <= (lead * q0 + r) * (B * P)) by (apply Z.mul_le_mono_nonneg_r; nia). lia. }
    assert (BB : 2 <= B) by (ub; lia).
    assert (T4 : (B - 2) * V <= (B - 2) * ((lead + 1) * B * P)) by (apply Z.mul_le_mono_nonneg_l; lia).
    assert (T5 : (B - 2) * (lead + 1) * (B * P) <= lead * B * (B * P)) by (apply Z.mul_le_mono_nonneg_r; nia).
    lia.
  - assert (W : w64 (q0 * sub) = q0 * sub).
    { apply w64_id. assert (digit q0) by (split; [exact Q0|rewrite pow32; exact L]).
      pose proof (digit_mul q0 sub H ltac:(split; [apply Hs|rewrite pow32; apply Hs])). lia. }
    rewrite W.
    pose proof (Z.div_mod (q0 * sub) B ltac:(lia)) as D2.
    pose proof (Z.mod_pos_bound (q0 * sub) B PB) as M2.
    set (e := q0 * sub / B) in *. set (f := (q0 * sub) mod B) in *. clearbody e f.
    destruct (Z.ltb_spec r e) as [T|T].
    + assert (0 < q0) by nia. split; [lia|]. split.
      * destruct (Z.le_gt_cases q0 1) as [G|G]; [nia|].
        assert (T2 : V <= (lead + 1) * B * P) by nia.
        assert (T4 : (q0 - 2) * V <= (q0 - 2) * ((lead + 1) * B * P)) by (apply Z.mul_le_mono_nonneg_l; lia).
        assert (T1 : (q0 - 2) * (lead + 1) <= lead * q0 + r) by nia.
        assert (T5 : (q0 - 2) * (lead + 1) * (B * P) <= (lead * q0 + r) * (B * P)) by (apply Z.mul_le_mono_nonneg_r; nia).
        replace (q0 - 1 - 1) with (q0 - 2) by lia. lia.
      * replace (q0 - 1 + 1) with q0 by lia.
        assert (T1 : (lead * q0 + r + 1) * B <= q0 * (lead * B + sub)) by nia.
        assert (T5 : (lead * q0 + r + 1) * B * P <= q0 * (lead * B + sub) * P) by (apply Z.mul_le_mono_nonneg_r; lia).
        assert (q0 * ((lead * B + sub) * P) <= q0 * V) by (apply Z.mul_le_mono_nonneg_l; lia).
        lia.
    + split; [lia|]. split.
      * destruct (Z.eq_dec q0 0) as [->|G]; [nia|].
        assert (T1 : (q0 - 1) * (lead * B + sub + 1) <= (lead * q0 + r) * B).
        { assert (q0 * sub - B + 1 <= r * B) by nia.
          assert (2 <= lead) by (clear - HB; ub; lia).
          assert (2 * B <= lead * B) by nia. lia. }
        assert (T5 : (q0 - 1) * (lead * B + sub + 1) * P <= (lead * q0 + r) * B * P) by (apply Z.mul_le_mono_nonneg_r; lia).
        assert ((q0 - 1) * V <= (q0 - 1) * ((lead * B + sub + 1) * P)) by (apply Z.mul_le_mono_nonneg_l; lia).
        lia.
      * assert (T1 : lead * q0 + r + 1 <= (q0 + 1) * lead) by nia.
        assert (T5 : (lead * q0 + r + 1) * (B * P) <= (q0 + 1) * lead * (B * P)) by (apply Z.mul_le_mono_nonneg_r; nia).
        assert ((q0 + 1) * ((lead * B + sub) * P) <= (q0 + 1) * V) by (apply Z.mul_le_mono_nonneg_l; lia).
        nia.
Qed.

(** Shifting a number left by s < 32 bits, looked at through its leading digits. *)
Lemma shift_window H t P r s : 0 <= s <= 32 -> 0 < P -> 0 <= r < P -> digit t -> 0 <= H ->
  (H * 2 ^ s + t / 2 ^ (32 - s)) * B * P <= ((H * B + t) * P + r) * 2 ^ s
    < (H * 2 ^ s + t / 2 ^ (32 - s) + 1) * B * P.
Proof.
  intros Hs HP Hr Ht HH.
  assert (E : B = 2 ^ s * 2 ^ (32 - s)).
  { rewrite <- Z.pow_add_r by lia. replace (s + (32 - s)) with 32 by lia. reflexivity. }
  assert (P1 : 0 < 2 ^ s) by (apply Z.pow_pos_nonneg; lia).
  assert (P2 : 0 < 2 ^ (32 - s)) by (apply Z.pow_pos_nonneg; lia).
  unfold digit in Ht. rewrite pow32 in Ht.
  set (a := 2 ^ s) in *. set (b := 2 ^ (32 - s)) in *. clearbody a b. rewrite E in *. clear E.
  pose proof (Z.div_mod t b ltac:(lia)) as D. pose proof (Z.mod_pos_bound t b P2) as M.
  set (e := t / b) in *. set (f := t mod b) in *. clearbody e f. subst t. split.
  - assert (0 <= f * P * a + r * a) by nia. nia.
  - assert ((f + 1) * P <= b * P) by (apply Z.mul_le_mono_nonneg_r; lia).
    assert (a * (f * P + r) < a * (b * P)) by (apply Z.mul_lt_mono_pos_l; lia). nia.
Qed.

(** mul_sub, mul_add *)
Lemma mul_add_spec q : digit q -> forall div u acc w f, Forall digit div -> Forall digit u ->
  (length div <= length u)%nat -> digit acc -> mul_add u div q acc = (w, f) ->
  Forall digit w /\ length w = length div /\ digit f /\
  uval w + Bp (length div) * f = uval (firstn (length div) u) + q * uval div + acc.
Proof.
  intros Hq. induction div as [|v div IH]; intros u acc w f Fd Fu L Ha E.
  - cbn [mul_add] in E. assert (E1 : ([], acc) = (w, f)) by (destruct u; exact E).
    injection E1 as <- <-. repeat split; auto; try apply Ha. cbn [firstn length uval]. rewrite Bp_0. lia.
  - destruct u as [|x u]; [cbn in L; lia|]. cbn [mul_add] in E.
    inversion Fd as [|? ? Hv Fd']; inversion Fu as [|? ? Hx Fu']; subst. cbn [length] in L.
    pose proof (digit_mul _ _ Hq Hv) as Qm.
    rewrite (w64_id (x + q * v)) in E by (clear IH; ub; lia).
    rewrite (w64_id (acc + (x + q * v))) in E by (clear IH; ub; lia).
    set (a := acc + (x + q * v)) in *.
    assert (Da : digit (a / B)) by (apply digit_div; subst a; clear IH; ub; lia).
    destruct (mul_add u div q (a / B)) as [w' f'] eqn:E'. injection E as <- <-.
    destruct (IH _ _ _ _ Fd' Fu' ltac:(lia) Da E') as (I1 & I2 & I3 & I4).
    split; [constructor; auto using digit_w32|]. split; [cbn [length]; lia|]. split; [exact I3|].
    cbn [firstn length]. rewrite !uval_cons, Bp_S. unfold w32.
    pose proof (Z.div_mod a B ltac:(discriminate)). subst a. lia.
Qed.

Lemma mul_sub_add q div : forall u acc,
  mul_sub u div q acc = (map cpl (fst (mul_add (map cpl u) div q acc)), snd (mul_add (map cpl u) div q acc)).
Proof.
  induction div as [|v div IH]; intros u acc; [destruct u; reflexivity|].
  destruct u as [|x u]; [reflexivity|]. cbn [mul_sub mul_add map]. rewrite IH.
  destruct (mul_add (map cpl u) div q _) as [w f]. reflexivity.
Qed.

Lemma decr_fixed_spec d : Forall digit d ->
  Forall digit (decr_fixed d) /\ length (decr_fixed d) = length d /\
  exists k, uval (decr_fixed d) = uval d - 1 + Bp (length d) * k.
Proof.
  induction d as [|x d IH]; intros F; cbn [decr_fixed].
  - repeat split; auto. exists 1. cbn [uval length]. rewrite Bp_0. lia.
  - inversion F as [|? ? Hx F']; subst. destruct (IH F') as (I1 & I2 & k & I3).
    destruct (Z.eqb_spec (cpl (w32 (x - 1))) 0) as [E|E]; cbn [negb].
    + split; [constructor; auto using digit_w32|]. split; [cbn [length]; lia|]. exists k.
      cbn [length]. rewrite !uval_cons, I3, Bp_S. clear IH I1 I2 I3 F F'. unfold w32, cpl in *. ub. lia.
    + split; [constructor; auto using digit_w32|]. split; [reflexivity|]. exists 0.
      rewrite !uval_cons. clear IH I1 I2 I3 F F'. unfold w32, cpl in *. ub. lia.
Qed.

Lemma firstn_snoc_uval u n : length u = S n -> uval u = uval (firstn n u) + Bp n * nth n u 0.
Proof.
  intros L. rewrite <- (firstn_skipn n u) at 1. rewrite uval_app.
  rewrite firstn_length, Nat.min_l by lia.
  assert (E : skipn n u = [nth n u 0]).
  { clear -L. revert u L. induction n as [|n IH]; intros [|x [|y u]] L; try discriminate; [reflexivity|].
    cbn [skipn nth]. apply IH. cbn in *. lia. }
  rewrite E. cbn [uval]. lia.
Qed.

Lemma Forall_nth_digit d n : Forall digit d -> digit (nth n d 0).
Proof.
  intros F. destruct (Nat.lt_ge_cases n (length d)) as [L|L].
  - rewrite Forall_forall in F. apply F, nth_In, L.
  - rewrite nth_overflow by exact L. ub. lia.
Qed.

(** Signed value of a remainder window. *)
Definition rval (w : list Z) (below : bool) : Z := uval w - (if below then Bp (length w) else 0).

Lemma map_nth_cpl u n : (n < length u)%nat -> nth n (map cpl u) 0 = cpl (nth n u 0).
Proof. intros L. rewrite (nth_indep _ 0 (cpl 0)) by (rewrite map_length; exact L). apply map_nth. Qed.

Definition estimate_ok (div : list Z) (shift lead sub_lead : Z) : Prop :=
  forall u, Forall digit u -> length u = S (length div) -> uval u < B * uval div ->
  let q := q_estimate (lead_acc u false shift) lead sub_lead in
  0 <= q < B /\ (q - 1) * uval div <= uval u < (q + 1) * uval div.

Lemma lead_acc_below u shift : (3 <= length u)%nat ->
  lead_acc u true shift = lead_acc (map cpl u) false shift.
Proof.
  intros L. unfold lead_acc. rewrite map_length. rewrite !map_nth_cpl by lia. reflexivity.
Qed.

Lemma div_step_spec u qs div below shift lead sub_lead :
  estimate_ok div shift lead sub_lead -> (2 <= length div)%nat ->
  Forall digit u -> Forall digit qs -> Forall digit div -> length u = S (length div) ->
  - (B * uval div) <= rval u below < B * uval div -> (below = true <-> rval u below < 0) ->
  let '(w, qs', below') := div_step u qs div below shift lead sub_lead in
  Forall digit w /\ length w = length div /\ Forall digit qs' /\ length qs' = S (length qs) /\
  - uval div <= rval w below' < uval div /\ (below' = true <-> rval w below' < 0) /\
  exists Q k, rval u below = Q * uval div + rval w below' /\
    uval qs' = Q + B * uval qs + Bp (S (length qs)) * k.
Proof.
  intros EO L2 Fu Fq Fd Lu HR Hb. unfold div_step.
  set (V := uval div) in *.
  pose proof (uval_bound div Fd) as BV. fold V in BV.
  set (n := length div) in *.
  pose proof (Bp_pos n) as PN.
  destruct below; cbn [negb].
  - (* negative remainder *)
    rewrite lead_acc_below by lia.
    assert (Fc : Forall digit (map cpl u)) by (apply Forall_cpl, Fu).
    assert (Uc : uval (map cpl u) = -1 - rval u true).
    { rewrite uval_zero_cpl by assumption. unfold rval. lia. }
    destruct (EO (map cpl u) Fc) as [Q1 Q2]; [rewrite map_length; exact Lu| fold V; lia|].
    fold V in Q2. rewrite Uc in Q2.
    set (q := q_estimate _ lead sub_lead) in *. clearbody q.
    destruct (Z.eqb_spec q 0) as [E0|E0].
    + subst q. assert (Hs : - V <= rval u true) by lia.
      assert (Fw : Forall digit (firstn n u)) by (apply Forall_firstn, Fu).
      assert (Lw : length (firstn n u) = n) by (rewrite firstn_length; lia).
      assert (Ew : rval (firstn n u) true = rval u true).
      { unfold rval in *. rewrite Lw, Lu in *. rewrite (firstn_snoc_uval u n Lu) in *. rewrite Bp_S in *.
        pose proof (uval_bound _ Fw) as Bw. rewrite Lw in Bw.
        pose proof (Forall_nth_digit u n Fu) as Hn. set (y := nth n u 0) in *. clearbody y.
        unfold digit in Hn. rewrite pow32 in Hn.
        assert (y = B - 1) by nia. subst y. lia. }
      split; [exact Fw|]. split; [exact Lw|]. split; [constructor; [ub; lia|exact Fq]|].
      split; [reflexivity|]. rewrite Ew. split; [lia|]. split; [exact Hb|].
      exists 0, 0. split; [lia|]. rewrite uval_cons. lia.
    + assert (Dq : digit q) by (unfold digit; rewrite pow32; lia).
      destruct (mul_add u div q 0) as [w a] eqn:E.
      destruct (mul_add_spec q Dq div u 0 w a Fd Fu ltac:(lia) ltac:(ub; lia) E) as (I1 & I2 & I3 & I4).
      fold n in I2, I4. fold V in I4.
      pose proof (firstn_snoc_uval u n Lu) as Eu.
      pose proof (Forall_nth_digit u n Fu) as Hn. set (y := nth n u 0) in *. clearbody y.
      pose proof (uval_bound w I1) as Bw. rewrite I2 in Bw.
      set (S1 := a + y).
      assert (ES : uval w + Bp n * S1 = rval u true + q * V + Bp (S n)).
      { unfold rval. rewrite Lu, Eu. subst S1. lia. }
      rewrite Bp_S in ES.
      set (R' := rval u true + q * V) in *.
      assert (BR : - V <= R' < V) by (subst R'; lia).
      assert (W64 : w64 S1 = S1) by (apply w64_id; subst S1; clear - I3 Hn; ub; lia).
      rewrite W64.
      assert (CS : (S1 = B /\ 0 <= R') \/ (S1 = B - 1 /\ R' < 0)).
      { assert (0 <= S1) by (subst S1; clear - I3 Hn; ub; lia). clearbody S1. clear - ES BR BV Bw PN.
        destruct (Z.lt_ge_cases R' 0); [right|left]; (split; [|lia]); nia. }
      assert (Lw : rval w (negb (w32 S1 =? 0)) = R').
      { unfold rval. rewrite I2. destruct CS as [[-> G]|[-> G]].
        - change (w32 B =? 0) with true. cbn [negb]. lia.
        - change (w32 (B - 1) =? 0) with false. cbn [negb]. lia. }
      destruct (decr_fixed_spec qs Fq) as (J1 & J2 & k & J3).
      split; [exact I1|]. split; [exact I2|].
      split; [constructor; [apply digit_w32|exact J1]|]. split; [cbn [length]; lia|].
      rewrite Lw. split; [exact BR|]. split.
      { destruct CS as [[-> G]|[-> G]].
        - change (w32 B =? 0) with true. cbn [negb]. split; [discriminate|lia].
        - change (w32 (B - 1) =? 0) with false. cbn [negb]. split; [lia|reflexivity]. }
      exists (- q), k. split; [subst R'; lia|].
      rewrite uval_cons, J3, Bp_S.
      assert (w32 (- q) = B - q) as -> by (clear - Q1 E0; ub; lia). lia.
  - (* nonnegative remainder *)
    assert (Uu : uval u = rval u false) by (unfold rval; lia).
    assert (P0 : 0 <= rval u false).
    { destruct (Z.lt_ge_cases (rval u false) 0); [|lia]. rewrite <- Hb in *. discriminate. }
    destruct (EO u Fu Lu) as [Q1 Q2]; [fold V; lia|].
    fold V in Q2. rewrite Uu in Q2.
    set (q := q_estimate _ lead sub_lead) in *. clearbody q.
    destruct (Z.eqb_spec q 0) as [E0|E0].
    + subst q.
      assert (Fw : Forall digit (firstn n u)) by (apply Forall_firstn, Fu).
      assert (Lw : length (firstn n u) = n) by (rewrite firstn_length; lia).
      assert (Ew : rval (firstn n u) false = rval u false).
      { unfold rval in *. rewrite !Z.sub_0_r in *. rewrite (firstn_snoc_uval u n Lu) in *.
        pose proof (uval_bound _ Fw) as Bw. rewrite Lw in Bw.
        pose proof (Forall_nth_digit u n Fu) as Hn. set (y := nth n u 0) in *. clearbody y.
        unfold digit in Hn. rewrite pow32 in Hn.
        assert (y = 0) by nia. subst y. lia. }
      split; [exact Fw|]. split; [exact Lw|]. split; [constructor; [ub; lia|exact Fq]|].
      split; [reflexivity|]. rewrite Ew. split; [lia|]. split; [exact Hb|].
      exists 0, 0. split; [lia|]. rewrite uval_cons. lia.
    + assert (Dq : digit q) by (unfold digit; rewrite pow32; lia).
      rewrite mul_sub_add. destruct (mul_add (map cpl u) div q 0) as [w a] eqn:E. cbn [fst snd].
      assert (Fc : Forall digit (map cpl u)) by (apply Forall_cpl, Fu).
      assert (Lc : length (map cpl u) = S n) by (rewrite map_length; exact Lu).
      destruct (mul_add_spec q Dq div _ 0 w a Fd Fc ltac:(lia) ltac:(ub; lia) E) as (I1 & I2 & I3 & I4).
      fold n in I2, I4. fold V in I4.
      pose proof (firstn_snoc_uval (map cpl u) n Lc) as Eu.
      pose proof (Forall_nth_digit _ n Fc) as Hn. rewrite map_nth_cpl in Eu, Hn by lia.
      rewrite uval_zero_cpl, Lu in Eu by exact Fu.
      set (y := cpl (nth n u 0)) in *. clearbody y.
      pose proof (uval_bound w I1) as Bw. rewrite I2 in Bw.
      set (S1 := a + y).
      set (R' := rval u false - q * V) in *.
      assert (ES : uval w + Bp n * S1 = Bp (S n) - 1 - R') by (subst S1 R'; lia).
      rewrite Bp_S in ES.
      assert (BR : - V <= R' < V) by (subst R'; lia).
      assert (W64 : w64 S1 = S1) by (apply w64_id; subst S1; clear - I3 Hn; ub; lia).
      rewrite W64.
      assert (CS : (S1 = B - 1 /\ 0 <= R') \/ (S1 = B /\ R' < 0)).
      { assert (0 <= S1) by (subst S1; clear - I3 Hn; ub; lia). clearbody S1. clear - ES BR BV Bw PN.
        destruct (Z.lt_ge_cases R' 0); [right|left]; (split; [|lia]); nia. }
      assert (Fw : Forall digit (map cpl w)) by (apply Forall_cpl, I1).
      assert (Uw : uval (map cpl w) = Bp n - 1 - uval w) by (rewrite uval_zero_cpl, I2; auto).
      assert (Lw : rval (map cpl w) (w32 S1 =? 0) = R').
      { unfold rval. rewrite map_length, I2, Uw. destruct CS as [[-> G]|[-> G]].
        - change (w32 (B - 1) =? 0) with false. cbv iota. lia.
        - change (w32 B =? 0) with true. cbv iota. lia. }
      assert (w32 q = q) as -> by (clear - Q1; ub; apply Z.mod_small; lia).
      split; [exact Fw|]. split; [rewrite map_length; exact I2|].
      split; [constructor; [exact Dq|exact Fq]|]. split; [reflexivity|].
      rewrite Lw. split; [exact BR|]. split.
      { destruct CS as [[-> G]|[-> G]].
        - change (w32 (B - 1) =? 0) with false. split; [discriminate|lia].
        - change (w32 B =? 0) with true. split; [lia|reflexivity]. }
      exists q, 0. split; [subst R'; lia|]. rewrite uval_cons. lia.
Qed.

Lemma div_loop_spec div shift lead sub_lead :
  estimate_ok div shift lead sub_lead -> (2 <= length div)%nat -> Forall digit div ->
  forall lows w qs below, Forall digit lows -> Forall digit w -> Forall digit qs ->
  length w = length div ->
  - uval div <= rval w below < uval div -> (below = true <-> rval w below < 0) ->
  let '(w', qs', below') := div_loop lows w qs div below shift lead sub_lead in
  Forall digit w' /\ length w' = length div /\ Forall digit qs' /\
  length qs' = (length lows + length qs)%nat /\
  - uval div <= rval w' below' < uval div /\ (below' = true <-> rval w' below' < 0) /\
  exists Q k, rval w below * Bp (length lows) + uval (rev lows) = Q * uval div + rval w' below' /\
    uval qs' = Q + Bp (length lows) * uval qs + Bp (length lows + length qs) * k.
Proof.
  intros EO L2 Fd. induction lows as [|l lows IH]; intros w qs below Fl Fw Fq Lw HR Hb; cbn [div_loop].
  - split; [exact Fw|]. split; [exact Lw|]. split; [exact Fq|]. split; [reflexivity|].
    split; [exact HR|]. split; [exact Hb|]. exists 0, 0. cbn [length rev uval]. rewrite Bp_0. lia.
  - inversion Fl as [|? ? Hl Fl']; subst.
    assert (Fu : Forall digit (l :: w)) by (constructor; auto).
    assert (Eu : rval (l :: w) below = l + B * rval w below).
    { unfold rval. cbn [length]. rewrite uval_cons, Bp_S. destruct below; lia. }
    assert (Dl : 0 <= l < B) by (unfold digit in Hl; rewrite pow32 in Hl; exact Hl).
    pose proof (div_step_spec (l :: w) qs div below shift lead sub_lead EO L2 Fu Fq Fd) as ST.
    destruct (div_step (l :: w) qs div below shift lead sub_lead) as [[w1 qs1] b1].
    destruct ST as (S1 & S2 & S3 & S4 & S5 & S6 & Q1 & k1 & S7 & S8).
    { cbn [length]. lia. }
    { rewrite Eu. nia. }
    { rewrite Eu. rewrite Hb. nia. }
    specialize (IH w1 qs1 b1 Fl' S1 S3 S2 S5 S6).
    destruct (div_loop lows w1 qs1 div b1 shift lead sub_lead) as [[w2 qs2] b2].
    destruct IH as (I1 & I2 & I3 & I4 & I5 & I6 & Q2 & k2 & I7 & I8).
    split; [exact I1|]. split; [exact I2|]. split; [exact I3|]. split; [cbn [length]; lia|].
    split; [exact I5|]. split; [exact I6|].
    exists (Q2 + Bp (length lows) * Q1), (k2 + k1). split.
    + cbn [length rev]. rewrite uval_app, rev_length, Bp_S. cbn [uval]. rewrite Eu in S7.
      assert (E1 : rval w below * B = Q1 * uval div + rval w1 b1 - l) by lia.
      replace (rval w below * (B * Bp (length lows))) with (rval w below * B * Bp (length lows)) by ring.
      rewrite E1. lia.
    + rewrite I8, S8, S4. cbn [length].
      replace (length lows + S (length qs))%nat with (S (length lows + length qs)) by lia.
      rewrite !Bp_S, Bp_add. cbn [Nat.add]. rewrite Bp_S, Bp_add. lia.
Qed.

(** The leading digits used for the estimate. *)
Lemma lastbit32_spec x : digit x -> 0 < x ->
  let s := 32 - lastbit32 x in 0 <= s < 32 /\ B <= 2 * (x * 2 ^ s) /\ x * 2 ^ s < B.
Proof.
  intros Hx Px. unfold lastbit32. destruct (Z.leb_spec x 0); [lia|].
  destruct (Z.log2_spec x Px) as [L1 L2].
  assert (L3 : Z.log2 x < 32) by (apply Z.log2_lt_pow2; [lia|]; apply Hx).
  pose proof (Z.log2_nonneg x) as L0.
  set (l := Z.log2 x) in *. clearbody l. cbv zeta.
  replace (32 - (l + 1)) with (31 - l) by lia.
  assert (E : B = 2 * (2 ^ l * 2 ^ (31 - l))).
  { rewrite <- Z.pow_add_r by lia. replace (l + (31 - l)) with 31 by lia. reflexivity. }
  assert (0 < 2 ^ (31 - l)) by (apply Z.pow_pos_nonneg; lia).
  rewrite Z.pow_succ_r in L2 by lia.
  split; [lia|]. split; [nia|]. rewrite E. nia.
Qed.

Lemma lsl_pair t y x s : 0 < s < 32 -> digit t -> digit y -> digit x -> x * 2 ^ s < B ->
  forall lead sub,
  lead = Z.lor (w32 (x * 2 ^ s)) (y / 2 ^ (32 - s)) ->
  sub = Z.lor (w32 (y * 2 ^ s)) (t / 2 ^ (32 - s)) ->
  digit lead /\ digit sub /\ lead * B + sub = (x * B + y) * 2 ^ s + t / 2 ^ (32 - s) /\ x * 2 ^ s <= lead.
Proof.
  intros Hs Ht Hy Hx Hxs lead sub -> ->.
  assert (E : B = 2 ^ s * 2 ^ (32 - s)).
  { rewrite <- Z.pow_add_r by lia. replace (s + (32 - s)) with 32 by lia. reflexivity. }
  assert (P1 : 0 < 2 ^ s) by (apply Z.pow_pos_nonneg; lia).
  assert (P2 : 0 < 2 ^ (32 - s)) by (apply Z.pow_pos_nonneg; lia).
  unfold digit in *. rewrite pow32 in *. unfold w32.
  rewrite (Z.mod_small (x * 2 ^ s)) by nia.
  assert (Ey : (y * 2 ^ s) mod B = (y mod 2 ^ (32 - s)) * 2 ^ s).
  { rewrite E, (Z.mul_comm (2 ^ s)), Z.mul_mod_distr_r by lia. reflexivity. }
  rewrite Ey.
  assert (Qy : 0 <= y / 2 ^ (32 - s) < 2 ^ s).
  { split; [apply Z.div_pos; lia|]. apply Z.div_lt_upper_bound; [lia|]. rewrite Z.mul_comm, <- E. lia. }
  assert (Qt : 0 <= t / 2 ^ (32 - s) < 2 ^ s).
  { split; [apply Z.div_pos; lia|]. apply Z.div_lt_upper_bound; [lia|]. rewrite Z.mul_comm, <- E. lia. }
  rewrite !lor_add by lia.
  pose proof (Z.div_mod y (2 ^ (32 - s)) ltac:(lia)) as D.
  pose proof (Z.mod_pos_bound y _ P2) as M.
  set (a := 2 ^ s) in *. set (b := 2 ^ (32 - s)) in *.
  set (yq := y / b) in *. set (yr := y mod b) in *. set (tq := t / b) in *. clearbody a b yq yr tq.
  rewrite E in *. clear E Ey. subst y.
  assert (X1 : x + 1 <= b) by nia.
  assert (X2 : (x + 1) * a <= b * a) by (apply Z.mul_le_mono_nonneg_r; lia).
  assert (X3 : (yr + 1) * a <= b * a) by (apply Z.mul_le_mono_nonneg_r; lia).
  assert (X4 : 0 <= x * a /\ 0 <= yr * a) by nia.
  split; [lia|]. split; [lia|]. split; [ring|lia].
Qed.

Lemma estimate_gen div shift lead sub_lead : (2 <= length div)%nat -> Forall digit div ->
  0 <= shift < 32 -> digit lead -> digit sub_lead -> B <= 2 * lead ->
  back div * 2 ^ shift < B ->
  (lead * B + sub_lead) * Bp (length div - 2) <= uval div * 2 ^ shift
     < (lead * B + sub_lead + 1) * Bp (length div - 2) ->
  estimate_ok div shift lead sub_lead.
Proof.
  intros L2 Fd Hs Dl Dsl HB HT HV u Fu Lu Hu. cbv zeta.
  (* split u *)
  assert (Su : exists a t y x, u = a ++ [t; y; x] /\ length a = (length div - 2)%nat).
  { exists (firstn (length u - 3) u). 
    assert (Lk : length (skipn (length u - 3) u) = 3%nat) by (rewrite skipn_length; lia).
    destruct (skipn (length u - 3) u) as [|t [|y [|x [|z l]]]] eqn:E; try discriminate.
    exists t, y, x. rewrite <- E, firstn_skipn. split; [reflexivity|]. rewrite firstn_length. lia. }
  destruct Su as (a & t & y & x & Eu & La).
  assert (Fs : Forall digit a /\ digit t /\ digit y /\ digit x).
  { rewrite Eu in Fu. apply Forall_app in Fu as [F1 F2]. inversion F2 as [|? ? ? F3]; inversion F3 as [|? ? ? F4]; inversion F4; subst; auto. }
  destruct Fs as (Fa & Ht & Hy & Hx).
  pose proof (uval_bound a Fa) as Ba. pose proof (Bp_pos (length a)) as Pa. rewrite <- La in *.
  assert (Uu : uval u = ((x * B + y) * B + t) * Bp (length a) + uval a).
  { rewrite Eu, uval_app. rewrite !uval_cons. cbn [uval]. lia. }
  assert (P1 : 0 < 2 ^ shift) by (apply Z.pow_pos_nonneg; lia).
  assert (P2 : 0 < 2 ^ (32 - shift)) by (apply Z.pow_pos_nonneg; lia).
  assert (E32 : B = 2 ^ shift * 2 ^ (32 - shift)).
  { rewrite <- Z.pow_add_r by lia. replace (shift + (32 - shift)) with 32 by lia. reflexivity. }
  assert (Hx2 : x * 2 ^ shift < B).
  { destruct (wf_snoc_inv div) as (dv & z & Ed & Fdv & Hz).
    { split; [|exact Fd]. destruct div; [cbn in L2; lia|discriminate]. }
    assert (Ez : back div = z) by (unfold back; rewrite Ed; apply last_snoc). rewrite Ez in HT.
    assert (Ldv : length dv = S (length a)) by (rewrite Ed, app_length in La; cbn in La; rewrite Ed, app_length in L2; cbn in L2; lia).
    pose proof (uval_bound dv Fdv) as Bdv. rewrite Ldv in Bdv. rewrite Bp_S in Bdv.
    rewrite Ed, uval_app, Ldv, Bp_S in Hu. cbn [uval] in Hu. rewrite Uu in Hu.
    assert (x <= z); [|nia].
    unfold digit in *. rewrite pow32 in *.
    assert (Y0 : 0 <= y * (B * Bp (length a))) by (apply Z.mul_nonneg_nonneg; lia).
    assert (T0 : 0 <= t * Bp (length a)) by (apply Z.mul_nonneg_nonneg; lia).
    assert (X1 : B * uval dv < B * (B * Bp (length a))) by (apply Z.mul_lt_mono_pos_l; lia).
    assert (X2 : x * (B * B * Bp (length a)) < (z + 1) * (B * B * Bp (length a))).
    { clear - Y0 T0 X1 Hu Ba. lia. }
    apply Z.mul_lt_mono_pos_r in X2; lia. }
  assert (HU : lead_acc u false shift = (x * B + y) * 2 ^ shift + t / 2 ^ (32 - shift)).
  { unfold lead_acc.
    assert (Nu : nth (length u - 1) u 0 = x /\ nth (length u - 2) u 0 = y /\ nth (length u - 3) u 0 = t).
    { rewrite Eu, app_length. cbn [length].
      rewrite !app_nth2 by lia.
      replace (length a + 3 - 1 - length a)%nat with 2%nat by lia.
      replace (length a + 3 - 2 - length a)%nat with 1%nat by lia.
      replace (length a + 3 - 3 - length a)%nat with 0%nat by lia. auto. }
    destruct Nu as (-> & -> & ->).
    assert (Hxy : 0 <= x * B < 18446744073709551616) by (clear - Hx; ub; lia).
    rewrite (w64_id _ Hxy), lor_B by assumption.
    destruct (Z.eqb_spec shift 0) as [->|N]; cbn [negb].
    - change (2 ^ (32 - 0)) with (2 ^ 32). rewrite Z.pow_0_r.
      rewrite (Z.div_small t) by apply Ht. lia.
    - assert (Hw : 0 <= (x * B + y) * 2 ^ shift < 18446744073709551616).
      { change 18446744073709551616 with (B * B). unfold digit in *. rewrite pow32 in *.
        split; [nia|]. rewrite E32 in Hx2, Hy |- *. set (aa := 2 ^ shift) in *. set (bb := 2 ^ (32 - shift)) in *.
        clearbody aa bb. clear - Hx2 Hy P1 P2 Hx.
        assert (x + 1 <= bb) by nia.
        assert (x * (aa * bb) + y + 1 <= bb * (aa * bb)) by nia. nia. }
      rewrite (w64_id _ Hw). apply lor_add; [lia|].
      split; [apply Z.div_pos; [apply Ht|lia]|]. apply Z.div_lt_upper_bound; [lia|].
      rewrite Z.mul_comm, <- E32. rewrite <- pow32. apply Ht. }
  rewrite HU.
  pose proof (shift_window (x * B + y) t (Bp (length a)) (uval a) shift ltac:(lia) Pa Ba Ht) as SW.
  rewrite <- Uu in SW.
  assert (Hxy0 : 0 <= x * B + y) by (clear - Hx Hy; ub; lia). specialize (SW Hxy0).
  destruct (q_estimate_spec (uval div * 2 ^ shift) (uval u * 2 ^ shift) (Bp (length a)) lead sub_lead
    ((x * B + y) * 2 ^ shift + t / 2 ^ (32 - shift))) as [Q1 Q2]; auto.
  - assert (0 <= t / 2 ^ (32 - shift)) by (apply Z.div_pos; [apply Ht|lia]). nia.
  - pose proof (uval_bound u Fu). nia.
  - split; [exact Q1|]. set (q := q_estimate _ lead sub_lead) in *. clearbody q.
    set (V := uval div) in *. set (U := uval u) in *. set (p := 2 ^ shift) in *. clearbody V U p.
    clear - Q2 P1. nia.
Qed.
