(** Reading and printing big integers. *)

From Coq Require Import ZArith List Bool Lia.
From Verif Require Import BigIntModel BigIntSpec BigIntBase BigIntAdd BigIntMul BigIntDiv BigIntBits3.
Import ListNotations.
Open Scope Z_scope.

Lemma num_value_app b s t : num_value b (s ++ t) = fold_left (fun a x => a * b + x) t (num_value b s).
Proof. apply fold_left_app. Qed.
Lemma fold_num b t : forall a, fold_left (fun a x => a * b + x) t a = a * b ^ Z.of_nat (length t) + num_value b t.
Proof.
  unfold num_value. induction t as [|x t IH]; intros a; [cbn [fold_left length]; change (Z.of_nat 0) with 0; rewrite Z.pow_0_r; lia|].
  cbn [fold_left length]. rewrite (IH (a * b + x)), (IH (0 * b + x)), Nat2Z.inj_succ, Z.pow_succ_r by lia. ring.
Qed.
Lemma num_app b s t : num_value b (s ++ t) = num_value b s * b ^ Z.of_nat (length t) + num_value b t.
Proof. rewrite num_value_app. apply fold_num. Qed.
Lemma num_cons b x t : num_value b (x :: t) = x * b ^ Z.of_nat (length t) + num_value b t.
Proof. unfold num_value at 1. cbn [fold_left]. rewrite fold_num. ring. Qed.

(** Reading, for an arbitrary conversion function. *)
Theorem from_string_correct s base conv : 0 < base < 2 ^ 32 -> (forall c, In c s -> digit (conv c)) ->
  normal (from_string s base conv) /\ sval (from_string s base conv) = num_value base (map conv s).
Proof.
  intros Hb Hc. unfold from_string, num_value.
  assert (G : forall d, normal d -> 0 <= sval d ->
    normal (fold_left (fun d c => mult_add d base (conv c)) s d) /\
    sval (fold_left (fun d c => mult_add d base (conv c)) s d) = fold_left (fun a x => a * base + x) (map conv s) (sval d)).
  { induction s as [|c s IH]; intros d Nd Pd; [auto|]. cbn [fold_left map].
    destruct (mult_add_spec d base (conv c)) as (W & V & N); [apply normal_wf; exact Nd|exact Pd|unfold digit; lia|apply Hc; left; reflexivity|].
    rewrite <- V. apply IH.
    - intros; apply Hc; right; assumption.
    - apply N; [exact Nd|lia].
    - rewrite V. specialize (Hc c (or_introl eq_refl)). destruct Hc. nia. }
  apply (G [0]); [apply normal_1; ub; lia|reflexivity || (vm_compute; discriminate)].
Qed.

Lemma char_val_decimal c : 48 <= c <= 57 -> char_val c = c - 48.
Proof.
  intros H. unfold char_val. destruct (Z.leb_spec c 57); [|lia]. ub. apply Z.mod_small. lia.
Qed.

Lemma map_ext_in2 s : (forall c, In c s -> 48 <= c <= 57) -> map char_val s = map (fun c => c - 48) s.
Proof. intros H. apply map_ext_in. intros c Hc. apply char_val_decimal, H, Hc. Qed.

Theorem from_decimal_correct s base : 2 <= base <= 10 -> (forall c, In c s -> 48 <= c < 48 + base) ->
  normal (from_string s base char_val) /\
  sval (from_string s base char_val) = num_value base (map (fun c => c - 48) s).
Proof.
  intros Hb Hs. rewrite <- map_ext_in2 by (intros c Hc; specialize (Hs c Hc); lia).
  apply from_string_correct; [lia|]. intros c Hc. specialize (Hs c Hc). rewrite char_val_decimal by lia.
  unfold digit. lia.
Qed.

(** Printing. *)
Definition decimal (ds : list Z) : Prop := Forall (fun x => 0 <= x <= 9) ds.
Lemma dec_digits_spec fuel : forall n acc, 0 <= n < 10 ^ Z.of_nat fuel -> (0 < fuel)%nat -> decimal acc ->
  let ds := dec_digits_fuel fuel n acc in
  num_value 10 ds = n * 10 ^ Z.of_nat (length acc) + num_value 10 acc /\ decimal ds /\ ds <> [] /\
  (n <> 0 -> hd 0 ds <> 0) /\ (n = 0 -> ds = 0 :: acc).
Proof.
  induction fuel as [|k IH]; intros n acc Hn Pf Da; [lia|]. cbv zeta. cbn [dec_digits_fuel].
  destruct (Z.ltb_spec n 10) as [L|L].
  - rewrite num_cons. split; [reflexivity|]. split; [constructor; [lia|exact Da]|]. split; [discriminate|].
    split; [intros; cbn [hd]; assumption|]. intros ->. reflexivity.
  - rewrite Nat2Z.inj_succ, Z.pow_succ_r in Hn by lia.
    assert (Hq : 0 <= n / 10 < 10 ^ Z.of_nat k) by (Z.div_mod_to_equations; lia).
    assert (Pk : (0 < k)%nat) by (destruct k; [cbn in Hn; lia|lia]).
    destruct (IH (n / 10) (n mod 10 :: acc) Hq Pk) as (I1 & I2 & I3 & I4 & I5).
    { constructor; [Z.div_mod_to_equations; lia|exact Da]. }
    split; [|split; [exact I2|split; [exact I3|split]]].
    + rewrite I1, num_cons. cbn [length]. rewrite Nat2Z.inj_succ, Z.pow_succ_r by lia.
      rewrite (Z.div_mod n 10) at 3 by lia. ring.
    + intros _. apply I4. Z.div_mod_to_equations; lia.
    + lia.
Qed.
Lemma pad9_spec k : forall n acc, decimal acc ->
  num_value 10 (pad9_fuel k n acc) = (n mod 10 ^ Z.of_nat k) * 10 ^ Z.of_nat (length acc) + num_value 10 acc /\
  length (pad9_fuel k n acc) = (k + length acc)%nat /\ decimal (pad9_fuel k n acc).
Proof.
  induction k as [|k IH]; intros n acc Da; cbn [pad9_fuel].
  - change (Z.of_nat 0) with 0. rewrite Z.pow_0_r, Z.mod_1_r. split; [ring|]. split; [reflexivity|exact Da].
  - destruct (IH (n / 10) (n mod 10 :: acc)) as (I1 & I2 & I3).
    { constructor; [Z.div_mod_to_equations; lia|exact Da]. }
    split; [|split; [rewrite I2; cbn [length]; lia|exact I3]].
    rewrite I1, num_cons. cbn [length]. rewrite !Nat2Z.inj_succ, !Z.pow_succ_r by lia.
    pose proof (Z.pow_pos_nonneg 10 (Z.of_nat k) ltac:(lia) ltac:(lia)) as P.
    rewrite (Z.rem_mul_r n 10) by lia. ring.
Qed.

Lemma print_fuel_spec fuel : forall d minus, normal d -> 0 <= sval d -> (minus = true -> 0 < sval d) ->
  sval d < 2 * 1000000000 ^ Z.of_nat (fuel - 1) -> (0 < fuel)%nat ->
  exists ds, print_fuel fuel d minus = Some (minus, ds) /\ num_value 10 ds = sval d /\
    decimal ds /\ ds <> [] /\ (sval d <> 0 -> hd 0 ds <> 0) /\ (sval d = 0 -> ds = [0]).
Proof.
  induction fuel as [|k IH]; intros d minus Nd Pd Hm Hf Pf; [lia|]. cbn [print_fuel].
  pose proof (normal_wf _ Nd) as W.
  destruct d as [|x [|y t]].
  - destruct W; congruence.
  - rewrite sval_1 in *. cbv zeta. replace (Z.abs (if minus then - s32 x else s32 x)) with (s32 x) by (destruct minus; lia).
    assert (Hx : s32 x < 2147483648).
    { pose proof (sval_rng [x] W) as R. rewrite sval_1 in R. unfold rng in R. cbn [length] in R. rewrite Bp_1, B_val in R. lia. }
    replace ((if minus then - s32 x else s32 x) <? 0) with minus.
    2:{ destruct minus; symmetry; [apply Z.ltb_lt; specialize (Hm eq_refl); lia|apply Z.ltb_ge; lia]. }
    exists (dec_digits (s32 x)). unfold dec_digits.
    destruct (dec_digits_spec 10 (s32 x) []) as (E1 & E2 & E3 & E4 & E5); [|lia|constructor|].
    { change (10 ^ Z.of_nat 10) with 10000000000. lia. }
    split; [reflexivity|]. split; [rewrite E1; cbn [length num_value fold_left]; change (Z.of_nat 0) with 0; rewrite Z.pow_0_r; ring|].
    auto.
  - set (d := x :: y :: t) in *.
    assert (Big : 2147483648 <= sval d).
    { pose proof (normal_long 1 d Nd) as R. unfold rng in R. rewrite Bp_1, B_val in R.
      assert (~ (-4294967296 <= 2 * sval d < 4294967296)) by (apply R; cbn [length d]; lia). lia. }
    destruct (shift_modulo_spec d 1000000000 W) as (q & r & E & Nq & Vq & Vr); [ub; lia|lia|].
    rewrite E.
    assert (Pq : 2 <= sval q) by (rewrite Vq; Z.div_mod_to_equations; lia).
    assert (Pk : (0 < k)%nat).
    { destruct k; [|lia]. replace (1 - 1)%nat with 0%nat in Hf by lia. change (Z.of_nat 0) with 0 in Hf. rewrite Z.pow_0_r in Hf. lia. }
    destruct (IH q minus Nq ltac:(lia) ltac:(lia)) as (ds & Ep & V & Dd & Nn & Hd & _); [|exact Pk|].
    { rewrite Vq. apply Z.div_lt_upper_bound; [lia|].
      replace (S k - 1)%nat with (S (k - 1)) in Hf by lia. rewrite Nat2Z.inj_succ, Z.pow_succ_r in Hf by lia. lia. }
    rewrite Ep. exists (ds ++ pad9 r). split; [reflexivity|]. unfold pad9.
    destruct (pad9_spec 9 r [] ltac:(constructor)) as (P1 & P2 & P3).
    assert (R9 : 0 <= r < 1000000000) by (rewrite Vr; apply Z.mod_pos_bound; lia).
    split; [|split; [apply Forall_app; split; assumption|split; [destruct ds; [congruence|discriminate]|split]]].
    + rewrite num_app, P1, P2, V, Vq. cbn [length num_value fold_left].
      change (Z.of_nat (9 + 0)) with 9. change (Z.of_nat 9) with 9. change (Z.of_nat 0) with 0.
      change (10 ^ 9) with 1000000000. rewrite Z.pow_0_r, Z.mod_small by exact R9. rewrite Vr.
      pose proof (Z.div_mod (sval d) 1000000000 ltac:(lia)). lia.
    + intros _. destruct ds as [|z ds]; [congruence|]. cbn [app hd] in *. apply Hd. lia.
    + lia.
Qed.

Theorem print_correct d : normal d ->
  exists ds, print d = Some (sval d <? 0, ds) /\ num_value 10 ds = Z.abs (sval d) /\
    Forall (fun x => 0 <= x <= 9) ds /\ (ds = [0] \/ (ds <> [] /\ hd 0 ds <> 0)).
Proof.
  intros Nd. unfold print. rewrite back_sign by (apply normal_wf; exact Nd).
  set (d' := if sval d <? 0 then negate d else d).
  assert (N' : normal d' /\ sval d' = Z.abs (sval d)).
  { unfold d'. destruct (negate_correct d Nd) as [A1 A2]. destruct (Z.ltb_spec (sval d) 0); split; auto; lia. }
  destruct N' as [N' V']. clearbody d'.
  destruct (print_fuel_spec (S (2 * length d')) d' (sval d <? 0) N' ltac:(lia)) as (ds & E & V & D & N & H1 & H2).
  - intros H. apply Z.ltb_lt in H. lia.
  - pose proof (sval_rng d' (normal_wf _ N')) as R. unfold rng in R.
    replace (S (2 * length d') - 1)%nat with (2 * length d')%nat by lia.
    rewrite Nat2Z.inj_mul, Z.pow_mul_r by lia. change (1000000000 ^ Z.of_nat 2) with 1000000000000000000.
    assert (Bp (length d') <= 1000000000000000000 ^ Z.of_nat (length d')).
    { unfold Bp. apply Z.pow_le_mono_l. rewrite B_val. lia. }
    lia.
  - lia.
  - exists ds. split; [exact E|]. split; [lia|]. split; [exact D|].
    destruct (Z.eq_dec (sval d') 0) as [Z0|Z0]; [left; auto|right; auto].
Qed.

Theorem print_parse d : normal d ->
  exists ds, print d = Some (sval d <? 0, ds) /\
    let v := from_string (map (fun x => x + 48) ds) 10 char_val in
    d = if sval d <? 0 then negate v else v.
Proof.
  intros Nd. destruct (print_correct d Nd) as (ds & E & V & D & _). exists ds. split; [exact E|]. cbv zeta.
  rewrite Forall_forall in D.
  destruct (from_decimal_correct (map (fun x => x + 48) ds) 10) as [P1 P2]; [lia| |].
  { intros c Hc. apply in_map_iff in Hc as (x & <- & Hx). specialize (D x Hx). lia. }
  rewrite map_map, (map_ext (fun x => x + 48 - 48) (fun x => x)), map_id, V in P2 by (intros; lia).
  set (v := from_string _ 10 char_val) in *. clearbody v.
  destruct (negate_correct v P1) as [N1 N2].
  apply normal_unique; auto; destruct (Z.ltb_spec (sval d) 0); auto; lia.
Qed.

(** Operations on an object and itself. *)
Lemma self_split c d x lo t xl cf : wf d -> wf x -> length x = length d -> (c = 0 \/ c = 1) ->
  add_low d x c = (lo, t, xl, cf) -> t = [last d 0] /\ xl = last x 0.
Proof.
  intros [Nd Fd] [Nx Fx] L Hc E.
  destruct (add_low_spec x d c lo t xl cf Nx) as (pre & xs & P1 & P2 & P3 & P4 & _ & _ & P7 & _); auto; [lia|].
  assert (Lt : length t = 1%nat).
  { rewrite P1, P2, !app_length in L. cbn [length] in L. lia. }
  destruct t as [|y [|? ?]]; try discriminate. rewrite P1, P2, !last_last. auto.
Qed.

Theorem sub_self_correct d : normal d -> sub_self d = [0].
Proof.
  intros Nd. pose proof (normal_wf d Nd) as W.
  assert (E : sub_self d = sub d d).
  { unfold sub_self, sub. destruct (add_low d (map cpl d) 1) as [[[lo t] xl] cf] eqn:E.
    destruct (self_split 1 d (map cpl d) lo t xl cf) as [-> ->]; auto.
    - apply wf_cpl, W.
    - apply map_length.
    - unfold sub_high. rewrite last_map_cpl, cpl_cpl by (try apply last_digit; apply W).
      rewrite Z.lxor_nilpotent. reflexivity. }
  assert (S : sub d d = sub_assign d d).
  { unfold sub_assign. rewrite Nat.ltb_irrefl. reflexivity. }
  rewrite E, S. destruct (sub_assign_correct d d Nd Nd) as [N V].
  apply normal_unique; auto.
  - apply normal_1. ub. lia.
  - rewrite V. cbn. lia.
Qed.

Lemma add_self_late d : normal d -> add_self false d = add d d.
Proof.
  intros Nd. pose proof (normal_wf d Nd) as W.
  unfold add_self, add. destruct (add_low d d 0) as [[[lo t] xl] cf] eqn:E.
  destruct (self_split 0 d d lo t xl cf) as [-> ->]; auto.
  unfold add_high. rewrite Z.lxor_nilpotent. reflexivity.
Qed.

Theorem add_self_correct_partial (left_first : bool) d : normal d ->
  (left_first = true -> - 2 ^ (32 * Z.of_nat (length d) - 1) <= 2 * sval d < 2 ^ (32 * Z.of_nat (length d) - 1)) ->
  normal (add_self left_first d) /\ sval (add_self left_first d) = 2 * sval d.
Proof.
  intros Nd R. pose proof (normal_wf d Nd) as W.
  destruct (add_spec d d W W) as (A1 & A2 & A3); [lia|].
  assert (A4 : normal (add d d)) by (apply A3; auto; lia).
  assert (E : add_self left_first d = add d d).
  2:{ rewrite E, A2. split; [auto|ring]. }
  destruct left_first; [|apply add_self_late, Nd]. specialize (R eq_refl).
  assert (Nz : (1 <= length d)%nat).
  { destruct W as [W0 _]. destruct d; [tauto|cbn [length]; lia]. }
  assert (L : (length (add d d) <= length d)%nat).
  { destruct (proj1 (normal_iff _ A1) A4) as [L|L]; [lia|].
    destruct (Nat.le_gt_cases (length (add d d)) (length d)) as [|G]; [auto|exfalso]. apply L.
    apply (rng_mono (length d)); [lia|]. rewrite A2. unfold rng. rewrite Bp_pow.
    replace (32 * Z.of_nat (length d)) with (Z.succ (32 * Z.of_nat (length d) - 1)) by lia.
    rewrite Z.pow_succ_r by lia. lia. }
  revert L. unfold add_self, add. destruct (add_low d d 0) as [[[lo t] xl] cf] eqn:E.
  destruct (add_low_spec d d 0 lo t xl cf) as (pre & xs & P1 & P2 & P3 & P4 & _ & _ & P7 & _); auto; try apply W.
  destruct (self_split 0 d d lo t xl cf) as [-> ->]; auto.
  unfold add_high. rewrite !Z.lxor_nilpotent.
  assert (Ld : length d = S (length lo)).
  { rewrite P2, app_length, P4. cbn [length]. lia. }
  assert (Hf : (neg_flag <=? 0) = false) by reflexivity. rewrite Hf.
  destruct (neg_flag <=? Z.lxor _ (last d 0)); auto.
  rewrite app_length, Ld. cbn [length]. lia.
Qed.
