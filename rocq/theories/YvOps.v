(** Torus elements: group operations, evaluation, actions. *)

From Coq Require Import List Arith ZArith QArith Qabs Qfield Bool Lia Lqa.
From Verif Require Import F2Model F2Spec F2Basics F2Proofs F2Ops.
From Verif Require Import BitsModel VecModel RunModel RunProofs MatModel MatSpec MatProofs MatArith MatDiv ArithModel ArithSpec ArithProofs ArithRat
  RatVecModel RatVecSpec RatVecProofs RatVecOps RatVecMore RootSpec RootForm DatModel DatSpec DatProofs DatOps DatProps YvModel YvSpec YvProofs.
Import ListNotations.
Open Scope Z_scope.

Lemma vec_of (f : nat -> Z) n : is_vec (map f (seq 0 n)) n f.
Proof.
  split; [rewrite map_length, seq_length; reflexivity|]. intros i Hi. unfold get. rewrite nth_error_map, (nth_error_nth' _ 0%nat) by (rewrite seq_length; lia).
  cbn. rewrite seq_nth by lia. reflexivity.
Qed.
(** a sum or difference of reduced elements, written with the least common multiple *)
Lemma sum_rv v w n p q x y c : 0 < den v -> 0 < den w -> c = 1 \/ c = -1 -> Z.lcm (den v) (den w) < 2 ^ 61 ->
  (forall i, (i < n)%nat -> (inject_Z (x i) == p i * inject_Z (den v))%Q /\ 0 <= x i < 2 * den v) ->
  (forall i, (i < n)%nat -> (inject_Z (y i) == q i * inject_Z (den w))%Q /\ 0 <= y i < 2 * den w) ->
  exists f, is_rv (mk_rv (map f (seq 0 n)) (Z.lcm (den v) (den w))) n (fun i => inject_Z 1 * p i + inject_Z c * q i)%Q /\
    forall i, (i < n)%nat -> (inject_Z (f i) == (inject_Z 1 * p i + inject_Z c * q i) * inject_Z (Z.lcm (den v) (den w)))%Q /\ Z.abs (f i) < 4 * Z.lcm (den v) (den w).
Proof.
  intros Dv Dw C L HX HY. destruct (Z.divide_lcm_l (den v) (den w)) as (a & Ea). destruct (Z.divide_lcm_r (den v) (den w)) as (b & Eb).
  pose proof (Z.lcm_nonneg (den v) (den w)). assert (Z.lcm (den v) (den w) <> 0) by (intros E0; apply Z.lcm_eq_0 in E0; lia).
  set (m := Z.lcm (den v) (den w)) in *. assert (0 < a) by nia. assert (0 < b) by nia.
  exists (fun i => x i * a + c * (y i * b)).
  assert (K : forall i, (i < n)%nat -> (inject_Z (x i * a + c * (y i * b)) == (inject_Z 1 * p i + inject_Z c * q i) * inject_Z m)%Q /\ Z.abs (x i * a + c * (y i * b)) < 4 * m).
  { intros i Hi. destruct (HX i Hi) as (E1 & B1). destruct (HY i Hi) as (E2 & B2). split.
    - rewrite inject_Z_plus, !inject_Z_mult, E1, E2, Qmult_plus_distr_l. apply Qplus_comp.
      + rewrite Ea, inject_Z_mult. change (inject_Z 1) with 1%Q. ring.
      + rewrite Eb, inject_Z_mult. ring.
    - assert (0 <= x i * a < 2 * m) by (rewrite Ea; nia). assert (0 <= y i * b < 2 * m) by (rewrite Eb; nia). destruct C as [-> | ->]; lia. }
  split; [|exact K]. apply (is_rv_intro _ _ n _ _ (vec_of _ n)); [lia|]. intros i Hi. destruct (K i Hi) as (K1 & K2). split; [unfold in64; lia|exact K1].
Qed.
Lemma combine_torus op c t u n p q : RatVecOps.linear op 1 c -> c = 1 \/ c = -1 -> is_torus t n p -> is_torus u n q -> Z.lcm (den t) (den u) < 2 ^ 61 ->
  gives (rv_combine op t u) (fun r => den r < 2 ^ 61 /\ exists w, is_rv r n w /\ forall i, (i < n)%nat -> even_apart (w i) (p i + inject_Z c * q i)%Q /\
    (c = 1 -> (0 <= w i < 4)%Q)) never.
Proof.
  intros Lo C (p' & RT & HT) (q' & RU & HU) L. pose proof RT as (Dt & x & Vx & HX). pose proof RU as (Du & y & Vy & HY).
  assert (HX' : forall i, (i < n)%nat -> (inject_Z (x i) == p' i * inject_Z (den t))%Q /\ 0 <= x i < 2 * den t).
  { intros i Hi. split; [apply HX; auto|]. assert (T : is_torus t n p') by (exists p'; split; auto; intros j Hj; split; [apply HT; auto|apply even_refl; reflexivity]).
    apply torus_iff in T as (_ & z & Vz & HZ). assert (z i = x i) by (pose proof (proj2 Vz i Hi); pose proof (proj2 Vx i Hi); congruence). rewrite <- H. apply HZ; auto. }
  assert (HY' : forall i, (i < n)%nat -> (inject_Z (y i) == q' i * inject_Z (den u))%Q /\ 0 <= y i < 2 * den u).
  { intros i Hi. split; [apply HY; auto|]. assert (T : is_torus u n q') by (exists q'; split; auto; intros j Hj; split; [apply HU; auto|apply even_refl; reflexivity]).
    apply torus_iff in T as (_ & z & Vz & HZ). assert (z i = y i) by (pose proof (proj2 Vz i Hi); pose proof (proj2 Vy i Hi); congruence). rewrite <- H. apply HZ; auto. }
  destruct (sum_rv t u n p' q' x y c ltac:(lia) ltac:(lia) C L HX' HY') as (f & RF & HF).
  set (m := Z.lcm (den t) (den u)) in *. assert (Pm : 0 < m) by (destruct RF as (D0 & _); cbn in D0; lia).
  eapply gives_conv; [| |apply (combine_ok op 1 c t u n p' q' Lo RT RU)].
  - intros r (R1 & R2). assert (Dr : (den r | m)).
    { apply (reduced_divides r _ n _ _ R1 RF R2). intros i Hi. exists 0. ring. }
    pose proof (Z.divide_pos_le _ _ Pm Dr). split; [lia|]. exists (fun i => inject_Z 1 * p' i + inject_Z c * q' i)%Q. split; auto. intros i Hi.
    destruct (HT i Hi) as (B1 & z1 & E1). destruct (HU i Hi) as (B2 & z2 & E2). split.
    + exists (z1 + c * z2). replace (2 * (z1 + c * z2)) with (2 * z1 + c * (2 * z2)) by ring. rewrite inject_Z_plus, (inject_Z_mult c), <- E1, <- E2. change (inject_Z 1) with 1%Q. ring.
    + intros ->. change (inject_Z 1) with 1%Q. lra.
  - intros e (-> & i & Hi & E). exfalso. destruct (HF i Hi) as (K1 & K2). fold m in E. rewrite <- K1 in E. apply inj_inj in E. lia.
  - fold m. lia.
  - intros i Hi. fold m. exists (f i). destruct (HF i Hi) as (K1 & K2). split; [unfold in64; lia|exact K1].
Qed.
Lemma te_add_ok t u n p q : is_torus t n p -> is_torus u n q -> Z.lcm (den t) (den u) < 2 ^ 61 ->
  gives (te_add t u) (fun r => is_torus r n (fun i => p i + q i)%Q /\ den r < 2 ^ 61) never.
Proof.
  intros HT HU L. unfold te_add, rv_add. eapply gives_bind; [apply (combine_torus Z.add 1 t u n p q); auto; intros a b; lia|].
  intros r (Dr & w & RW & HW). pose proof RW as (D0 & x & Vx & HX).
  eapply gives_bind; [eapply gives_conv; [intros d Hd; exact Hd| |apply (twice_run r D0)]|]; [intros e (_ & H); lia|]. intros d (-> & _).
  eapply gives_bind; [apply (vmap_part (E := never) _ (fun a b => b = a mod (2 * den r)) (num r) n x); [|exact Vx]|].
  - intros i Hi. destruct (HX i Hi) as (B & E). destruct (HW i Hi) as (_ & W1). specialize (W1 eq_refl).
    assert (DP : (0 < inject_Z (den r))%Q) by (change 0%Q with (inject_Z 0); rewrite <- Zlt_Qlt; lia).
    assert (0 <= x i < 4 * den r).
    { split.
      - rewrite Zle_Qle, E. apply Qmult_le_0_compat; [apply W1|apply Qlt_le_weak; auto].
      - rewrite Zlt_Qlt, E, inject_Z_mult. apply Qmult_lt_compat_r; [auto|]. apply W1. }
    destruct (Z.leb_spec (2 * den r) (x i)).
    + apply (chk64 _ (fun b => b = x i mod (2 * den r))).
      * intros _. apply Z.mod_unique with (q := 1); lia.
      * intros N. apply N. unfold in64. lia.
    + cbn [gives]. symmetry. apply Z.mod_small. lia.
  - intros l (y & Vl & Hy). cbn [gives den]. split; auto. eapply torus_ext.
    + apply (torus_intro l (den r) n x w y Vl); [lia|]. intros i Hi. split; [apply HX; auto|apply Hy; auto].
    + intros i Hi. eapply even_trans; [apply HW; auto|]. apply even_refl. change (inject_Z 1) with 1%Q. ring.
Qed.
Lemma te_sub_ok t u n p q : is_torus t n p -> is_torus u n q -> Z.lcm (den t) (den u) < 2 ^ 61 ->
  gives (te_sub t u) (fun r => is_torus r n (fun i => p i - q i)%Q /\ den r < 2 ^ 61) never.
Proof.
  intros HT HU L. unfold te_sub, rv_sub. eapply gives_bind; [apply (combine_torus Z.sub (-1) t u n p q); auto; intros a b; lia|].
  intros r (Dr & w & RW & HW).
  eapply gives_bind; [eapply gives_conv; [intros d Hd; exact Hd| |apply (make_false r n w RW)]|]; [intros e (_ & H); lia|].
  intros s (TS & Ds). pose proof (proj1 (torus_iff s n w) TS) as (D0 & x & Vx & HX).
  eapply gives_bind; [eapply gives_conv; [intros d Hd; exact Hd| |apply (twice_run s D0)]|]; [intros e (_ & H); lia|]. intros d (-> & _).
  eapply gives_bind; [apply (vmap_part (E := never) _ (fun a b => b = a) (num s) n x); [|exact Vx]|].
  - intros i Hi. destruct (HX i Hi) as (_ & B & _). destruct (Z.ltb_spec (x i) 0); [lia|]. reflexivity.
  - intros l (y & Vl & Hy). cbn [gives den]. split; [|lia]. apply (torus_ext _ n w).
    + apply torus_iff. cbn [num den]. split; auto. exists y. split; auto. intros i Hi. rewrite (Hy i Hi). apply HX; auto.
    + intros i Hi. eapply even_trans; [apply HW; auto|]. apply even_refl. change (inject_Z (-1)) with (- (1))%Q. ring.
Qed.

Lemma te_add_part_ok dim t n q v : (n <= dim)%nat -> is_torus t n q -> sized n v -> den t < 2 ^ 62 ->
  gives (te_add_part dim t v) (fun u => is_torus u n (fun i => q i + bitQ (data v) i)%Q /\ den u = den t) never.
Proof.
  intros Hn T (_ & Sv) Dt. pose proof (proj1 (torus_iff t n q) T) as (D0 & x & Vx & HX). unfold te_add_part, rv_denominator. rewrite s64_small by lia. rewrite Sv.
  set (f i := if coord (data v) i then (if x i <? den t then x i + den t else x i - den t) else x i).
  eapply gives_bind with (P := fun l => is_vec l n (fun i => if (i <? n)%nat then f i else x i)); [apply (gives_upto0 (fun k l => is_vec l n (fun i => if (i <? k)%nat then f i else x i)))|].
  - exact Vx.
  - intros k l Hk Vl. unfold bv_test. rewrite (test_ok dim _ k) by lia. cbn [bind]. destruct (coord (data v) k) eqn:Ek.
    + assert (G : vget l k = Ok (x k)). { unfold vget. rewrite (proj2 Vl k Hk). destruct (Nat.ltb_spec k k); [lia|reflexivity]. }
      rewrite G. cbn [bind]. destruct (HX k Hk) as (_ & B & _).
      assert (C : (if x k <? den t then chkz fits64 (x k + den t) else chkz fits64 (x k - den t)) = Ok (f k)).
      { unfold f. rewrite Ek. destruct (Z.ltb_spec (x k) (den t)); unfold chkz; rewrite (proj2 (fits64_iff _)); auto; unfold in64; lia. }
      rewrite C. cbn [bind]. eapply gives_vput_vec; [exact Vl|exact Hk|]. intros l' Hl'. eapply is_vec_ext; [exact Hl'|]. intros i Hi. unfold upd1.
      destruct (Nat.eqb_spec i k) as [->|N]; [destruct (Nat.ltb_spec k (S k)); [reflexivity|lia]|].
      destruct (Nat.ltb_spec i k), (Nat.ltb_spec i (S k)); auto; lia.
    + cbn [gives]. eapply is_vec_ext; [exact Vl|]. intros i Hi. cbn beta. destruct (Nat.ltb_spec i k), (Nat.ltb_spec i (S k)); auto; try lia.
      assert (i = k) by lia. subst i. unfold f. rewrite Ek. reflexivity.
  - auto.
  - intros l Vl. cbn [gives den]. split; auto. apply torus_iff. cbn [num den]. split; auto. exists f. split.
    + eapply is_vec_ext; [exact Vl|]. intros i Hi. cbn beta. destruct (Nat.ltb_spec i n); [reflexivity|lia].
    + intros i Hi. destruct (HX i Hi) as (B & (L & U) & z & Ez). unfold f, bitQ. destruct (coord (data v) i).
      * destruct (Z.ltb_spec (x i) (den t)).
        -- split; [unfold in64; lia|]. split; [lia|]. exists z. rewrite inject_Z_plus, Ez. ring.
        -- split; [unfold in64; lia|]. split; [lia|]. exists (z - 1). replace (2 * (z - 1)) with (2 * z + - (2)) by lia. unfold Z.sub. rewrite !inject_Z_plus, inject_Z_opp, Ez. change (inject_Z (- (2))) with (- (2))%Q. ring.
      * split; auto. split; auto. exists z. rewrite Ez. ring.
Qed.
