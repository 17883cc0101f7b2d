(** Torus elements: proofs. *)

From Coq Require Import List Arith ZArith QArith Qabs Qfield Bool Lia Lqa.
From Verif Require Import F2Model F2Spec F2Basics F2Ops.
From Verif Require Import BitsModel VecModel RunModel RunProofs MatModel MatSpec MatProofs MatArith MatDiv ArithModel ArithSpec ArithProofs ArithRat
  RatVecModel RatVecSpec RatVecProofs RatVecOps RatVecMore YvModel YvSpec.
Import ListNotations.
Open Scope Z_scope.

(** * the representation in integers *)
Lemma torus_iff t n q : is_torus t n q <-> 0 < den t < 2 ^ 63 /\ exists x, is_vec (num t) n x /\
  forall i, (i < n)%nat -> in64 (x i) /\ 0 <= x i < 2 * den t /\ exists z, (inject_Z (x i) == (q i + inject_Z (2 * z)) * inject_Z (den t))%Q.
Proof.
  split.
  - intros (p & (Hd & x & V & HX) & HP). split; auto. exists x. split; auto. intros i Hi. destruct (HX i Hi) as (B & E). split; auto.
    destruct (HP i Hi) as ((L & U) & z & Ez). assert (DP : (0 < inject_Z (den t))%Q) by (change 0%Q with (inject_Z 0); rewrite <- Zlt_Qlt; lia).
    split; [split|].
    + rewrite Zle_Qle, E. apply Qmult_le_0_compat; [exact L|apply Qlt_le_weak; exact DP].
    + rewrite Zlt_Qlt, E, inject_Z_mult. apply Qmult_lt_compat_r; [exact DP|exact U].
    + exists z. rewrite E, <- Ez. ring.
  - intros (Hd & x & V & HX). assert (DP : (0 < inject_Z (den t))%Q) by (change 0%Q with (inject_Z 0); rewrite <- Zlt_Qlt; lia).
    exists (fun i => inject_Z (x i) / inject_Z (den t))%Q. split; [split; auto; exists x; split; auto; intros i Hi; split; [apply HX; auto|]|].
    + field. apply inj_neq0. lia.
    + intros i Hi. destruct (HX i Hi) as (B & (L & U) & z & Ez). split; [split|].
      * apply Qle_shift_div_l; auto. rewrite Qmult_0_l. change 0%Q with (inject_Z 0). rewrite <- Zle_Qle. lia.
      * apply Qlt_shift_div_r; auto. change 2%Q with (inject_Z 2). rewrite <- inject_Z_mult, <- Zlt_Qlt. lia.
      * exists z. rewrite Ez. field. apply inj_neq0. lia.
Qed.
Lemma torus_size t n q : is_torus t n q -> length (num t) = n.
Proof. intros (p & (_ & x & (L & _) & _) & _). exact L. Qed.
Lemma torus_ext t n p q : is_torus t n p -> (forall i, (i < n)%nat -> even_apart (p i) (q i)) -> is_torus t n q.
Proof.
  intros (r & R & H) E. exists r. split; auto. intros i Hi. destruct (H i Hi) as (B & z & Z1). split; auto. destruct (E i Hi) as (w & W1).
  exists (z + w). rewrite Z.mul_add_distr_l, inject_Z_plus, <- Z1, <- W1. ring.
Qed.
Lemma even_refl p q : (p == q)%Q -> even_apart p q.
Proof. intros E. exists 0. rewrite E. change (inject_Z (2 * 0)) with 0%Q. ring. Qed.
Lemma even_sym p q : even_apart p q -> even_apart q p.
Proof. intros (z & E). exists (- z). replace (2 * - z) with (- (2 * z)) by lia. rewrite inject_Z_opp, <- E. ring. Qed.
Lemma even_trans p q r : even_apart p q -> even_apart q r -> even_apart p r.
Proof. intros (z & E) (w & F). exists (z + w). rewrite Z.mul_add_distr_l, inject_Z_plus, <- E, <- F. ring. Qed.

Lemma torus_intro l d n x q (y : nat -> Z) : is_vec l n y -> 0 < d < 2 ^ 62 ->
  (forall i, (i < n)%nat -> (inject_Z (x i) == q i * inject_Z d)%Q /\ y i = x i mod (2 * d)) -> is_torus (mk_rv l d) n q.
Proof.
  intros V Hd H. apply torus_iff. cbn [num den]. split; [lia|]. exists y. split; auto. intros i Hi. destruct (H i Hi) as (E & ->).
  pose proof (Z.mod_pos_bound (x i) (2 * d) ltac:(lia)). split; [unfold in64; lia|]. split; [lia|]. exists (- (x i / (2 * d))).
  assert (M : x i mod (2 * d) = x i + 2 * - (x i / (2 * d)) * d) by (pose proof (Z.div_mod (x i) (2 * d) ltac:(lia)); lia).
  rewrite M, inject_Z_plus, (inject_Z_mult (2 * _)), E. ring.
Qed.
Lemma rem_run x d : in64 x -> 0 < d < 2 ^ 63 -> of_option (remainder x d) = Ok (x mod d).
Proof.
  intros B Hd. assert (E : d = s64 d) by (symmetry; apply s64_small; lia). rewrite E at 1.
  rewrite remainder_exact by (auto; big; lia). cbn. rewrite s64_small; auto. pose proof (Z.mod_pos_bound x d ltac:(lia)). big; lia.
Qed.
Lemma twice_run v : 0 < den v < 2 ^ 63 -> gives (twice_den v) (fun d => d = 2 * den v /\ den v < 2 ^ 62) (large_den v).
Proof.
  intros Hd. unfold twice_den, rv_denominator. rewrite s64_small by lia. apply chk64.
  - intros B. unfold in64 in B. lia.
  - intros B. split; auto. unfold in64 in B. lia.
Qed.

(** * constructors and reduction *)
Lemma make_false r n q : is_rv r n q -> gives (te_make r false) (fun t => is_torus t n q /\ den t = den r) (large_den r).
Proof.
  intros (Hd & x & V & HX). unfold te_make. cbn [bind]. eapply gives_bind; [apply (twice_run r Hd)|]. intros d (-> & Ld).
  eapply gives_bind; [apply (vmap_part (E := large_den r) _ (fun a b => b = a mod (2 * den r)) (num r) n x); [|exact V]|].
  - intros i Hi. destruct (HX i Hi) as (B & _). rewrite rem_run by (auto; lia). reflexivity.
  - intros l (y & Vl & Hy). cbn. split; auto. apply (torus_intro l _ n x q y Vl); [lia|]. intros i Hi. split; [apply HX; auto|apply Hy; auto].
Qed.
Lemma make_true r n q : is_rv r n q -> gives (te_make r true) (fun t => is_torus t n (fun i => 2 * q i)%Q)
  (fun e => e = Overflow /\ (2 ^ 62 <= den r \/ exists i, (i < n)%nat /\ ~ holds (den r) (2 * q i)%Q)).
Proof.
  intros R. unfold te_make. pose proof R as (Hd & _). pose proof (mul_n_ok r n q 2 R ltac:(lia)) as G.
  assert (DL : forall v, rv_mul_n r 2 = Ok v -> den v <= den r).
  { intros v. unfold rv_mul_n. cbn [Z.eqb]. unfold crem. rewrite s64_small by lia. cbn [Z.eqb].
    destruct (chkz fits64 _); [|discriminate]. cbn [bind].
    destruct (Z.rem (den r) 2 =? 0).
    - cbn. intros E. injection E as <-. cbn. apply Z.div_le_upper_bound; lia.
    - destruct (vec_scale RV (num r) 2); [|discriminate]. cbn. intros E. injection E as <-. cbn. lia. }
  destruct (rv_mul_n r 2) as [v|e]; cbn [bind]; cbn [gives] in G.
  - specialize (DL v eq_refl). pose proof (make_false v n _ G) as F. unfold te_make in F. cbn [bind] in F.
    eapply gives_conv; [| |exact F].
    + intros t (H & _). exact H.
    + intros e (-> & H). split; auto. left. lia.
  - destruct G as (-> & i & Hi & [H|(H & _)]); [|lia]. split; auto. right. exists i. auto.
Qed.
Lemma reduce_ok t n q : is_rv t n q -> gives (te_reduce t) (fun u => is_torus u n q /\ den u = den t) (large_den t).
Proof.
  intros (Hd & x & V & HX). unfold te_reduce. eapply gives_bind; [apply (twice_run t Hd)|]. intros d (-> & Ld).
  eapply gives_bind; [apply (vmap_part (E := large_den t) _ (fun a b => b = a mod (2 * den t)) (num t) n x); [|exact V]|].
  - intros i Hi. destruct (HX i Hi) as (B & _). destruct (Z.ltb_spec (x i) 0); cbn [orb].
    + rewrite rem_run by (auto; lia). reflexivity.
    + destruct (Z.leb_spec (2 * den t) (x i)).
      * rewrite rem_run by (auto; lia). reflexivity.
      * cbn [gives]. symmetry. apply Z.mod_small. lia.
  - intros l (y & Vl & Hy). cbn. split; auto. apply (torus_intro l _ n x q y Vl); [lia|]. intros i Hi. split; [apply HX; auto|apply Hy; auto].
Qed.

(** * comparison *)
Lemma torus_same t u n p q : is_torus t n p -> is_torus u n q -> gives (te_eqb t u) (fun b => b = true <-> forall i, (i < n)%nat -> even_apart (p i) (q i)) never.
Proof.
  intros (r & R & HR) (s & S1 & HS). eapply gives_mono; [apply (eqb_ok t u n n r s R S1)|]. intros b Hb. rewrite Hb. split.
  - intros (_ & H) i Hi. eapply even_trans; [apply even_sym, HR; auto|]. eapply even_trans; [apply even_refl, H; auto|]. apply HS; auto.
  - intros H. split; auto. intros i Hi. destruct (HR i Hi) as ((L1 & U1) & E1). destruct (HS i Hi) as ((L2 & U2) & E2).
    destruct (even_trans _ _ _ E1 (even_trans _ _ _ (H i Hi) (even_sym _ _ E2))) as (z & Ez).
    assert (2 * z = 0).
    { assert ((inject_Z (2 * z) < inject_Z 2)%Q) by (rewrite <- Ez; change (inject_Z 2) with 2%Q; lra).
      assert ((inject_Z (- 2) < inject_Z (2 * z))%Q) by (rewrite <- Ez; change (inject_Z (- 2)) with (- (2))%Q; lra).
      rewrite <- Zlt_Qlt in *. lia. }
    rewrite H0 in Ez. change (inject_Z 0) with 0%Q in Ez. lra.
Qed.

(** * logarithms *)
Lemma log_2pi_ok t n q : is_torus t n q -> gives (log_2pi t) (fun v => reduced v /\ exists p, is_rv v n p /\
    forall i, (i < n)%nat -> (0 <= p i < 1)%Q /\ exists z, (p i - q i / 2 == inject_Z z)%Q) (large_den t).
Proof.
  intros T. pose proof (proj1 (torus_iff t n q) T) as (Hd & x & V & HX). unfold log_2pi. eapply gives_bind; [apply (twice_run t Hd)|]. intros d (-> & Ld).
  eapply gives_bind; [eapply gives_conv; [intros v Hv; exact Hv| |apply (make_ok (num t) n x (2 * den t) V)]|].
  - intros e (_ & He & _). exfalso. lia.
  - intros i Hi. apply HX; auto.
  - lia.
  - lia.
  - intros v (RV1 & EN). eapply gives_conv; [| |apply (normalize_ok v n _ RV1)].
    + intros w (H1 & H2 & _). split; auto. exists (fun i => inject_Z (x i) / inject_Z (2 * den t))%Q. split; [exact H1|]. intros i Hi. destruct (HX i Hi) as (B & (L & U) & z & Ez).
      assert (DP : (0 < inject_Z (2 * den t))%Q) by (change 0%Q with (inject_Z 0); rewrite <- Zlt_Qlt; lia). split; [split|].
      * apply Qle_shift_div_l; auto. rewrite Qmult_0_l. change 0%Q with (inject_Z 0). rewrite <- Zle_Qle. lia.
      * apply Qlt_shift_div_r; auto. rewrite Qmult_1_l, <- Zlt_Qlt. lia.
      * exists z. rewrite Ez, !inject_Z_mult. change (inject_Z 2) with 2%Q. field. apply inj_neq0. lia.
    + intros e (-> & H). exfalso. destruct RV1 as (_ & y & Vy & HY). apply (in_get _ _ _ _ Vy) in H as (i & Hi & Ei).
      destruct (HX i Hi) as (B & (L & U) & _). destruct (HY i Hi) as (_ & Q1). rewrite Ei in Q1.
      assert ((inject_Z (- 2 ^ 63) < 0)%Q) by reflexivity. assert (DP : (0 < inject_Z (den v))%Q) by (change 0%Q with (inject_Z 0); rewrite <- Zlt_Qlt; lia).
      assert ((0 <= inject_Z (x i) / inject_Z (2 * den t))%Q).
      { apply Qle_shift_div_l; [change 0%Q with (inject_Z 0); rewrite <- Zlt_Qlt; lia|]. rewrite Qmult_0_l. change 0%Q with (inject_Z 0). rewrite <- Zle_Qle. lia. }
      assert ((0 <= inject_Z (x i) / inject_Z (2 * den t) * inject_Z (den v))%Q) by (apply Qmult_le_0_compat; [auto|apply Qlt_le_weak; auto]).
      rewrite <- Q1 in H1. apply (Qlt_not_le _ _ H H1).
Qed.
