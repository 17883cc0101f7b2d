(** Rational vectors: rational scalars, integer vectors, scalar products, matrices, comparison. *)

From Coq Require Import List Arith ZArith QArith Qabs Qfield Bool Lia Lqa.
From Verif Require Import BitsModel VecModel RunModel RunProofs MatModel MatSpec MatProofs MatArith MatDiv ArithModel ArithSpec ArithProofs ArithRat RatVecModel RatVecSpec RatVecProofs RatVecOps.
Import ListNotations.
Open Scope Z_scope.

(** * rational scalars *)
Lemma rat_pos r : 0 < rden r < 2 ^ 63 -> s64 (rden r) = rden r.
Proof. intros H. apply s64_small. lia. Qed.
Theorem of_rational_ok l n x r : is_vec l n x -> 0 < rden r < 2 ^ 63 ->
  gives (rv_of_rational l r) (fun v => is_rv v n (fun i => inject_Z (x i) * ratval r)%Q /\ den v = rden r)
    (unfit n 1 (fun i => inject_Z (x i) * inject_Z (rnum r))%Q).
Proof.
  intros V D. unfold rv_of_rational. eapply gives_bind; [eapply gives_conv; [intros u H0; exact H0| |apply (vmap_chk (fun a => a * rnum r) l n x V)]|].
  - intros e (-> & i & Hi & N). split; auto. exists i. split; auto. rewrite (holds_iff _ _ (x i * rnum r)); auto. inj. ring.
  - intros u (U & HU). apply gives_ok. split; auto. apply (is_rv_intro _ _ n _ _ U); auto. intros i Hi. split; auto. unfold ratval. inj. field. apply inj_neq0; lia.
Qed.
Theorem mul_r_ok v n q r : is_rv v n q -> sint (rnum r) -> 0 < rden r < 2 ^ 63 -> den v * rden r < 2 ^ 63 ->
  gives (rv_mul_r v r) (fun u => is_rv u n (fun i => q i * ratval r)%Q)
    (fun e => e = Overflow /\ exists i, (i < n)%nat /\ (~ holds (den v * rden r) (q i * ratval r)%Q \/
        rnum r < 0 /\ (rnum r | den v * rden r) /\ ~ holds (den v) (- q i)%Q)).
Proof.
  intros HV S0 D DD. unfold rv_mul_r. rewrite rat_pos by auto.
  eapply gives_bind; [eapply gives_conv; [intros u H0; exact H0| |apply (div_n_ok v n q (rden r) HV); lia]|].
  { intros e (N & _). lia. }
  intros w (W & Dw). rewrite Z.abs_eq in Dw by lia. eapply gives_conv; [| |apply (mul_n_ok w n _ (rnum r) W)]; [| |exact S0].
  - intros u U. eapply is_rv_ext; [exact U|]. intros i Hi. unfold ratval. cbn beta. field. apply inj_neq0; lia.
  - intros e (-> & i & Hi & H). split; auto. exists i. split; auto. rewrite Dw in H.
    destruct H as [H|(N & Dv & H)]; [left|right].
    + intros (z & Hz & Ez). apply H. exists z. split; auto. rewrite Ez. unfold ratval. field. apply inj_neq0; lia.
    + repeat split; auto. intros (z & Hz & Ez). apply H. exists z. split; auto. rewrite Ez. inj. field. apply inj_neq0; lia.
Qed.
Theorem div_r_ok v n q r : is_rv v n q -> rnum r <> 0 -> 0 < rden r < 2 ^ 63 -> den v * Z.abs (rnum r) < 2 ^ 63 ->
  gives (rv_div_r v r) (fun u => is_rv u n (fun i => q i / ratval r)%Q)
    (fun e => e = Overflow /\ exists i, (i < n)%nat /\ (~ holds (den v * Z.abs (rnum r)) (q i / ratval r)%Q \/
        rnum r < 0 /\ ~ holds (den v) (- q i)%Q)).
Proof.
  intros HV R0 D DD. unfold rv_div_r. rewrite rat_pos by auto.
  assert (inject_Z (rnum r) == 0 -> False)%Q by (apply inj_neq0; auto). assert (inject_Z (rden r) == 0 -> False)%Q by (apply inj_neq0; lia).
  eapply gives_bind; [eapply gives_conv; [intros u H1; exact H1| |apply (div_n_ok v n q (rnum r) HV); auto]|].
  { intros e (N & -> & i & Hi & H1). split; auto. exists i. auto. }
  intros w (W & Dw). eapply gives_conv; [| |apply (mul_n_ok w n _ (rden r) W)]; [| |lia].
  - intros u U. eapply is_rv_ext; [exact U|]. intros i Hi. unfold ratval. cbn beta. field. split; auto.
  - intros e (-> & i & Hi & H1). split; auto. exists i. split; auto. rewrite Dw in H1.
    destruct H1 as [H1|(N & _)]; [left|lia].
    intros (z & Hz & Ez). apply H1. exists z. split; auto. rewrite Ez. unfold ratval. field. split; auto.
Qed.
Theorem times_r_ok v n q r : is_rv v n q -> 0 < rden r < 2 ^ 63 -> den v * rden r < 2 ^ 63 ->
  gives (rv_times_r v r) (fun u => is_rv u n (fun i => q i * ratval r)%Q /\ den u = den v * rden r)
    (unfit n (den v) (fun i => inject_Z (rnum r) * q i)%Q).
Proof.
  intros HV D DD. pose proof HV as (Hd & _). unfold rv_times_r. rewrite rat_pos by auto.
  eapply gives_bind; [apply (scale_ok v n q (rnum r) HV)|]. intros u (_ & x & U & HX). cbn [den num] in *.
  rewrite (u64_pos (rden r)), u64_pos, s64_small by nia.
  eapply gives_conv; [| |apply (make_ok u n x (den v * rden r) U)]; [| | |nia|nia].
  - intros w (W & E). rewrite Z.abs_eq in E by nia. split; auto. eapply is_rv_ext; [exact W|]. intros i Hi. cbn beta. rewrite (proj2 (HX i Hi)).
    unfold ratval. inj. field. split; apply inj_neq0; lia.
  - intros e (_ & N & _). nia.
  - intros i Hi. apply HX; auto.
Qed.
Theorem over_r_ok v n q r : is_rv v n q -> rnum r <> 0 -> 0 < rden r < 2 ^ 63 -> den v * Z.abs (rnum r) < 2 ^ 63 ->
  gives (rv_over_r v r) (fun u => is_rv u n (fun i => q i / ratval r)%Q /\ den u = den v * Z.abs (rnum r))
    (fun e => e = Overflow /\ exists i, (i < n)%nat /\ (~ holds (den v) (inject_Z (rden r) * q i)%Q \/
        rnum r < 0 /\ ~ holds (den v) (- (inject_Z (rden r) * q i))%Q)).
Proof.
  intros HV R0 D DD. pose proof HV as (Hd & _). unfold rv_over_r. rewrite rat_pos by auto.
  assert (inject_Z (rnum r) == 0 -> False)%Q by (apply inj_neq0; auto). assert (inject_Z (rden r) == 0 -> False)%Q by (apply inj_neq0; lia).
  assert (inject_Z (den v) == 0 -> False)%Q by (apply inj_neq0; lia).
  eapply gives_bind; [eapply gives_conv; [intros u H2; exact H2| |apply (scale_ok v n q (rden r) HV)]|].
  { intros e (-> & i & Hi & N). split; auto. exists i; auto. }
  intros u (_ & x & U & HX). cbn [den num] in *.
  assert (E : s64 (u64 (den v * u64 (rnum r))) = den v * rnum r).
  { rewrite <- (s64_small (den v * rnum r)) by nia. apply s64_cong. rewrite u64_mod. unfold u64. rewrite Zmult_mod_idemp_r. reflexivity. }
  rewrite E.
  eapply gives_conv; [| |apply (make_ok u n x (den v * rnum r) U)]; [| | |nia|nia].
  - intros w (W & Ew). rewrite Z.abs_mul, (Z.abs_eq (den v)) in Ew by lia. split; auto. eapply is_rv_ext; [exact W|]. intros i Hi. cbn beta. rewrite (proj2 (HX i Hi)).
    unfold ratval. inj. field. repeat split; auto.
  - intros e (-> & N & I). split; auto. apply (in_get _ _ _ _ U) in I as (i & Hi & Ei). exists i. split; auto. right. split; [nia|].
    rewrite (holds_iff _ _ (2 ^ 63)); [unfold in64; lia|]. destruct (HX i Hi) as (_ & Q1). rewrite Ei in Q1.
    rewrite <- (Z.opp_involutive (2 ^ 63)), inject_Z_opp, Q1. ring.
  - intros i Hi. apply HX; auto.
Qed.

(** * integer vectors *)
Lemma add_scaled_ok l n x w y c : is_vec l n x -> is_vec w n y -> c <> 0 ->
  gives (vec_add_scaled l w c) (fun u => is_vec u n (fun i => x i + y i * c) /\ forall i, (i < n)%nat -> in64 (x i + y i * c))
    (fun e => e = Overflow /\ exists i, (i < n)%nat /\ (~ in64 (y i * c) \/ ~ in64 (x i + y i * c))).
Proof.
  intros V W C. unfold vec_add_scaled. destruct (Z.eqb_spec c 0); [lia|].
  apply (vmap2_chk (fun a b => a + b * c) _ (fun a b => ~ in64 (b * c) \/ ~ in64 (a + b * c)) l); auto.
  intros a b. cbn [amul aadd zarith]. eapply gives_bind; [apply (chk64 _ (fun z => z = b * c)); auto|]. intros p ->. apply chk64; auto.
Qed.
Theorem add_vec_ok v n q w y : is_rv v n q -> is_vec w n y ->
  gives (rv_add_vec v w) (fun r => is_rv r n (fun i => q i + inject_Z (y i))%Q /\ den r = den v)
    (fun e => e = Overflow /\ exists i, (i < n)%nat /\ (~ holds (den v) (inject_Z (y i)) \/ ~ holds (den v) (q i + inject_Z (y i))%Q)).
Proof.
  intros (Hd & x & V & HX) W. unfold rv_add_vec, rv_denominator. rewrite s64_small by lia.
  eapply gives_bind; [eapply gives_conv; [intros u H0; exact H0| |apply (add_scaled_ok _ n x w y (den v) V W); lia]|].
  - intros e (-> & i & Hi & H). split; auto. exists i. split; auto. destruct H as [H|H]; [left|right].
    + rewrite (holds_iff _ _ (y i * den v)); auto. inj. reflexivity.
    + rewrite (holds_iff _ _ (x i + y i * den v)); auto. inj. rewrite (proj2 (HX i Hi)). ring.
  - intros u (U & HU). apply gives_ok. split; auto. apply (is_rv_intro _ _ n _ _ U); auto. intros i Hi. split; auto. inj. rewrite (proj2 (HX i Hi)). ring.
Qed.
Theorem sub_vec_ok v n q w y : is_rv v n q -> is_vec w n y ->
  gives (rv_sub_vec v w) (fun r => is_rv r n (fun i => q i - inject_Z (y i))%Q /\ den r = den v)
    (fun e => e = Overflow /\ exists i, (i < n)%nat /\ (~ holds (den v) (- inject_Z (y i))%Q \/ ~ holds (den v) (q i - inject_Z (y i))%Q)).
Proof.
  intros (Hd & x & V & HX) W. unfold rv_sub_vec, rv_denominator. rewrite s64_small by lia.
  eapply gives_bind; [apply (chk64 _ (fun z => z = - den v)); auto; intros H; exfalso; apply H; unfold in64; lia|]. intros c ->.
  eapply gives_bind; [eapply gives_conv; [intros u H0; exact H0| |apply (add_scaled_ok _ n x w y (- den v) V W); lia]|].
  - intros e (-> & i & Hi & H). split; auto. exists i. split; auto. destruct H as [H|H]; [left|right].
    + rewrite (holds_iff _ _ (y i * - den v)); auto. inj. ring.
    + rewrite (holds_iff _ _ (x i + y i * - den v)); auto. inj. rewrite (proj2 (HX i Hi)). ring.
  - intros u (U & HU). apply gives_ok. split; auto. apply (is_rv_intro _ _ n _ _ U); auto. intros i Hi. split; auto. inj. rewrite (proj2 (HX i Hi)). ring.
Qed.
Theorem subtract_from_ok v n q w y : is_rv v n q -> is_vec w n y ->
  gives (rv_subtract_from v w) (fun r => is_rv r n (fun i => inject_Z (y i) - q i)%Q /\ den r = den v)
    (fun e => e = Overflow /\ exists i, (i < n)%nat /\ (~ holds (den v) (- q i)%Q \/ ~ holds (den v) (inject_Z (y i)) \/ ~ holds (den v) (inject_Z (y i) - q i)%Q)).
Proof.
  intros HV W. unfold rv_subtract_from. eapply gives_bind; [eapply gives_conv; [intros u H0; exact H0| |apply (negate_ok v n q HV)]|].
  - intros e (-> & i & Hi & H). split; auto. exists i. auto.
  - intros u (U & Du). eapply gives_conv; [| |apply (add_vec_ok u n _ w y U W)].
    + intros r (R & Dr). split; [|congruence]. eapply is_rv_ext; [exact R|]. intros i Hi. cbn beta. ring.
    + intros e (-> & i & Hi & H). split; auto. exists i. split; auto. rewrite Du in H. destruct H as [H|H]; [auto|]. right. right.
      intros (z & Hz & Ez). apply H. exists z. split; auto. rewrite Ez. ring.
Qed.

(** * sums of products *)
Lemma qsum_inj n f d (g : nat -> Q) : (forall i, (i < n)%nat -> (inject_Z (f i) == g i * inject_Z d)%Q) ->
  (inject_Z (zsum n f) == qsum n g * inject_Z d)%Q.
Proof.
  unfold zsum, qsum. induction n as [|n IH]; intros H; cbn [fsum]; [ring|]. rewrite inject_Z_plus, IH, (H n) by auto. ring.
Qed.
Lemma zsum_abs n f : Z.abs (zsum n f) <= zsum n (fun i => Z.abs (f i)).
Proof. unfold zsum. induction n as [|n IH]; cbn [fsum]; [lia|]. lia. Qed.
Lemma fits_sum_iff n d f (g : nat -> Q) : 0 < d -> (forall i, (i < n)%nat -> (inject_Z (f i) == g i * inject_Z d)%Q) ->
  fits_sum n d g <-> zsum n (fun i => Z.abs (f i)) < 2 ^ 63.
Proof.
  intros D H. unfold fits_sum. rewrite Zlt_Qlt. rewrite (qsum_inj n (fun i => Z.abs (f i)) d (fun i => Qabs (g i))); [tauto|].
  intros i Hi. assert (E : (inject_Z (Z.abs (f i)) == Qabs (inject_Z (f i)))%Q) by reflexivity. rewrite E, (H i Hi), Qabs_Qmult.
  apply Qmult_comp; [reflexivity|]. symmetry. change (Qabs (inject_Z d)) with (inject_Z (Z.abs d)). symmetry. rewrite Z.abs_eq by lia. reflexivity.
Qed.
Lemma zsum_le n m f : (n <= m)%nat -> (forall i, 0 <= f i) -> zsum n f <= zsum m f.
Proof. intros H P. unfold zsum. induction H; [lia|]. cbn [fsum]. specialize (P m). lia. Qed.
Lemma sum64 n x (body : nat -> Z -> res Z) :
  (forall i c, (i < n)%nat -> body i c = (run p <- chkz fits64 (x i); chkz fits64 (c + p))) ->
  gives (upto n 0 body 0) (fun s => s = zsum n x /\ in64 s) (fun e => e = Overflow /\ ~ zsum n (fun i => Z.abs (x i)) < 2 ^ 63).
Proof.
  intros H. apply (gives_upto0 (fun t c => c = zsum t x /\ in64 c)).
  - split; [reflexivity|]. unfold in64. lia.
  - intros i c Hi (-> & Hc). rewrite H by auto.
    assert (B : Z.abs (zsum i x) + Z.abs (x i) <= zsum n (fun i => Z.abs (x i))).
    { pose proof (zsum_le (S i) n (fun i => Z.abs (x i)) ltac:(lia) ltac:(intros; lia)) as L. pose proof (zsum_abs i x) as A.
      change (zsum (S i) (fun i => Z.abs (x i))) with (zsum i (fun i => Z.abs (x i)) + Z.abs (x i)) in L. lia. }
    eapply gives_bind; [apply (chk64 _ (fun p => p = x i)); auto|].
    + intros N. split; auto. unfold in64 in *. lia.
    + intros p ->. apply chk64; auto. intros N. split; auto. unfold in64 in *. lia.
  - auto.
Qed.
Lemma dot64 v w n x y : is_vec v n x -> is_vec w n y ->
  gives (vec_dot RV v w) (fun s => s = zsum n (fun i => x i * y i) /\ in64 s)
    (fun e => e = Overflow /\ ~ zsum n (fun i => Z.abs (x i * y i)) < 2 ^ 63).
Proof.
  intros (L & V) (_ & W). unfold vec_dot. rewrite L. apply sum64. intros i c Hi. unfold vget. rewrite (V i Hi), (W i Hi). reflexivity.
Qed.
Lemma fill64 m x (body : nat -> res Z) (bad : nat -> Prop) :
  (forall i, (i < m)%nat -> gives (body i) (fun s => s = x i /\ in64 s) (fun e => e = Overflow /\ bad i)) ->
  gives (upto m 0 (fun i r => run c <- body i; vput r i c) (repeat 0 m))
    (fun u => is_vec u m x /\ forall i, (i < m)%nat -> in64 (x i)) (fun e => e = Overflow /\ exists i, (i < m)%nat /\ bad i).
Proof.
  intros H. apply (gives_upto0 (fun t u => (forall i, (i < t)%nat -> in64 (x i)) /\ exists g, is_vec u m g /\ forall i, (i < t)%nat -> g i = x i)).
  - split; [intros; lia|]. exists (fun _ => 0). split; [apply is_vec_repeat|intros; lia].
  - intros i u Hi (A & g & G & EG). eapply gives_bind; [eapply gives_conv; [intros a Ha; exact Ha| |apply (H i Hi)]|].
    + intros e (-> & B). split; auto. exists i; auto.
    + intros c (-> & C). eapply gives_vput_vec; [exact G|exact Hi|]. intros u' U'. split.
      * intros k Hk. destruct (Nat.eq_dec k i) as [->|N]; auto. apply A. lia.
      * eexists. split; [exact U'|]. intros k Hk. unfold upd1. destruct (Nat.eqb_spec k i) as [->|N]; auto. apply EG. lia.
  - intros u (A & g & G & EG). split; auto. eapply is_vec_ext; [exact G|]. auto.
Qed.
Lemma mget_ok {A} M m n (f : nat -> nat -> A) i j : is_mx M m n f -> (i < m)%nat -> (j < n)%nat -> mget M i j = Ok (f i j).
Proof. intros (_ & C & _ & G) Hi Hj. unfold mget, vget. rewrite C, G by assumption. reflexivity. Qed.
Lemma apply64 M m n f w y : is_mx M m n f -> is_vec w n y ->
  gives (mat_apply RV M w) (fun u => is_vec u m (fun i => zsum n (fun j => f i j * y j)) /\ forall i, (i < m)%nat -> in64 (zsum n (fun j => f i j * y j)))
    (fun e => e = Overflow /\ exists i, (i < m)%nat /\ ~ zsum n (fun j => Z.abs (f i j * y j)) < 2 ^ 63).
Proof.
  intros HM (_ & W). unfold mat_apply. rewrite (is_mx_rows _ _ _ _ HM), (is_mx_cols _ _ _ _ HM). apply fill64. intros i Hi.
  apply (sum64 n (fun j => f i j * y j)). intros j c Hj. rewrite (mget_ok _ _ _ _ _ _ HM Hi Hj). unfold vget. rewrite (W j Hj). reflexivity.
Qed.
Lemma right64 M m n f w y : is_mx M m n f -> is_vec w m y ->
  gives (right_prod RV M w) (fun u => is_vec u n (fun j => zsum m (fun i => y i * f i j)) /\ forall j, (j < n)%nat -> in64 (zsum m (fun i => y i * f i j)))
    (fun e => e = Overflow /\ exists j, (j < n)%nat /\ ~ zsum m (fun i => Z.abs (y i * f i j)) < 2 ^ 63).
Proof.
  intros HM (_ & W). unfold right_prod. rewrite (is_mx_rows _ _ _ _ HM), (is_mx_cols _ _ _ _ HM). apply fill64. intros j Hj.
  apply (sum64 m (fun i => y i * f i j)). intros i c Hi. unfold vget. rewrite (W i Hi), (mget_ok _ _ _ _ _ _ HM Hi Hj). reflexivity.
Qed.

Theorem dot_ok v n q w y z : is_rv v n q -> is_vec w n y -> (qsum n (fun i => inject_Z (y i) * q i) == inject_Z z)%Q ->
  gives (rv_dot v w) (fun r => r = z) (fun e => e = Overflow /\ ~ fits_sum n (den v) (fun i => inject_Z (y i) * q i)%Q).
Proof.
  intros (Hd & x & V & HX) W Ez. unfold rv_dot. rewrite s64_small by lia.
  assert (HP : forall i, (i < n)%nat -> (inject_Z (y i * x i) == inject_Z (y i) * q i * inject_Z (den v))%Q).
  { intros i Hi. inj. rewrite (proj2 (HX i Hi)). ring. }
  eapply gives_bind; [eapply gives_conv; [intros u H0; exact H0| |apply (dot64 w (num v) n y x W V)]|].
  - intros e (-> & N). split; auto. rewrite (fits_sum_iff n (den v) _ _ ltac:(lia) HP). auto.
  - intros s (Es & Bs). assert (s = z * den v). { apply inj_inj. rewrite Es, (qsum_inj n _ (den v) _ HP), Ez. inj. reflexivity. }
    unfold cdiv. destruct (Z.eqb_spec (den v) 0); [lia|]. rewrite H, Z.quot_mul by auto. apply (chk64 _ (fun r => r = z)); auto.
    intros N. exfalso. apply N. unfold in64 in *. nia.
Qed.
Theorem dot_Q_ok v n q w y : is_rv v n q -> is_vec w n y ->
  gives (rv_dot_Q v w) (fun r => lowest r /\ (ratval r == qsum n (fun i => inject_Z (y i) * q i))%Q)
    (fun e => e = Overflow /\ ~ fits_sum n (den v) (fun i => inject_Z (y i) * q i)%Q).
Proof.
  intros (Hd & x & V & HX) W. unfold rv_dot_Q.
  assert (HP : forall i, (i < n)%nat -> (inject_Z (y i * x i) == inject_Z (y i) * q i * inject_Z (den v))%Q).
  { intros i Hi. inj. rewrite (proj2 (HX i Hi)). ring. }
  eapply gives_bind; [eapply gives_conv; [intros u H0; exact H0| |apply (dot64 w (num v) n y x W V)]|].
  - intros e (-> & N). split; auto. rewrite (fits_sum_iff n (den v) _ _ ltac:(lia) HP). auto.
  - intros s (Es & Bs). destruct (Z.eq_dec s (- 2 ^ 63)) as [B|B].
    + assert (NF : ~ fits_sum n (den v) (fun i => inject_Z (y i) * q i)%Q).
      { rewrite (fits_sum_iff n (den v) _ _ ltac:(lia) HP). pose proof (zsum_abs n (fun i => y i * x i)). cbn beta in H. lia. }
      assert (rat_make s (den v) = None).
      { rewrite B. unfold rat_make, normalize. cbn [rnum rden]. unfold gcd_s. change (0 <? - 2 ^ 63) with false. change (- 2 ^ 63 =? 0) with false.
        change (chk (- - 2 ^ 63)) with (@None Z). reflexivity. }
      rewrite H. cbn. auto.
    + destruct (make_yields s (den v) s (den v)) as (r & Er & Lr & Qr); [unfold sint, in64 in *; lia|big; lia|reflexivity|].
      rewrite Er. cbn. split; auto. destruct Lr as (_ & Pr & _). unfold ratval. 
      apply (Qmult_inj_r _ _ (inject_Z (den v))); [apply inj_neq0; lia|]. rewrite <- (qsum_inj n _ (den v) _ HP), <- Es.
      apply (Qmult_inj_r _ _ (inject_Z (rden r))); [apply inj_neq0; lia|]. rewrite <- inject_Z_mult, <- Qr. inj. field. apply inj_neq0; lia.
Qed.
Theorem mat_ok M m n f v q : is_mx M m n f -> is_rv v n q ->
  gives (rv_mat M v) (fun r => is_rv r m (fun i => qsum n (fun j => inject_Z (f i j) * q j))%Q /\ den r = den v)
    (fun e => e = Overflow /\ exists i, (i < m)%nat /\ ~ fits_sum n (den v) (fun j => inject_Z (f i j) * q j)%Q).
Proof.
  intros HM (Hd & x & V & HX). unfold rv_mat, rv_denominator. rewrite s64_small by lia.
  assert (HP : forall i j, (j < n)%nat -> (inject_Z (f i j * x j) == inject_Z (f i j) * q j * inject_Z (den v))%Q).
  { intros i j Hj. inj. rewrite (proj2 (HX j Hj)). ring. }
  eapply gives_bind; [eapply gives_conv; [intros u H0; exact H0| |apply (apply64 M m n f (num v) x HM V)]|].
  - intros e (-> & i & Hi & N). split; auto. exists i. split; auto. rewrite (fits_sum_iff n (den v) _ _ ltac:(lia) (HP i)). auto.
  - intros u (U & HU). eapply gives_conv; [| |apply (make_ok u m _ (den v) U)]; [| |auto|lia|lia].
    + intros r (R & E). rewrite Z.abs_eq in E by lia. split; auto. eapply is_rv_ext; [exact R|]. intros i Hi. cbn beta.
      rewrite (qsum_inj n _ (den v) _ (HP i)). field. apply inj_neq0; lia.
    + intros e (_ & N & _). lia.
Qed.
Theorem right_ok M m n f v q : is_mx M m n f -> is_rv v m q ->
  gives (rv_right v M) (fun r => is_rv r n (fun j => qsum m (fun i => q i * inject_Z (f i j)))%Q /\ den r = den v)
    (fun e => e = Overflow /\ exists j, (j < n)%nat /\ ~ fits_sum m (den v) (fun i => q i * inject_Z (f i j))%Q).
Proof.
  intros HM (Hd & x & V & HX). unfold rv_right, rv_denominator. rewrite s64_small by lia.
  assert (HP : forall j i, (i < m)%nat -> (inject_Z (x i * f i j) == q i * inject_Z (f i j) * inject_Z (den v))%Q).
  { intros j i Hi. inj. rewrite (proj2 (HX i Hi)). ring. }
  eapply gives_bind; [eapply gives_conv; [intros u H0; exact H0| |apply (right64 M m n f (num v) x HM V)]|].
  - intros e (-> & i & Hi & N). split; auto. exists i. split; auto. rewrite (fits_sum_iff m (den v) _ _ ltac:(lia) (HP i)). auto.
  - intros u (U & HU). eapply gives_conv; [| |apply (make_ok u n _ (den v) U)]; [| |auto|lia|lia].
    + intros r (R & E). rewrite Z.abs_eq in E by lia. split; auto. eapply is_rv_ext; [exact R|]. intros i Hi. cbn beta.
      rewrite (qsum_inj m _ (den v) _ (HP i)). field. apply inj_neq0; lia.
    + intros e (_ & N & _). lia.
Qed.
(** half the sum with the image [g], common to both forms *)
Lemma half_ok v n q u (g : nat -> Z) (p : nat -> Q) : is_rv v n q -> den v * 2 < 2 ^ 63 -> is_vec u n g ->
  (forall i, (i < n)%nat -> in64 (g i) /\ (inject_Z (g i) == p i * inject_Z (den v))%Q) ->
  gives (run y <- vec_add RV (num v) u; run w <- rv_div_n (mk_rv y (den v)) 2; rv_normalize w)
    (fun r => is_rv r n (fun i => (q i + p i) / 2)%Q /\ reduced r)
    (fun e => e = Overflow /\ exists i, (i < n)%nat /\ (~ holds (den v) (q i + p i)%Q \/ ((q i + p i) * inject_Z (den v) == inject_Z (- 2 ^ 63))%Q)).
Proof.
  intros (Hd & x & V & HX) D2 U HG.
  assert (HP : forall i, (i < n)%nat -> (inject_Z (x i + g i) == (q i + p i) * inject_Z (den v))%Q).
  { intros i Hi. inj. rewrite (proj2 (HX i Hi)), (proj2 (HG i Hi)). ring. }
  eapply gives_bind; [eapply gives_conv; [intros y Hy; exact Hy| |apply (vmap2_chk Z.add (aadd RV) (fun a b => ~ in64 (a + b)) (num v)) with (n := n) (x := x) (y := g); auto]|].
  - intros e (-> & i & Hi & H). split; auto. exists i. split; auto. left. rewrite (holds_iff _ _ (x i + g i)); auto.
  - intros a b. apply chk64; auto.
  - intros y (Y & HY). 
    assert (R : is_rv (mk_rv y (den v)) n (fun i => q i + p i)%Q) by (apply (is_rv_intro _ _ n _ _ Y); auto).
    eapply gives_bind; [eapply gives_conv; [intros w Hw; exact Hw| |apply (div_n_ok _ n _ 2 R)]|].
    + intros e (N & _). lia.
    + lia.
    + cbn [den]. lia.
    + intros w (W & Dw). eapply gives_conv; [| |apply (normalize_ok w n _ W)].
      * intros r (A & B & _). auto.
      * intros e (-> & I). split; auto. destruct W as (_ & x' & V' & HX'). apply (in_get _ _ _ _ V') in I as (i & Hi & Ei). exists i. split; auto. right.
        destruct (HX' i Hi) as (_ & Q1). rewrite Ei, Dw in Q1. cbn [den] in Q1. rewrite Q1. change (Z.abs 2) with 2. inj. field.
Qed.
Theorem symmetrise_ok M n f v q : is_mx M n n f -> is_rv v n q -> den v * 2 < 2 ^ 63 ->
  let p i := qsum n (fun j => inject_Z (f i j) * q j)%Q in
  gives (rv_symmetrise M v) (fun r => is_rv r n (fun i => (q i + p i) / 2)%Q /\ reduced r)
    (fun e => e = Overflow /\ exists i, (i < n)%nat /\ (~ fits_sum n (den v) (fun j => inject_Z (f i j) * q j)%Q \/
       ~ holds (den v) (q i + p i)%Q \/ ((q i + p i) * inject_Z (den v) == inject_Z (- 2 ^ 63))%Q)).
Proof.
  intros HM HV D2 p. pose proof HV as (Hd & x & V & HX). unfold rv_symmetrise.
  assert (HP : forall i j, (j < n)%nat -> (inject_Z (f i j * x j) == inject_Z (f i j) * q j * inject_Z (den v))%Q).
  { intros i j Hj. inj. rewrite (proj2 (HX j Hj)). ring. }
  eapply gives_bind; [eapply gives_conv; [intros u H0; exact H0| |apply (apply64 M n n f (num v) x HM V)]|].
  - intros e (-> & i & Hi & N). split; auto. exists i. split; auto. rewrite (fits_sum_iff n (den v) _ _ ltac:(lia) (HP i)). auto.
  - intros u (U & HU). eapply gives_conv; [intros r Hr; exact Hr| |apply (half_ok v n q u _ p HV D2 U)].
    + intros e (-> & i & Hi & H). split; auto. exists i. split; auto.
    + intros i Hi. split; [auto|]. rewrite (qsum_inj n _ (den v) _ (HP i)). reflexivity.
Qed.
Theorem symmetrise_right_ok M n f v q : is_mx M n n f -> is_rv v n q -> den v * 2 < 2 ^ 63 ->
  let p j := qsum n (fun i => q i * inject_Z (f i j))%Q in
  gives (rv_symmetrise_right v M) (fun r => is_rv r n (fun i => (q i + p i) / 2)%Q /\ reduced r)
    (fun e => e = Overflow /\ exists j, (j < n)%nat /\ (~ fits_sum n (den v) (fun i => q i * inject_Z (f i j))%Q \/
       ~ holds (den v) (q j + p j)%Q \/ ((q j + p j) * inject_Z (den v) == inject_Z (- 2 ^ 63))%Q)).
Proof.
  intros HM HV D2 p. pose proof HV as (Hd & x & V & HX). unfold rv_symmetrise_right.
  assert (HP : forall j i, (i < n)%nat -> (inject_Z (x i * f i j) == q i * inject_Z (f i j) * inject_Z (den v))%Q).
  { intros j i Hi. inj. rewrite (proj2 (HX i Hi)). ring. }
  eapply gives_bind; [eapply gives_conv; [intros u H0; exact H0| |apply (right64 M n n f (num v) x HM V)]|].
  - intros e (-> & i & Hi & N). split; auto. exists i. split; auto. rewrite (fits_sum_iff n (den v) _ _ ltac:(lia) (HP i)). auto.
  - intros u (U & HU). eapply gives_conv; [intros r Hr; exact Hr| |apply (half_ok v n q u _ p HV D2 U)].
    + intros e (-> & i & Hi & H). split; auto. exists i. split; auto.
    + intros i Hi. split; [auto|]. rewrite (qsum_inj n _ (den v) _ (HP i)). reflexivity.
Qed.

(** * integral differences *)
Lemma reduced_divides v w n p q : is_rv v n p -> is_rv w n q -> reduced v ->
  (forall i, (i < n)%nat -> exists z, (p i - q i == inject_Z z)%Q) -> (den v | den w).
Proof.
  intros (Hd & x & V & HX) (Hd' & y & V' & HY) R HZ.
  set (g := Z.gcd (den v) (den w)).
  assert (G : 0 < g). { unfold g. pose proof (Z.gcd_nonneg (den v) (den w)). assert (Z.gcd (den v) (den w) <> 0) by (intros E; apply Z.gcd_eq_0_l in E; lia). lia. }
  destruct (Z.gcd_divide_l (den v) (den w)) as (a & Ea). destruct (Z.gcd_divide_r (den v) (den w)) as (b & Eb). fold g in Ea, Eb.
  assert (RP : Z.gcd a b = 1).
  { assert (E : g * Z.gcd a b = g * 1). { rewrite <- Z.gcd_mul_mono_l_nonneg by lia. rewrite (Z.mul_comm g a), (Z.mul_comm g b), <- Ea, <- Eb. unfold g. lia. } nia. }
  assert (A1 : a = 1).
  { apply R; [nia|exists g; lia|]. intros z Hz. apply (in_get _ _ _ _ V) in Hz as (i & Hi & <-).
    destruct (HX i Hi) as (_ & Q1). destruct (HY i Hi) as (_ & Q2). destruct (HZ i Hi) as (z & Ez).
    assert (C : x i * den w = (y i + z * den w) * den v).
    { apply inj_inj. inj. rewrite Q1, Q2, <- Ez. ring. }
    assert (C2 : x i * b = (y i + z * den w) * a) by (rewrite Ea, Eb in C; rewrite Eb; apply (Z.mul_reg_r _ _ g); [lia|]; lia).
    apply (Z.gauss _ b); [|auto]. exists (y i + z * den w). lia. }
  exists b. nia.
Qed.
Theorem integer_diff_ok conv v w n p q z : is_rv v n p -> is_rv w n q -> (forall i, (i < n)%nat -> (p i - q i == inject_Z (z i))%Q) ->
  gives (rv_integer_diff conv v w)
    (fun '(r, v', w') => is_vec r n (fun i => conv (z i)) /\ is_rv v' n p /\ is_rv w' n q /\ reduced v' /\ reduced w' /\ den v' = den w')
    (fun e => e = Overflow /\ (In (- 2 ^ 63) (num v) \/ In (- 2 ^ 63) (num w) \/ exists i, (i < n)%nat /\ ~ holds (den v) (p i - q i)%Q)).
Proof.
  intros HV HW HZ. pose proof HV as (Hd0 & _). unfold rv_integer_diff.
  eapply gives_bind; [eapply gives_conv; [intros u H0; exact H0| |apply (normalize_ok v n p HV)]|].
  { intros e (-> & H). auto. }
  intros v' (V' & R1 & D1). eapply gives_bind; [eapply gives_conv; [intros u H0; exact H0| |apply (normalize_ok w n q HW)]|].
  { intros e (-> & H). auto. }
  intros w' (W' & R2 & D2).
  assert (ED : den v' = den w').
  { apply Z.divide_antisym_nonneg; [destruct V'; lia|destruct W'; lia| |].
    - apply (reduced_divides v' w' n p q); auto. intros i Hi. exists (z i). auto.
    - apply (reduced_divides w' v' n q p); auto. intros i Hi. exists (- z i). inj. rewrite <- (HZ i Hi). ring. }
  pose proof V' as (Hd & x & V & HX). pose proof W' as (Hd' & y & W & HY).
  unfold rv_size, rv_denominator. rewrite (proj1 V), s64_small by lia.
  eapply gives_bind with (P := fun r => is_vec r n (fun i => conv (z i))).
  - apply (gives_upto0 (fun t u => exists g, is_vec u n g /\ forall i, (i < t)%nat -> g i = conv (z i))).
    + exists (fun _ => 0). split; [apply is_vec_repeat|intros; lia].
    + intros i u Hi (g & G & EG). unfold vget at 1 2. rewrite (proj2 V i Hi), (proj2 W i Hi). cbn [bind of_option asub zarith].
      assert (E : x i - y i = z i * den v').
      { apply inj_inj. unfold Z.sub. inj. rewrite (proj2 (HX i Hi)), (proj2 (HY i Hi)), <- ED, <- (HZ i Hi). ring. }
      eapply gives_bind; [apply (chk64 _ (fun s => s = z i * den v' /\ in64 (z i * den v'))); rewrite E; [auto|]|].
      * intros N. split; auto. right. right. exists i. split; auto. rewrite (holds_iff _ _ (z i * den v)).
        -- intros B. apply N. destruct D1 as (c & Ec). unfold in64 in *. rewrite Ec in B, Hd0. assert (1 <= c) by nia. clear - B H Hd. nia.
        -- inj. rewrite <- (HZ i Hi). reflexivity.
      * intros s (-> & B). eapply gives_bind with (P := fun c => c = z i).
        -- unfold cdiv. destruct (Z.eqb_spec (den v') 0); [lia|]. rewrite Z.quot_mul by lia. apply (chk64 _ (fun c => c = z i)); auto.
           intros N. exfalso. apply N. unfold in64 in *. nia.
        -- intros c ->. eapply gives_vput_vec; [exact G|exact Hi|]. intros u' U'. eexists. split; [exact U'|].
           intros k Hk. unfold upd1. destruct (Nat.eqb_spec k i) as [->|N]; auto. apply EG. lia.
    + intros u (g & G & EG). eapply is_vec_ext; [exact G|]. auto.
  - intros r Hr. apply gives_ok. auto 10.
Qed.

(** * comparison *)
Lemma cross_num (v w : Z) a b p q : 0 < v -> 0 < w -> (inject_Z a == p * inject_Z v)%Q -> (inject_Z b == q * inject_Z w)%Q ->
  (a * w = b * v <-> (p == q)%Q) /\ (a * w < b * v <-> (p < q)%Q).
Proof.
  intros Hv Hw A B.
  assert (Pv : (0 < inject_Z v)%Q) by (change 0%Q with (inject_Z 0); rewrite <- Zlt_Qlt; lia).
  assert (Pw : (0 < inject_Z w)%Q) by (change 0%Q with (inject_Z 0); rewrite <- Zlt_Qlt; lia).
  assert (Pm : (0 < inject_Z v * inject_Z w)%Q) by (apply Qmult_lt_0_compat; auto).
  assert (E1 : (inject_Z (a * w) == p * (inject_Z v * inject_Z w))%Q) by (inj; rewrite A; ring).
  assert (E2 : (inject_Z (b * v) == q * (inject_Z v * inject_Z w))%Q) by (inj; rewrite B; ring).
  split.
  - split.
    + intros H. rewrite H, E2 in E1. apply Qmult_inj_r in E1; [symmetry; auto|]. lra.
    + intros H. apply inj_inj. rewrite E1, E2, H. reflexivity.
  - rewrite Zlt_Qlt, E1, E2. apply Qmult_lt_r. auto.
Qed.
Lemma cross_eq_ok dv dw l : 0 < dv -> 0 < dw -> forall w n x y p q, is_vec l n x -> is_vec w n y ->
  (forall i, (i < n)%nat -> (inject_Z (x i) == p i * inject_Z dv)%Q) -> (forall i, (i < n)%nat -> (inject_Z (y i) == q i * inject_Z dw)%Q) ->
  gives (cross_eq l w dw dv) (fun b => b = true <-> forall i, (i < n)%nat -> (p i == q i)%Q) never.
Proof.
  intros Pv Pw. induction l as [|a l IH]; intros w n x y p q V W HX HY.
  - destruct V as (L & _). cbn in L. subst n. cbn. split; auto. intros; lia.
  - destruct n as [|n]; [destruct V as (L & _); discriminate|]. apply vec_cons in V as (E & V).
    destruct w as [|b w]; [destruct W as (L & _); discriminate|]. apply vec_cons in W as (E' & W). cbn [cross_eq].
    pose proof (HX O ltac:(lia)) as A. pose proof (HY O ltac:(lia)) as B. rewrite E in A. rewrite E' in B.
    destruct (cross_num dv dw a b (p O) (q O) Pv Pw A B) as (C & _). destruct (Z.eqb_spec (a * dw) (b * dv)) as [H|H]; cbn [negb].
    + eapply gives_mono; [apply (IH w n _ _ (fun i => p (S i)) (fun i => q (S i)) V W)|].
      * intros i Hi. apply HX. lia.
      * intros i Hi. apply HY. lia.
      * intros r ->. split; intros K.
        -- intros [|i] Hi; [apply C; auto|apply K; lia].
        -- intros i Hi. apply K. lia.
    + apply gives_ok. split; [discriminate|]. intros K. exfalso. apply H, C, K. lia.
Qed.
Theorem eqb_ok v w n m p q : is_rv v n p -> is_rv w m q -> gives (rv_eqb v w) (fun b => b = true <-> rv_same n p m q) never.
Proof.
  intros (Hd & x & V & HX) (Hd' & y & W & HY). unfold rv_eqb, rv_size. rewrite (proj1 V), (proj1 W). unfold rv_same.
  destruct (Nat.eqb_spec n m) as [<-|N]; cbn [negb].
  - eapply gives_mono; [apply (cross_eq_ok (den v) (den w) (num v) ltac:(lia) ltac:(lia) (num w) n x y p q V W); [apply HX|apply HY]|]. intros b ->. tauto.
  - apply gives_ok. split; [discriminate|]. intros (E & _). congruence.
Qed.
Lemma cross_lt_ok dv dw l : 0 < dv -> 0 < dw -> forall w n x y p q, is_vec l n x -> is_vec w n y ->
  (forall i, (i < n)%nat -> (inject_Z (x i) == p i * inject_Z dv)%Q) -> (forall i, (i < n)%nat -> (inject_Z (y i) == q i * inject_Z dw)%Q) ->
  gives (cross_lt l w dw dv) (fun b => b = true <-> exists i, (i < n)%nat /\ (p i < q i)%Q /\ forall j, (j < i)%nat -> (p j == q j)%Q) never.
Proof.
  intros Pv Pw. induction l as [|a l IH]; intros w n x y p q V W HX HY.
  - destruct V as (L & _). cbn in L. subst n. cbn. split; [discriminate|]. intros (i & Hi & _). lia.
  - destruct n as [|n]; [destruct V as (L & _); discriminate|]. apply vec_cons in V as (E & V).
    destruct w as [|b w]; [destruct W as (L & _); discriminate|]. apply vec_cons in W as (E' & W). cbn [cross_lt].
    pose proof (HX O ltac:(lia)) as A. pose proof (HY O ltac:(lia)) as B. rewrite E in A. rewrite E' in B.
    destruct (cross_num dv dw a b (p O) (q O) Pv Pw A B) as (C & D). destruct (Z.eqb_spec (a * dw - b * dv) 0) as [H|H]; cbn [negb].
    + assert (P0 : (p O == q O)%Q) by (apply C; lia).
      eapply gives_mono; [apply (IH w n _ _ (fun i => p (S i)) (fun i => q (S i)) V W)|].
      * intros i Hi. apply HX. lia.
      * intros i Hi. apply HY. lia.
      * intros r ->. split.
        -- intros (i & Hi & L & K). exists (S i). split; [lia|]. split; auto. intros [|j] Hj; auto. apply K. lia.
        -- intros ([|i] & Hi & L & K); [rewrite P0 in L; apply Qlt_irrefl in L; tauto|]. exists i. split; [lia|]. split; auto. intros j Hj. apply K. lia.
    + apply gives_ok. rewrite Z.ltb_lt. split.
      * intros L. exists O. split; [lia|]. split; [apply D; lia|]. intros; lia.
      * intros ([|i] & Hi & L & K); [apply D in L; lia|]. specialize (K O ltac:(lia)). apply C in K. lia.
Qed.
Theorem ltb_ok v w n m p q : is_rv v n p -> is_rv w m q -> gives (rv_ltb v w) (fun b => b = true <-> rv_before n p m q) never.
Proof.
  intros (Hd & x & V & HX) (Hd' & y & W & HY). unfold rv_ltb, rv_size. rewrite (proj1 V), (proj1 W). unfold rv_before.
  destruct (Nat.eqb_spec n m) as [<-|N]; cbn [negb].
  - eapply gives_mono; [apply (cross_lt_ok (den v) (den w) (num v) ltac:(lia) ltac:(lia) (num w) n x y p q V W); [apply HX|apply HY]|]. intros b ->.
    split; [auto|]. intros [L|(_ & H)]; [lia|auto].
  - apply gives_ok. rewrite Nat.ltb_lt. split; [auto|]. intros [L|(E & _)]; [auto|congruence].
Qed.
(** the order *)
Lemma before_trichotomy n p m q : rv_same n p m q \/ rv_before n p m q \/ rv_before m q n p.
Proof.
  destruct (Nat.lt_total n m) as [L|[<-|L]]; [right; left; left; auto| |right; right; left; auto].
  assert (D : (forall i, (i < n)%nat -> (p i == q i)%Q) \/ exists i, (i < n)%nat /\ ~ (p i == q i)%Q /\ forall j, (j < i)%nat -> (p j == q j)%Q).
  { induction n as [|n IH]; [left; intros; lia|]. destruct IH as [A|(i & Hi & B & C)].
    - destruct (Qeq_dec (p n) (q n)) as [E|E].
      + left. intros i Hi. destruct (Nat.eq_dec i n) as [->|]; auto. apply A. lia.
      + right. exists n. auto.
    - right. exists i. auto. }
  destruct D as [A|(i & Hi & B & C)]; [left; split; auto|]. destruct (Q_dec (p i) (q i)) as [[L|L]|E]; [| |tauto].
  - right. left. right. split; auto. exists i. auto.
  - right. right. right. split; auto. exists i. split; auto. split; auto. intros j Hj. symmetry. auto.
Qed.
Lemma before_irrefl n p m q : rv_same n p m q -> ~ rv_before n p m q.
Proof. intros (<- & H) [L|(_ & i & Hi & L & _)]; [lia|]. rewrite (H i Hi) in L. apply Qlt_irrefl in L. auto. Qed.
Lemma before_trans n p m q k r : rv_before n p m q -> rv_before m q k r -> rv_before n p k r.
Proof.
  intros [A|(<- & i & Hi & A & EA)] [B|(<- & j & Hj & B & EB)]; try (left; lia).
  right. split; auto. destruct (Nat.lt_total i j) as [L|[<-|L]].
  - exists i. split; auto. split; [rewrite <- (EB i L); auto|]. intros k Hk. rewrite (EA k Hk). apply EB. lia.
  - exists i. split; auto. split; [eapply Qlt_trans; eauto|]. intros k Hk. rewrite (EA k Hk). apply EB. auto.
  - exists j. split; auto. split; [rewrite (EA j L); auto|]. intros k Hk. rewrite (EA k ltac:(lia)). apply EB. lia.
Qed.
Lemma is_zero_ok v n q : is_rv v n q -> rv_is_zero v = true <-> forall i, (i < n)%nat -> (q i == 0)%Q.
Proof.
  intros (Hd & x & V & HX). unfold rv_is_zero. assert (K : vec_is_zero RV (num v) = true <-> forall i, (i < n)%nat -> x i = 0) by (eapply vec_is_zero_ok; eauto; apply zarith_ok). rewrite K.
  split; intros H i Hi; specialize (H i Hi); destruct (HX i Hi) as (_ & Q1).
  - rewrite H in Q1. apply (Qmult_inj_r _ _ (inject_Z (den v))); [apply inj_neq0; lia|]. rewrite <- Q1. ring.
  - apply inj_inj. rewrite Q1, H. ring.
Qed.
