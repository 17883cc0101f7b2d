(** Torus elements: logarithms fixed by an involution. *)

From Coq Require Import List Arith ZArith QArith Qabs Qfield Bool Lia Lqa.
From Verif Require Import VecModel RunModel RunProofs MatModel MatSpec MatProofs MatOps MatOps2 MatArith MatRing MatDiv MatLin ArithModel RedModel RedSpec RedProps
  RatVecModel RatVecSpec RatVecProofs RatVecOps RatVecMore YvModel YvSpec YvProofs YvOps YvAct.
Import ListNotations.
Open Scope Z_scope.

Lemma actQ_ext n f g p q i : (forall j, (j < n)%nat -> f i j = g i j) -> (forall j, (j < n)%nat -> (p j == q j)%Q) -> (actQ n f p i == actQ n g q i)%Q.
Proof. intros H E. apply qsum_ext. intros j Hj. rewrite (H j Hj), (E j Hj). reflexivity. Qed.
Lemma actQ_comp n r f B c i : (actQ n f (actQ r B c) i == actQ r (fmul n f B) c i)%Q.
Proof.
  unfold actQ. induction r.
  - unfold qsum at 1. cbn. induction n; [reflexivity|]. cbn [fsum]. rewrite IHn. cbn. ring.
  - assert (E : (qsum (S r) (fun b => inject_Z (fmul n f B i b) * c b) == qsum r (fun b => inject_Z (fmul n f B i b) * c b) + inject_Z (fmul n f B i r) * c r)%Q) by reflexivity.
    rewrite E, <- IHr. unfold fmul at 1. rewrite <- qsum_zsum, <- qsum_scale, <- qsum_plus. apply qsum_ext. intros j Hj.
    assert (E2 : (qsum (S r) (fun b => inject_Z (B j b) * c b) == qsum r (fun b => inject_Z (B j b) * c b) + inject_Z (B j r) * c r)%Q) by reflexivity.
    rewrite E2, inject_Z_mult. ring.
Qed.
Lemma actQ_plus n f p q i : (actQ n f (fun j => p j + q j) i == actQ n f p i + actQ n f q i)%Q.
Proof. unfold actQ. rewrite <- qsum_plus. apply qsum_ext. intros j Hj. ring. Qed.
Lemma actQ_int n f p q i : (forall j, (j < n)%nat -> exists z, (p j - q j == inject_Z z)%Q) -> exists z, (actQ n f p i - actQ n f q i == inject_Z z)%Q.
Proof.
  unfold actQ, qsum. induction n; intros H; [exists 0; cbn; ring|]. cbn [fsum]. destruct (IHn ltac:(intros; apply H; lia)) as (z & E). destruct (H n ltac:(lia)) as (w & F).
  exists (z + f i n * w). rewrite inject_Z_plus, inject_Z_mult, <- E, <- F. ring.
Qed.
Lemma qsum_cut n r f : (r <= n)%nat -> (forall i, (r <= i < n)%nat -> (f i == 0)%Q) -> (qsum n f == qsum r f)%Q.
Proof.
  intros L H. unfold qsum. induction n.
  - replace r with 0%nat by lia. reflexivity.
  - destruct (Nat.eq_dec r (S n)) as [->|]; [reflexivity|]. cbn [fsum]. rewrite IHn by (try lia; intros; apply H; lia). rewrite (H n) by lia. ring.
Qed.
Lemma actQ_id n p i : (i < n)%nat -> (actQ n delta p i == p i)%Q.
Proof.
  intros Hi. unfold actQ, qsum. induction n; [lia|]. cbn [fsum]. destruct (Nat.eq_dec i n) as [->|N].
  - unfold delta at 2. rewrite Nat.eqb_refl. assert (E : (fsum Qplus 0 n (fun j => inject_Z (delta n j) * p j) == 0)%Q).
    { clear. assert (G : forall m, (m <= n)%nat -> (fsum Qplus 0 m (fun j => inject_Z (delta n j) * p j) == 0)%Q).
      { induction m; intros Hm; [reflexivity|]. cbn [fsum]. rewrite IHm by lia. unfold delta. destruct (Nat.eqb_spec n m); [lia|]. change (inject_Z 0) with 0%Q. ring. }
      apply G. lia. }
    rewrite E. change (inject_Z 1) with 1%Q. ring.
  - rewrite IHn by lia. unfold delta. destruct (Nat.eqb_spec i n); [lia|]. change (inject_Z 0) with 0%Q. ring.
Qed.

Section Log.
Variable n : nat.
Variable f : nat -> nat -> Z.
Hypothesis inv : feq n n (fmul n f f) delta.
Notation f1 := (fun i j => f i j + delta i j).
Variable r : nat.
Variable dd : nat -> Z.
Variable beta g : nat -> nat -> Z.
Hypothesis rn : (r <= n)%nat.
Hypothesis dpos : forall b, (b < r)%nat -> 0 < dd b.
Hypothesis ig : inverses n beta g.
Hypothesis span : same_span n n f1 r (fun a b => dd b * beta a b).

Lemma zsum_delta_r m h j : (j < m)%nat -> zsum m (fun k => h k * delta k j) = h j.
Proof.
  intros Hj. unfold zsum. induction m; [lia|]. cbn [fsum]. destruct (Nat.eq_dec j m) as [->|N].
  - unfold delta at 2. rewrite Nat.eqb_refl. assert (G : forall k, (k <= m)%nat -> fsum Z.add 0 k (fun k => h k * delta k m) = 0).
    { induction k; intros Hk; [reflexivity|]. cbn [fsum]. rewrite IHk by lia. unfold delta. destruct (Nat.eqb_spec k m); [lia|]. lia. }
    rewrite G by lia. lia.
  - rewrite IHm by lia. unfold delta. destruct (Nat.eqb_spec m j); [lia|]. lia.
Qed.
Lemma zsum_delta_l m h j : (j < m)%nat -> zsum m (fun k => delta j k * h k) = h j.
Proof.
  intros Hj. rewrite <- (zsum_delta_r m h j Hj). apply zsum_ext. intros k Hk. unfold delta. rewrite Nat.eqb_sym. ring.
Qed.
Lemma f_f1 : feq n n (fmul n f f1) f1.
Proof.
  intros i j Hi Hj. unfold fmul. rewrite (zsum_ext n _ (fun k => f i k * f k j + f i k * delta k j)) by (intros; ring). rewrite zsum_add, zsum_delta_r by auto.
  pose proof (inv i j Hi Hj) as E. unfold fmul in E. rewrite E. lia.
Qed.
Lemma beta_fixed a b : (a < n)%nat -> (b < r)%nat -> fmul n f beta a b = beta a b.
Proof.
  intros Ha Hb. destruct (proj2 (span (fun a => dd b * beta a b))) as (y & Hy).
  { exists (fun k => delta k b). intros i Hi. unfold fapply. rewrite zsum_delta_r by auto. reflexivity. }
  assert (E : zsum n (fun k => f a k * (dd b * beta k b)) = dd b * beta a b).
  { transitivity (zsum n (fun k => f a k * fapply n f1 y k)); [apply zsum_ext; intros k Hk; rewrite (Hy k Hk); reflexivity|].
    rewrite <- (Hy a Ha). unfold fapply.
    rewrite (zsum_ext n _ (fun k => zsum n (fun j => f a k * f1 k j * y j))) by (intros k Hk; rewrite <- zsum_mul_l; apply zsum_ext; intros; ring).
    rewrite RootForm.zsum_swap. apply zsum_ext. intros j Hj. rewrite <- (f_f1 a j Ha Hj). unfold fmul. rewrite Z.mul_comm, <- zsum_mul_l. apply zsum_ext. intros; ring. }
  assert (E2 : dd b * fmul n f beta a b = dd b * beta a b) by (rewrite <- E; unfold fmul; rewrite <- zsum_mul_l; apply zsum_ext; intros; ring).
  pose proof (dpos b Hb). nia.
Qed.
Lemma g_f1 b j : (r <= b < n)%nat -> (j < n)%nat -> fmul n g f1 b j = 0.
Proof.
  intros Hb Hj. destruct (proj1 (span (fun a => f1 a j))) as (y & Hy).
  { exists (fun k => delta k j). intros i Hi. unfold fapply. rewrite zsum_delta_r by auto. reflexivity. }
  unfold fmul. rewrite (zsum_ext n _ (fun k => zsum r (fun c => g b k * beta k c * (dd c * y c)))).
  - rewrite RootForm.zsum_swap. transitivity (zsum r (fun _ => 0)).
    + apply zsum_ext. intros c Hc. rewrite (zsum_ext n _ (fun k => (dd c * y c) * (g b k * beta k c))) by (intros; ring). rewrite zsum_mul_l.
      pose proof (proj2 ig b c ltac:(lia) ltac:(lia)) as E. unfold fmul in E. rewrite E. unfold delta. destruct (Nat.eqb_spec b c); lia.
    + unfold zsum. clear. induction r; cbn [fsum]; lia.
  - intros k Hk. rewrite <- (Hy k Hk). unfold fapply. rewrite <- zsum_mul_l. apply zsum_ext. intros; ring.
Qed.

Lemma combo_fixed c a : (a < n)%nat -> (actQ n f (actQ r beta c) a == actQ r beta c a)%Q.
Proof. intros Ha. rewrite actQ_comp. apply actQ_ext; [|reflexivity]. intros b Hb. apply beta_fixed; auto. Qed.
Lemma fixed_coords h b : (forall a, (a < n)%nat -> (actQ n f h a == h a)%Q) -> (r <= b < n)%nat -> (actQ n g h b == 0)%Q.
Proof.
  intros H Hb. assert (E : (actQ n g (actQ n f1 h) b == 0)%Q).
  { rewrite actQ_comp. unfold actQ. rewrite (qsum_ext n _ (fun j => 0 * 0)%Q); [rewrite qsum_scale; ring|]. intros j Hj. rewrite g_f1 by auto. change (inject_Z 0) with 0%Q. ring. }
  assert (E2 : (actQ n g (actQ n f1 h) b == actQ n g h b * inject_Z 2)%Q).
  { unfold actQ at 1 3. rewrite <- qsum_scale. apply qsum_ext. intros j Hj.
    assert (E3 : (actQ n f1 h j == h j * inject_Z 2)%Q).
    { transitivity (actQ n f h j + actQ n delta h j)%Q; [unfold actQ; rewrite <- qsum_plus; apply qsum_ext; intros k Hk; rewrite inject_Z_plus; ring|].
      rewrite (H j Hj), actQ_id by auto. change (inject_Z 2) with 2%Q. ring. }
    rewrite E3. ring. }
  rewrite E in E2. change (inject_Z 2) with 2%Q in E2. lra.
Qed.
Lemma fixed_combo h a : (forall a, (a < n)%nat -> (actQ n f h a == h a)%Q) -> (a < n)%nat -> (h a == actQ r beta (actQ n g h) a)%Q.
Proof.
  intros H Ha. transitivity (actQ n beta (actQ n g h) a).
  - rewrite actQ_comp. rewrite <- (actQ_id n h a Ha) at 1. apply actQ_ext; [|reflexivity]. intros j Hj. symmetry. apply (proj1 ig); auto.
  - unfold actQ at 1 3. apply qsum_cut; [auto|]. intros b Hb. rewrite (fixed_coords h b H Hb). ring.
Qed.
End Log.

Lemma stable_log_ok fits as_int t xi n f q : (forall z, as_int z = z) -> is_mx xi n n f -> feq n n (fmul n f f) delta -> is_torus t n q ->
  gives (stable_log fits as_int t xi) (fun v => exists s, is_rv v n s /\ (forall i, (i < n)%nat -> (actQ n f s i == s i)%Q) /\
    forall h, (forall i, (i < n)%nat -> (actQ n f h i == h i)%Q) -> (forall i, (i < n)%nat -> even_apart (2 * h i) (q i)) ->
      forall i, (i < n)%nat -> even_apart (2 * s i) (q i)) (fun e => e = Overflow).
Proof.
  intros Hint HM Hinv T. unfold stable_log.
  eapply gives_bind; [eapply gives_conv; [intros M H; exact H| |eapply add_scalar_ok; [apply (zarith_ok fits)|exact HM]]|]; [intros e (-> & _); reflexivity|].
  intros M1 HM1. eapply gives_bind; [eapply gives_conv; [intros s H; exact H| |apply (C49_adapted_basis fits as_int Hint n n _ M1 HM1)]|]; [intros e (-> & _); reflexivity|].
  intros [B diag] (r & dd & beta & Vd & HB & Rn & _ & Dp & Ub & Sp).
  eapply gives_bind; [eapply gives_conv; [intros s H; exact H| |apply (C48_inverse_Z fits as_int Hint B n beta HB)]|].
  { intros e [(_ & H)|(-> & _)]; [contradiction|reflexivity]. }
  intros Bi (g & HBi & Ig). rewrite (proj1 Vd), (is_mx_rows _ _ _ _ HB).
  eapply gives_bind; [apply (block_ok 0 B n n beta 0 0 n r HB); lia|]. intros L HL.
  eapply gives_bind; [apply (block_ok 0 Bi n n g 0 0 r n HBi); lia|]. intros P HP.
  rewrite !Nat.sub_0_r in HL, HP.
  eapply gives_bind; [eapply gives_conv; [intros s H; exact H| |apply (log_2pi_ok t n q T)]|]; [intros e (-> & _); reflexivity|].
  intros v (_ & p & RP & HPv).
  eapply gives_bind; [eapply gives_conv; [intros s H; exact H| |apply (mat_ok P r n _ v p HP RP)]|]; [intros e (-> & _); reflexivity|].
  intros c (RC & Dc). pose proof RC as (Dc0 & _).
  eapply gives_bind; [eapply gives_conv; [intros s H; exact H| |apply (mod_n_ok c r _ 1 RC)]|]; [intros e []|lia|lia|].
  intros c' (Dc' & y & RY & HY).
  eapply gives_conv; [| |apply (mat_ok L n r _ c' y HL RY)]; [|intros e (-> & _); reflexivity].
  intros w (RW & _). exists (actQ r beta y). split; [exact RW|].
  assert (Sp' : same_span n n (fun i j => f i j + delta i j) r (fun a b => dd b * beta a b)).
  { intros b. rewrite <- (Sp b). unfold fapply. split; intros (u & Hu); exists u; intros i Hi; rewrite <- (Hu i Hi); apply zsum_ext; intros j Hj; unfold delta; destruct (Nat.eqb_spec i j); lia. }
  split; [intros i Hi; apply (combo_fixed n f Hinv r dd beta Rn Dp Sp' y i Hi)|].
  intros h Hh He i Hi.
  assert (Z1 : exists z, (actQ r beta y i - h i == inject_Z z)%Q).
  { destruct (actQ_int r beta y (actQ n g h) i) as (z & Ez).
    - intros b Hb. destruct (HY b Hb) as (_ & z & Ez). destruct (actQ_int n g p h b) as (w1 & Ew).
      + intros j Hj. destruct (HPv j Hj) as (_ & z1 & E1). destruct (He j Hj) as (z2 & E2). exists (z1 - z2). unfold Z.sub. rewrite inject_Z_plus, inject_Z_opp, <- E1.
        assert (E3 : (h j - q j / 2 == inject_Z z2)%Q).
        { rewrite inject_Z_mult in E2. change (inject_Z 2) with 2%Q in E2. apply (Qmult_inj_l _ _ 2); [discriminate|]. rewrite <- E2. field. }
        rewrite <- E3. ring.
      + exists (w1 - z). unfold Z.sub. rewrite inject_Z_plus, inject_Z_opp, <- Ew. fold (actQ n g p b) in Ez. 
        assert (E4 : (actQ n g p b == y b + inject_Z z)%Q). { transitivity (y b + inject_Z z * inject_Z 1)%Q; [exact Ez|]. change (inject_Z 1) with 1%Q. ring. }
        rewrite E4. ring.
    - exists z. rewrite <- Ez. rewrite (fixed_combo n f r dd beta g Rn Ig Sp' h i Hh Hi). reflexivity. }
  destruct Z1 as (z & Ez). destruct (He i Hi) as (w2 & Ew). exists (z + w2). rewrite Z.mul_add_distr_l, inject_Z_plus, <- Ew, inject_Z_mult, <- Ez. change (inject_Z 2) with 2%Q. ring.
Qed.
