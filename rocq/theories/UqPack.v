(** Torus parts up to equivalence at an involution. *)

From Coq Require Import List Arith ZArith QArith Bool Lia Lqa.
From Verif Require Import VecModel RunModel RunProofs MatModel MatSpec MatLin MatRing MatProofs MatOps MatOps2 MatArith MatDiv RedModel RedSpec RedAdapt RedProps LatModel LatSpec LatProofs LatProps ArithModel ArithProofs RatVecModel RatVecSpec RatVecProofs RatVecOps RatVecMore RatVecProps
  YvModel YvSpec YvProofs YvAct YvLog ToriSpec ToriLat UqModel UqSpec UqMath UqProofs UqReal.
Import ListNotations.
Local Open Scope Z_scope.

Section Pack.
Variable fits : Z -> bool.
Variable as_int : Z -> Z.
Hypothesis Hint : forall z, as_int z = z.
Lemma row_saturate_onto M m n f : is_mx M m n f ->
  gives (row_saturate fits as_int M) (fun S => exists r g, is_mx S r n g /\ forall y, exists x, forall j, (j < r)%nat -> fapply n g x j = y j) (overflows fits).
Proof.
  intros HM. unfold row_saturate. rewrite (is_mx_cols _ _ _ _ HM).
  eapply gives_bind; [apply (transposed_ok 0%Z M m n f HM)|]. intros T HT.
  eapply gives_bind; [apply (adapted_basis_ok fits as_int Hint n m _ T HT)|].
  intros [b factor] (r & dd & beta & gamma & [Lf _] & HB & Hr & Hr' & HD & UB & UG & HF). rewrite Lf.
  apply (gives_upto0 (fun i S => exists h, is_mx S r n h /\ forall a c, (a < i)%nat -> (c < n)%nat -> h a c = beta c a)).
  - exists (fun _ _ => 0). split; [apply fill_ok|intros; lia].
  - intros i S0 Hi (h & HS & EH). eapply gives_bind; [apply (column_ok 0 b n n beta i HB); lia|]. intros v Hv.
    eapply gives_mono; [apply (set_row_ok S0 r n h i v _ HS Hi Hv)|]. intros S1 HS1. eexists. split; [exact HS1|].
    intros a c Ha Hc. cbn beta. destruct (Nat.eqb_spec a i) as [->|]; auto. apply EH; lia.
  - intros S0 (h & HS & EH). exists r, h. split; [exact HS|]. destruct UB as (beta' & B1 & B2).
    intros y. exists (fapply n (fun c b => beta' b c) (fun b => if (b <? r)%nat then y b else 0)). intros j Hj.
    rewrite (ToriLat.fapply_mat n h (fun a c => beta c a)) by (intros c Hc; apply EH; assumption). rewrite fapply_fapply.
    rewrite (ToriLat.fapply_mat n _ delta).
    + rewrite ToriLat.fapply_delta by lia. destruct (Nat.ltb_spec j r); [reflexivity|lia].
    + intros l Hl. transitivity (fmul n beta' beta l j).
      * unfold fmul. apply zsum_ext. intros; ring.
      * rewrite B2 by lia. unfold delta. destruct (Nat.eqb_spec l j), (Nat.eqb_spec j l); congruence.
Qed.
(** the projection modulo the kernel *)
Lemma same_rows (S : matrix Z) r (g : nat -> nat -> Z) r' (g' : nat -> nat -> Z) n : is_mx S r n g -> is_mx S r' n g' -> r = r' /\ feq r n g g'.
Proof.
  intros H H'. assert (Er : r = r') by (rewrite <- (is_mx_rows _ _ _ _ H); apply (is_mx_rows _ _ _ _ H')). subst r'. split; [reflexivity|].
  intros i j Hi Hj. pose proof (mget_ok _ _ _ _ _ _ H Hi Hj) as A. rewrite (mget_ok _ _ _ _ _ _ H' Hi Hj) in A. injection A as ->. reflexivity.
Qed.
Lemma common_den n (q : nat -> Q) : exists (D : Z) x, D <> 0 /\ forall i, (i < n)%nat -> (inject_Z (x i) == q i * inject_Z D)%Q.
Proof.
  induction n as [|n (D & x & ND & IH)]; [exists 1, (fun _ => 0); split; [lia|intros; lia]|].
  exists (D * Zpos (Qden (q n))), (fun i => if Nat.eqb i n then Qnum (q n) * D else x i * Zpos (Qden (q n))). split; [lia|]. intros i Hi. destruct (Nat.eqb_spec i n) as [->|N].
  - rewrite !inject_Z_mult. destruct (q n) as [a b]. cbn [Qnum Qden]. rewrite (Qmake_Qdiv a b). field. apply inj_neq0. discriminate.
  - rewrite !inject_Z_mult, IH by lia. ring.
Qed.
Lemma projector_run M n th : is_mx M n n th -> gives (x_projector fits as_int M) (fun P => exists k g, is_mx P k n g /\ projects n k th g) (overflows fits).
Proof.
  intros HM. unfold x_projector.
  eapply gives_bind; [eapply transpose_ok; exact HM|]. intros T HT. cbn beta in HT.
  eapply gives_bind; [eapply add_scalar_ok; [apply (zarith_ok fits)|exact HT]|]. intros T1 HT1. cbn beta in HT1.
  eapply gives_mono; [apply gives_and; [apply (C86_row_saturate fits as_int Hint T1 n n _ HT1)|apply (row_saturate_onto T1 n n _ HT1)]|].
  intros S ((k & g & HS & _ & An) & (k' & g' & HS' & On)). destruct (same_rows S k g k' g' n HS HS') as (<- & Eg). exists k, g. split; [exact HS|]. split.
  - intros q. destruct (common_den n q) as (D & x & ND & HX). assert (NQ : ~ (inject_Z D == 0)%Q) by (apply inj_neq0; exact ND).
    assert (Z0 : forall a : Q, (a * inject_Z D == 0)%Q -> (a == 0)%Q) by (intros a Ha; apply (Qmult_inj_r _ _ (inject_Z D) NQ); rewrite Ha; ring).
    specialize (An x). unfold annihilated in An.
    assert (Q1 : forall j, (actQ n g q j == 0)%Q <-> fapply n g x j = 0).
    { intros j. pose proof (actQ_num n g x q D j HX) as EJ. split; intros J.
      - apply inj_inj. rewrite EJ, J. change (inject_Z 0) with 0%Q. ring.
      - apply Z0. rewrite <- EJ, J. reflexivity. }
    assert (Q2 : forall i, (i < n)%nat -> (q i + actQ n (fun i j => th j i) q i == 0)%Q <-> fapply n (fun i j => if (i =? j)%nat then th j i + 1 else th j i) x i = 0).
    { intros i Hi. assert (Ef : fapply n (fun i j => if (i =? j)%nat then th j i + 1 else th j i) x i = x i + fapply n (fun i j => th j i) x i).
      { unfold fapply. rewrite (zsum_ext n _ (fun j => delta i j * x j + th j i * x j)) by (intros j Hj; unfold delta; destruct (i =? j)%nat; ring). rewrite zsum_add, zsum_delta_l by exact Hi. reflexivity. }
      rewrite Ef. pose proof (actQ_num n (fun i j => th j i) x q D i HX) as EJ. split; intros J.
      - apply inj_inj. rewrite inject_Z_plus, EJ, (HX i Hi). change (inject_Z 0) with 0%Q. rewrite <- Qmult_plus_distr_l, J. ring.
      - apply Z0. rewrite Qmult_plus_distr_l, <- EJ, <- (HX i Hi), <- inject_Z_plus, J. reflexivity. }
    split; intros J.
    + intros i Hi. apply Q2; [exact Hi|]. apply (proj2 An); [|exact Hi]. intros j Hj. apply Q1, J, Hj.
    + intros j Hj. apply Q1. apply (proj1 An); [|exact Hj]. intros i Hi. apply Q2; [exact Hi|]. apply J, Hi.
  - intros y. destruct (On y) as (x & X). exists x. intros j Hj. rewrite <- X by exact Hj. apply ToriLat.fapply_mat. intros l Hl. apply Eg; assumption.
Qed.
Lemma apart_iff n k th g q p : projects n k th g -> (torus_apart n th q p <-> forall j, (j < k)%nat -> exists z, (actQ n g (fun i => q i - p i) j == inject_Z z)%Q).
Proof.
  intros (P1 & P2). unfold torus_apart. cbv zeta.
  assert (Sub : forall (z : nat -> Z) j, (actQ n g (fun i => q i - p i - inject_Z (z i)) j == actQ n g (fun i => q i - p i) j - inject_Z (fapply n g z j))%Q).
  { intros z j. rewrite (actQ_ext n g g (fun i => q i - p i - inject_Z (z i))%Q (fun i => (q i - p i) + - inject_Z (z i))%Q j) by (intros; try reflexivity; ring). rewrite actQ_plus. unfold Qminus. apply Qplus_comp; [reflexivity|].
    rewrite <- (Qmult_1_r (inject_Z _)). change 1%Q with (inject_Z 1). rewrite (actQ_num n g z (fun i => inject_Z (z i)) 1 j) by (intros; change (inject_Z 1) with 1%Q; ring). change (inject_Z 1) with 1%Q. rewrite Qmult_1_r. unfold actQ.
    rewrite (qsum_ext n _ (fun i => inject_Z (g j i) * inject_Z (z i) * (-(1)))%Q) by (intros; ring). rewrite qsum_scale. ring. }
  split.
  - intros (z & Hz) j Hj. exists (fapply n g z j). pose proof (proj2 (P1 (fun j => q j - p j - inject_Z (z j))%Q) Hz j Hj) as X. rewrite Sub in X. lra.
  - intros J. destruct (finite_choice k (fun j z => (actQ n g (fun i => q i - p i) j == inject_Z z)%Q) 0 J) as (w & W). destruct (P2 w) as (x & X). exists x.
    apply (proj1 (P1 (fun j => q j - p j - inject_Z (x j))%Q)). intros j Hj. rewrite Sub, (W j Hj), (X j Hj). ring.
Qed.

(** the fractional parts of the projection *)
Lemma frac_same n k g q0 q1 p0 p1 : frac_of n k g q0 p0 -> frac_of n k g q1 p1 ->
  ((forall j, (j < k)%nat -> (p0 j == p1 j)%Q) <-> forall j, (j < k)%nat -> exists z, (actQ n g (fun i => q0 i - q1 i) j == inject_Z z)%Q).
Proof.
  intros F0 F1. assert (Sub : forall j, (actQ n g (fun i => q0 i - q1 i) j == actQ n g q0 j - actQ n g q1 j)%Q).
  { intros j. rewrite (actQ_ext n g g (fun i => q0 i - q1 i)%Q (fun i => q0 i + - q1 i)%Q j) by (intros; try reflexivity; ring). rewrite actQ_plus. unfold Qminus. apply Qplus_comp; [reflexivity|]. unfold actQ.
    rewrite (qsum_ext n _ (fun i => inject_Z (g j i) * q1 i * (-(1)))%Q) by (intros; ring). rewrite qsum_scale. ring. }
  split; intros J j Hj; destruct (F0 j Hj) as ((L0 & U0) & z0 & E0); destruct (F1 j Hj) as ((L1 & U1) & z1 & E1).
  - exists (z0 - z1). rewrite Sub. unfold Z.sub. rewrite inject_Z_plus, inject_Z_opp. specialize (J j Hj). lra.
  - destruct (J j Hj) as (z & Ez). rewrite Sub in Ez. assert (X : (p0 j - p1 j == inject_Z (z - z0 + z1))%Q) by (unfold Z.sub; rewrite !inject_Z_plus, inject_Z_opp; lra).
    assert (A1 : (inject_Z (-1) < inject_Z (z - z0 + z1))%Q) by (change (inject_Z (-1)) with (-(1))%Q; lra). assert (A2 : (inject_Z (z - z0 + z1) < inject_Z 1)%Q) by (change (inject_Z 1) with 1%Q; lra).
    rewrite <- Zlt_Qlt in A1, A2. assert (W : z - z0 + z1 = 0) by lia. rewrite W in X. change (inject_Z 0) with 0%Q in X. lra.
Qed.
Theorem x_pack_run me n th wt q P k g : x_projector fits as_int (ir_theta me) = Ok P -> is_mx P k n g -> projects n k th g -> is_rv wt n q ->
  gives (x_pack fits as_int me wt) (fun v => exists p, is_rv v k p /\ reduced v /\ frac_of n k g q p) (fun e => e = Overflow).
Proof.
  intros EP HP _ (Hd & x & V & HX). unfold x_pack. rewrite EP. cbn [bind].
  eapply gives_bind; [eapply gives_mono_err; [|apply (apply64 P k n g (num wt) x HP V)]; intros e (-> & _); reflexivity|]. intros v (Vv & Bv).
  unfold rv_denominator. rewrite s64_small by lia.
  eapply gives_bind; [apply (vmap_part (E := fun e => e = Overflow) _ (fun a b => b = a mod (den wt)) v k _) with (2 := Vv)|].
  { intros i Hi. rewrite rem_run by (auto; lia). reflexivity. }
  intros v' (t & Vt & Ht).
  assert (Bt : forall j, (j < k)%nat -> 0 <= t j < den wt) by (intros j Hj; rewrite (Ht j Hj); apply Z.mod_pos_bound; lia).
  eapply gives_bind; [eapply gives_mono_err; [|apply (make_ok v' k t (den wt) Vt)]; [intros e (-> & _); reflexivity|intros i Hi; specialize (Bt i Hi); unfold in64; lia|lia|lia]|]. intros u (Ru & _).
  eapply gives_conv; [| |apply (C83_normalize u k _ Ru)]; [|intros e (-> & _); reflexivity].
  intros r (Rr & Red & _). eexists. split; [exact Rr|]. split; [exact Red|]. intros j Hj. specialize (Bt j Hj).
  assert (Pd : (0 < inject_Z (den wt))%Q) by (change 0%Q with (inject_Z 0); rewrite <- Zlt_Qlt; lia). assert (Nd : ~ (inject_Z (den wt) == 0)%Q) by (apply inj_neq0; lia). split; [split|].
  - apply Qle_shift_div_l; [exact Pd|]. rewrite Qmult_0_l. change 0%Q with (inject_Z 0). rewrite <- Zle_Qle. lia.
  - apply Qlt_shift_div_r; [exact Pd|]. rewrite Qmult_1_l. rewrite <- Zlt_Qlt. lia.
  - exists (fapply n g x j / den wt). apply (Qmult_inj_r _ _ (inject_Z (den wt)) Nd).
    assert (E1 : (actQ n g q j * inject_Z (den wt) == inject_Z (fapply n g x j))%Q) by (symmetry; apply actQ_num; intros; apply HX; assumption).
    unfold Qminus. rewrite Qmult_plus_distr_l, E1. rewrite (Ht j Hj). change (zsum n (fun j0 => g j j0 * x j0)) with (fapply n g x j). rewrite (Z.mod_eq (fapply n g x j) (den wt)) by lia.
    unfold Z.sub. rewrite !inject_Z_plus, inject_Z_opp, !inject_Z_mult. field. exact Nd.
Qed.
Lemma test_run d l : 0 < d < 2 ^ 63 -> (forall x, In x l -> in64 x) ->
  (fix test (l : list Z) : res bool := match l with [] => Ok true | x :: l => run m <- crem fits64 x d; if (m =? 0)%Z then test l else Ok false end) l
   = Ok (forallb (fun x => Z.rem x d =? 0) l).
Proof.
  intros Hd. induction l as [|x l IH]; intros B; [reflexivity|]. cbn [forallb]. unfold crem at 1. destruct (Z.eqb_spec d 0); [lia|].
  assert (F64 : fits64 (Z.quot x d) = true).
  { specialize (B x ltac:(left; reflexivity)). unfold in64 in B. unfold fits64. change H63 with (2 ^ 63). pose proof (Z.quot_lt x d). destruct (Z.le_gt_cases 0 x).
    - pose proof (Z.quot_pos x d ltac:(lia) ltac:(lia)). pose proof (Z.quot_le_upper_bound x d x ltac:(lia) ltac:(nia)). apply andb_true_intro. split; [apply Z.leb_le|apply Z.ltb_lt]; lia.
    - pose proof (Z.quot_opp_l x d ltac:(lia)) as Q1. pose proof (Z.quot_pos (- x) d ltac:(lia) ltac:(lia)). pose proof (Z.quot_le_upper_bound (- x) d (- x) ltac:(lia) ltac:(nia)). apply andb_true_intro. split; [apply Z.leb_le|apply Z.ltb_lt]; lia. }
  unfold chkz. rewrite F64. cbn [bind]. destruct (Z.rem x d =? 0); [|reflexivity]. rewrite IH by (intros; apply B; right; assumption). reflexivity.
Qed.
Theorem x_equiv_run me n th w0 w1 q0 q1 P k g : x_projector fits as_int (ir_theta me) = Ok P -> is_mx P k n g -> projects n k th g -> is_rv w0 n q0 -> is_rv w1 n q1 ->
  Z.lcm (den w0) (den w1) < 2 ^ 63 -> (forall i, (i < n)%nat -> holds (Z.lcm (den w0) (den w1)) (q0 i - q1 i)%Q) ->
  gives (x_equiv fits as_int me w0 w1) (fun b => b = true <-> torus_apart n th q0 q1) (fun e => e = Overflow).
Proof.
  intros EP HP Pr R0 R1 HL HH. unfold x_equiv.
  eapply gives_bind; [eapply gives_mono_err; [|apply (C83_sub w0 w1 n q0 q1 R0 R1 HL HH)]; intros e (-> & _); reflexivity|]. intros wt ((Hd & x & V & HX) & _).
  rewrite EP. cbn [bind].
  eapply gives_bind; [eapply gives_mono_err; [|apply (apply64 P k n g (num wt) x HP V)]; intros e (-> & _); reflexivity|]. intros v (Vv & Bv).
  unfold rv_denominator. rewrite s64_small by lia. rewrite test_run; [|exact Hd|].
  - cbn [gives]. rewrite (apart_iff n k th g q0 q1 Pr), forallb_forall.
    assert (Nd : ~ (inject_Z (den wt) == 0)%Q) by (apply inj_neq0; lia).
    assert (E1 : forall j, (actQ n g (fun i => q0 i - q1 i) j * inject_Z (den wt) == inject_Z (fapply n g x j))%Q) by (intros j; symmetry; apply actQ_num; intros; apply HX; assumption).
    split.
    + intros J j Hj. specialize (J (fapply n g x j) ltac:(apply (nth_error_In v j); apply (proj2 Vv j Hj))). apply Z.eqb_eq in J. exists (Z.quot (fapply n g x j) (den wt)).
      apply (Qmult_inj_r _ _ (inject_Z (den wt)) Nd). rewrite E1, <- inject_Z_mult. pose proof (Z.quot_rem' (fapply n g x j) (den wt)). replace (Z.quot (fapply n g x j) (den wt) * den wt) with (fapply n g x j) by lia. reflexivity.
    + intros J a Ia. apply In_nth_error in Ia as (j & Gj). assert (Hj : (j < k)%nat) by (rewrite <- (proj1 Vv); apply (VecProofs.get_lt v j a Gj)). pose proof (proj2 Vv j Hj) as G2. unfold get in G2. rewrite Gj in G2. injection G2 as ->.
      destruct (J j Hj) as (z & Ez). apply Z.eqb_eq. change (zsum n (fun j0 => g j j0 * x j0)) with (fapply n g x j). assert (E2 : fapply n g x j = z * den wt) by (apply inj_inj; rewrite <- E1, Ez, inject_Z_mult; reflexivity). rewrite E2. apply Z.rem_mul. lia.
  - intros a Ia. apply In_nth_error in Ia as (j & Gj). assert (Hj : (j < k)%nat) by (rewrite <- (proj1 Vv); apply (VecProofs.get_lt v j a Gj)). pose proof (proj2 Vv j Hj) as G2. unfold get in G2. rewrite Gj in G2. injection G2 as ->. apply Bv. exact Hj.
Qed.
End Pack.

(** ** binary search *)
Lemma locate_run starts i : (0 < length starts)%nat -> (forall j k x y, (j < k)%nat -> get starts j = Some x -> get starts k = Some y -> (x <= y)%nat) -> get starts 0 = Some 0%nat ->
  exists l x, locate starts i = Ok l /\ get starts l = Some x /\ (x <= i)%nat /\ forall k y, (l < k)%nat -> get starts k = Some y -> (i < y)%nat.
Proof.
  intros Hl Mono H0. unfold locate.
  assert (G : forall fuel low high x, (high - low < fuel)%nat -> (low < high)%nat -> (high <= length starts)%nat -> get starts low = Some x -> (x <= i)%nat -> (forall k y, (high <= k)%nat -> get starts k = Some y -> (i < y)%nat) ->
    exists l x, locate_from fuel starts i low high = Ok l /\ get starts l = Some x /\ (x <= i)%nat /\ forall k y, (l < k)%nat -> get starts k = Some y -> (i < y)%nat).
  { induction fuel as [|fuel IH]; intros low high x Hf Hlh Hh Gx Lx Ab; [lia|]. cbn [locate_from]. destruct (Nat.ltb_spec 1 (high - low)).
    - pose proof (Nat.div_mod (low + high) 2 ltac:(lia)) as DM. pose proof (Nat.mod_upper_bound (low + high) 2 ltac:(lia)) as MB. set (mid := ((low + high) / 2)%nat) in *.
      destruct (VecProofs.get_some starts mid ltac:(lia)) as (y & Gy). unfold vget. rewrite Gy. cbn [bind]. destruct (Nat.ltb_spec i y).
      + apply (IH low mid x); [lia|lia|lia|exact Gx|exact Lx|]. intros k z Hk Gz. destruct (Nat.eq_dec k mid) as [->|N]; [rewrite Gy in Gz; injection Gz as <-; assumption|]. pose proof (Mono mid k y z ltac:(lia) Gy Gz). lia.
      + apply (IH mid high y); [lia|lia|lia|exact Gy|lia|exact Ab].
    - exists low, x. split; [reflexivity|]. split; [exact Gx|]. split; [exact Lx|]. intros k y Hk. apply Ab. lia. }
  apply (G (S (length starts)) 0%nat (length starts) 0%nat); [lia|lia|lia|exact H0|lia|]. intros k y Hk Gy. apply VecProofs.get_lt in Gy. lia.
Qed.
