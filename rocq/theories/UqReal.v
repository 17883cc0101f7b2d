(** Representatives of real projections of rational weights. *)

From Coq Require Import List Arith ZArith QArith Bool Lia Lqa.
From Verif Require Import VecModel RunModel RunProofs MatModel MatSpec MatLin MatRing MatProofs MatArith MatDiv ArithModel RatVecModel RatVecSpec RatVecProofs RatVecOps RatVecMore RatVecProps
  YvModel YvSpec YvProofs YvAct YvLog ToriSpec ToriLat UqModel UqSpec UqMath UqProofs.
Import ListNotations.
Local Open Scope Z_scope.

Lemma antiQ_num n th x q (d : Z) i : (i < n)%nat -> (forall j, (j < n)%nat -> (inject_Z (x j) == q j * inject_Z d)%Q) -> (inject_Z (anti n th x i) == antiQ n th q i * inject_Z d)%Q.
Proof.
  intros Hi HX. unfold anti, antiQ, actQ, Z.sub. rewrite inject_Z_plus, inject_Z_opp. unfold fapply.
  rewrite (qsum_inj n (fun j => th i j * x j) d (fun j => inject_Z (th i j) * q j)%Q).
  - rewrite (HX i Hi). ring.
  - intros j Hj. rewrite inject_Z_mult, (HX j Hj). ring.
Qed.
Lemma actQ_num n f x q (d : Z) i : (forall j, (j < n)%nat -> (inject_Z (x j) == q j * inject_Z d)%Q) -> (inject_Z (fapply n f x i) == actQ n f q i * inject_Z d)%Q.
Proof. intros HX. unfold fapply, actQ. apply qsum_inj. intros j Hj. rewrite inject_Z_mult, (HX j Hj). ring. Qed.

Section Real.
Variables (n k : nat) (th m g : nat -> nat -> Z) (me : irec).
Hypothesis H : record_at n k th m g me.
Local Notation F := (proj2 (proj2 (proj2 (proj2 H)))).
Local Notation inv := (proj1 (proj2 (proj2 (proj2 H)))).
Local Notation Hm := (proj1 (proj2 H)).
Local Notation Hl := (proj1 (proj2 (proj2 H))).
Theorem real_unique_ok y q : is_rv y n q ->
  gives (real_unique me y) (fun r => exists p, is_rv r n p /\ reduced r /\ real_class n k th g q p) (fun e => e = Overflow).
Proof.
  intros (Hd & x & V & HX). unfold real_unique.
  eapply gives_bind; [eapply gives_mono_err; [|apply (apply64 _ k n m (num y) x Hm V)]; intros e (-> & _); reflexivity|]. intros v (Vv & Bv).
  eapply gives_bind; [eapply gives_mono_err; [|apply (twice_run y Hd)]; intros e (-> & _); reflexivity|]. intros d (-> & Ld).
  eapply gives_bind; [apply (vmap_part (E := fun e => e = Overflow) _ (fun a b => b = a mod (2 * den y)) v k _) with (2 := Vv)|].
  { intros i Hi. rewrite rem_run by (auto; lia). reflexivity. }
  intros v' (t & Vt & Ht).
  eapply gives_bind; [eapply gives_mono_err; [|apply (apply64 _ n k g v' t Hl Vt)]; intros e (-> & _); reflexivity|]. intros w (Vw & Bw).
  assert (Nd : ~ (inject_Z (den y) == 0)%Q) by (apply inj_neq0; lia).
  assert (RW : is_rv (mk_rv w (den y)) n (fun i => inject_Z (fapply k g t i) / inject_Z (den y))%Q).
  { split; [exact Hd|]. exists (fapply k g t). split; [exact Vw|]. intros i Hi. split; [apply Bw; exact Hi|]. cbn [den]. field. exact Nd. }
  eapply gives_bind; [eapply gives_mono_err; [|apply (C83_div_n _ n _ 2 RW)]; [intros e (N & _); lia|lia|cbn [den]; lia]|]. intros u (Ru & _).
  eapply gives_conv; [| |apply (C83_normalize u n _ Ru)]; [|intros e (-> & _); reflexivity].
  intros r (Rr & Red & _). eexists. split; [exact Rr|]. split; [exact Red|]. split.
  - destruct (proj1 (fac_image n k th m g F (fapply k g (fun j => - (fapply n m x j / (2 * den y)))))) as (z & Hz); [eexists; intros; reflexivity|].
    exists z. intros i Hi. rewrite <- Hz by exact Hi.
    assert (Eg : fapply k g t i = anti n th x i + (2 * den y) * fapply k g (fun j => - (fapply n m x j / (2 * den y))) i).
    { rewrite <- (fac_apply n k th m g F) by exact Hi. rewrite <- fapply_scale, <- fapply_add. apply fapply_ext. intros j Hj. rewrite (Ht j Hj). change (zsum n (fun j0 => m j j0 * x j0)) with (fapply n m x j). rewrite Z.mod_eq by lia. ring. }
    rewrite Eg. rewrite inject_Z_plus, !inject_Z_mult, (antiQ_num n th x q (den y) i Hi) by (intros j Hj; apply HX; exact Hj).
    change (inject_Z 2) with 2%Q. field. exact Nd.
  - exists (fun j => inject_Z (t j) / inject_Z (2 * den y))%Q. split.
    + intros j Hj. rewrite (Ht j Hj). pose proof (Z.mod_pos_bound (zsum n (fun j0 => m j j0 * x j0)) (2 * den y) ltac:(lia)) as (L & U).
      assert (P : (0 < inject_Z (2 * den y))%Q) by (change 0%Q with (inject_Z 0); rewrite <- Zlt_Qlt; lia). split.
      * apply Qle_shift_div_l; [exact P|]. rewrite Qmult_0_l. change 0%Q with (inject_Z 0). rewrite <- Zle_Qle. exact L.
      * apply Qlt_shift_div_r; [exact P|]. rewrite Qmult_1_l. rewrite <- Zlt_Qlt. exact U.
    + intros i Hi. assert (N2 : ~ (inject_Z (2 * den y) == 0)%Q) by (apply inj_neq0; lia).
      rewrite (actQ_num k g t (fun j => inject_Z (t j) / inject_Z (2 * den y))%Q (2 * den y) i) by (intros j Hj; field; exact N2).
      rewrite inject_Z_mult in *. change (inject_Z 2) with 2%Q in *. field. exact Nd.
Qed.
Lemma mg_two t j : (j < k)%nat -> (actQ n m (actQ k g t) j == 2 * t j)%Q.
Proof.
  intros Hj. rewrite actQ_comp. assert (E : forall l, (l < k)%nat -> fmul n m g j l = 2 * delta j l).
  { intros l Hl0. change (fmul n m g j l) with (fapply n m (fun i => g i l) j).
    rewrite (fapply_ext n m _ (fapply k g (fun a => delta a l))) by (intros i Hi; unfold fapply; rewrite zsum_delta_r by exact Hl0; reflexivity).
    rewrite (fac_two n k th m g F inv) by exact Hj. reflexivity. }
  transitivity (actQ k delta (fun l => t l * 2)%Q j).
  - unfold actQ. apply qsum_ext. intros l Hl0. rewrite (E l Hl0), inject_Z_mult. change (inject_Z 2) with 2%Q. ring.
  - rewrite actQ_id by exact Hj. ring.
Qed.
Theorem real_same q1 q2 p1 p2 : real_class n k th g q1 p1 -> real_class n k th g q2 p2 ->
  ((forall i, (i < n)%nat -> (p1 i == p2 i)%Q) <-> exists z, forall i, (i < n)%nat -> (antiQ n th q1 i - antiQ n th q2 i == inject_Z (2 * anti n th z i))%Q).
Proof.
  intros ((z1 & E1) & t1 & T1 & G1) ((z2 & E2) & t2 & T2 & G2). split.
  - intros J. exists (fun i => z2 i - z1 i). intros i Hi. specialize (J i Hi). rewrite (E1 i Hi), (E2 i Hi) in J.
    assert (Ez : anti n th (fun i => z2 i - z1 i) i = anti n th z2 i - anti n th z1 i) by (unfold anti; rewrite fapply_sub; ring). rewrite Ez, inject_Z_mult. unfold Z.sub. rewrite inject_Z_plus, inject_Z_opp. change (inject_Z 2) with 2%Q. revert J. generalize (antiQ n th q1 i), (antiQ n th q2 i), (inject_Z (anti n th z1 i)), (inject_Z (anti n th z2 i)). intros a b c e J. assert (K : ((a / 2 + c) * 2 == (b / 2 + e) * 2)%Q) by (rewrite J; reflexivity). field_simplify in K. lra.
  - intros (z & Hz). 
    assert (D : forall i, (i < n)%nat -> exists w, (actQ k g t1 i - actQ k g t2 i == inject_Z (fapply k g w i))%Q /\ w = fapply n m (fun i => z i + z1 i - z2 i)).
    { intros i Hi. exists (fapply n m (fun i => z i + z1 i - z2 i)). split; [|reflexivity]. rewrite (fac_apply n k th m g F) by exact Hi. rewrite <- G1, <- G2, E1, E2 by exact Hi. specialize (Hz i Hi).
      assert (Ez : anti n th (fun i => z i + z1 i - z2 i) i = anti n th z i + anti n th z1 i - anti n th z2 i) by (unfold anti; rewrite fapply_sub, fapply_add; ring).
      rewrite Ez. unfold Z.sub. rewrite !inject_Z_plus, inject_Z_opp. rewrite inject_Z_mult in Hz. change (inject_Z 2) with 2%Q in Hz. revert Hz. generalize (antiQ n th q1 i), (antiQ n th q2 i), (inject_Z (anti n th z1 i)), (inject_Z (anti n th z2 i)), (inject_Z (anti n th z i)). intros a b c e h J.
      assert (K : (a == b + 2 * h)%Q) by (rewrite <- J; ring). rewrite K. field. }
    set (w := fapply n m (fun i => z i + z1 i - z2 i)) in D.
    assert (T : forall j, (j < k)%nat -> (t1 j == t2 j)%Q).
    { intros j Hj. assert (X : (2 * t1 j - 2 * t2 j == inject_Z (2 * w j))%Q).
      { rewrite <- !mg_two by exact Hj. rewrite <- (fac_two n k th m g F inv w j Hj).
        rewrite <- (Qmult_1_r (inject_Z _)). rewrite (actQ_num n m (fapply k g w) (fun i => actQ k g t1 i - actQ k g t2 i)%Q 1 j).
        - change (inject_Z 1) with 1%Q. rewrite !Qmult_1_r. unfold actQ at 5. unfold Qminus. rewrite (qsum_ext n _ (fun i => inject_Z (m j i) * actQ k g t1 i + inject_Z (m j i) * actQ k g t2 i * (-(1)))%Q) by (intros; ring).
          rewrite qsum_plus, qsum_scale. unfold actQ. ring.
        - intros i Hi. destruct (D i Hi) as (w' & Ew & ->). fold w in Ew. rewrite Ew. change (inject_Z 1) with 1%Q. ring. }
      destruct (T1 j Hj) as (L1 & U1). destruct (T2 j Hj) as (L2 & U2). rewrite inject_Z_mult in X. change (inject_Z 2) with 2%Q in X.
      assert (A1 : (inject_Z (-1) < inject_Z (w j))%Q) by (change (inject_Z (-1)) with (-(1))%Q; lra). assert (A2 : (inject_Z (w j) < inject_Z 1)%Q) by (change (inject_Z 1) with 1%Q; lra).
      rewrite <- Zlt_Qlt in A1, A2. assert (W : w j = 0) by lia. rewrite W in X. change (inject_Z 0) with 0%Q in X. lra. }
    intros i Hi. rewrite G1, G2 by exact Hi. apply actQ_ext; [reflexivity|exact T].
Qed.
End Real.
