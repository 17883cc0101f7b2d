(** Fundamental weights, radicals, the two status flags; data read back from a root datum; the dual datum. *)

From Coq Require Import List Arith ZArith Bool Lia.
From Verif Require Import VecModel VecProofs RunModel RunProofs MatModel MatSpec MatProofs MatLin MatRing MatDet MatOps MatOps2 MatProps RedModel RedSpec RedSolve RedSpan RedSystem RedInverse RedProps
  LatModel LatSpec LatProps LieTypeModel LieTypeSpec LieTypeProofs RootModel RootSpec RootBase RootMath RootForm RootFin RootCo RootAcc RootSys RootUniq RootTop RootProps DatModel DatSpec DatMath DatProofs DatOps DatMats DatSub.
Import ListNotations.
Local Open Scope Z_scope.

Section Pre.
Variable fits : Z -> bool.
Variable as_int : Z -> Z.
Hypothesis int_id : forall z, as_int z = z.
Notation R := (zarith fits).
Notation E := (overflows fits).
Variables (r n : nat) (A B : nat -> nat -> Z) (p : predatum).
Hypothesis HA : is_mx (p_roots p) r n A.
Hypothesis HB : is_mx (p_coroots p) r n B.
Notation C := (fun i j => dot r (fcol r A i) (fcol r B j)).
Hypothesis gd : good n C.
Lemma dot_fcol (f g : nat -> nat -> Z) i j : dot r (fcol r f i) (fcol r g j) = zsum r (fun k => f k i * g k j).
Proof. unfold dot. apply zsum_ext. intros k Hk. rewrite !co_fcol by exact Hk. reflexivity. Qed.
Lemma dot_left f v j : length v = r -> dot r v (fcol r f j) = zsum r (fun k => co v k * f k j).
Proof. intros _. unfold dot. apply zsum_ext. intros k Hk. rewrite co_fcol by exact Hk. reflexivity. Qed.
(** the numerators of the fundamental weights and coweights, with their denominator *)
Lemma fundamental_run short : gives (fundamental fits as_int short p)
  (fun '(ws, vs, den) => least_denominator n C den /\ length ws = n /\ length vs = n /\
     forall i, (i < n)%nat -> exists w v u u', get ws i = Some w /\ get vs i = Some v /\ w = comb r n (fcol r A) u /\ v = comb r n (fcol r B) u' /\
       forall j, (j < n)%nat -> dot r w (fcol r B j) = den * delta i j /\ dot r (fcol r A j) v = den * delta i j)
  (fun e => e = Thrown /\ (exists d, least_denominator n C d /\ 2147483648 <= d) \/ overflows short e \/ E e).
Proof.
  unfold fundamental. eapply gives_bind.
  { eapply gives_weaken; [apply (p_Cartan_ok fits r n A B p HA HB)|intros x Hx; exact Hx|]. intros e Q. right. right. exact Q. }
  intros c Hc. eapply gives_bind.
  { eapply gives_weaken; [apply (C48_inverse short as_int int_id c n C Hc)|intros x Hx; exact Hx|]. intros e [Q|Q]; [left; exact Q|right; left; exact Q]. }
  intros [inv den] (g & Hg & [[_ D0]|(_ & Ld & I1 & I2)]); [exfalso; exact (Cartan_det n C gd D0)|].
  assert (Up : forall e, E e -> e = Thrown /\ (exists d, least_denominator n C d /\ 2147483648 <= d) \/ overflows short e \/ E e) by auto.
  eapply gives_bind; [apply (transposed_ok _ inv n n g Hg)|]. intros tr Htr.
  eapply gives_bind; [apply (gives_mono_err _ _ _ _ Up (mul_run fits _ _ r n n _ _ HA Htr))|]. intros W HW.
  eapply gives_bind; [apply (columns_ok _ W r n _ HW)|]. intros ws (Lw & Gw).
  eapply gives_bind; [apply (gives_mono_err _ _ _ _ Up (mul_run fits _ _ r n n _ _ HB Hg))|]. intros V HV.
  eapply gives_bind; [apply (columns_ok _ V r n _ HV)|]. intros vs (Lv & Gv). apply gives_ok.
  split; [exact Ld|]. split; [exact Lw|]. split; [exact Lv|]. intros i Hi. destruct (Gw i Hi) as (w & Ew & Vw). destruct (Gv i Hi) as (v & Ev & Vv).
  exists w, v, (fcol n (fun k i => g i k) i), (fcol n g i). split; [exact Ew|]. split; [exact Ev|].
  assert (Qw : w = comb r n (fcol r A) (fcol n (fun k i => g i k) i)).
  { apply vec_ext; [rewrite comb_length; apply Vw|]. intros k Hk. rewrite (proj1 Vw) in Hk. rewrite (vec_co _ _ _ k Vw Hk), co_comb by exact Hk. unfold fmul. apply zsum_ext. intros j Hj. rewrite !co_fcol by assumption. lia. }
  assert (Qv : v = comb r n (fcol r B) (fcol n g i)).
  { apply vec_ext; [rewrite comb_length; apply Vv|]. intros k Hk. rewrite (proj1 Vv) in Hk. rewrite (vec_co _ _ _ k Vv Hk), co_comb by exact Hk. unfold fmul. apply zsum_ext. intros j Hj. rewrite !co_fcol by assumption. lia. }
  split; [exact Qw|]. split; [exact Qv|]. intros j Hj. split.
  - rewrite Qw, dot_comb. rewrite (zsum_ext n _ (fun k => g i k * C k j)) by (intros k Hk; rewrite co_fcol by exact Hk; reflexivity). exact (I2 i j Hi Hj).
  - rewrite Qv, dot_comb_r. rewrite (zsum_ext n _ (fun k => C j k * g k i)) by (intros k Hk; rewrite co_fcol by exact Hk; lia). rewrite <- (Z.mul_1_l (delta i j)). replace (delta i j) with (delta j i) by (unfold delta; rewrite Nat.eqb_sym; reflexivity).
    rewrite Z.mul_1_l. exact (I1 j i Hj Hi).
Qed.
(** bases of the weights that vanish on the coroots and of the coweights that vanish on the roots *)
Lemma empty_basis f g : independent r n f -> (r <= n)%nat -> basis_of r 0 g (orthogonal r n f).
Proof.
  intros I L. assert (r = n) by (pose proof (independent_wide r n f I); lia). subst n. split; [|intros; lia]. intros x. split.
  - intros O. exists (fun _ => 0). intros i Hi. cbn.
    assert (D : det r (fun i j => f j i) <> 0) by (rewrite det_transpose; apply independent_det; exact I). destruct (adjugate r (fun i j => f j i)) as (h & _ & H2).
    assert (Q : fapply r (fmul r h (fun i j => f j i)) x i = 0).
    { rewrite <- fapply_fmul. unfold fapply at 1. apply zsum_zero. intros j Hj. replace (fapply r (fun i j => f j i) x j) with (frow r x f j) by (unfold fapply, frow; apply zsum_ext; intros; lia). rewrite (O j Hj). lia. }
    rewrite (fapply_ext r _ (fun i j => det r (fun i j => f j i) * delta i j) x x i) in Q by first [reflexivity|intros j Hj; apply H2; assumption].
    unfold fapply in Q. rewrite (zsum_ext r _ (fun k => det r (fun i j => f j i) * (delta i k * x k))) in Q by (intros; lia). rewrite zsum_mul_l in Q. change (zsum r (fun k => delta i k * x k)) with (fapply r delta x i) in Q. rewrite fapply_delta in Q by exact Hi. nia.
  - intros (c & Hc) j Hj. unfold frow. apply zsum_zero. intros i Hi. rewrite (Hc i Hi). cbn. lia.
Qed.
Definition columns_are (m : nat) (l : list (list Z)) (v : nat -> nat -> Z) : Prop := forall j, (j < length l)%nat -> exists x, get l j = Some x /\ is_vec x m (fun i => v i j).
Lemma radicals_run : independent r n A -> independent r n B -> gives (radicals fits p) (fun '(c, q) => exists v w, columns_are r c v /\ columns_are r q w /\
    basis_of r (length c) v (orthogonal r n B) /\ basis_of r (length q) w (orthogonal r n A)) E.
Proof.
  intros IA IB. unfold radicals, p_ssrank, p_rank. rewrite (proj1 HA), (proj1 (proj2 HA)). destruct (Nat.ltb_spec n r) as [L|L].
  - eapply gives_bind; [apply (C86_perp fits _ r n B HB)|]. intros c (v & _ & Cv & Bv). eapply gives_bind; [apply (C86_perp fits _ r n A HA)|]. intros q (w & _ & Cw & Bw). apply gives_ok. exists v, w. auto.
  - apply gives_ok. exists delta, delta. split; [intros j Hj; cbn in Hj; lia|]. split; [intros j Hj; cbn in Hj; lia|]. split; apply empty_basis; assumption.
Qed.
(** all elementary divisors are units just when the span of the columns is saturated *)
Definition saturated (m n : nat) (f : nat -> nat -> Z) : Prop := forall k x, k <> 0 -> solvable m n f (fun i => k * x i) -> solvable m n f x.
Lemma unit_factors_run M m k f : is_mx M m k f -> gives (unit_factors fits M) (fun b => b = true <-> saturated m k f) E.
Proof.
  intros HM. unfold unit_factors. eapply gives_bind; [apply (C45_diagonalise fits m k f M HM)|]. intros [[dg row] col] (q & dd & rho & gamma & Vd & _ & _ & (rho' & U1 & U1') & (gamma' & U2 & U2') & L1 & L2 & Eq & Nz & _).
  rewrite (proj1 Vd).
  assert (Sat : saturated m k f <-> forall i, (i < q)%nat -> Z.abs (dd i) = 1).
  { (* f y = x exactly when the diagonal matrix takes gamma' y to rho x *)
    assert (Dg : forall y i, (i < m)%nat -> fapply k (fmul k (fmul m rho f) gamma) y i = if (i <? q)%nat then dd i * y i else 0).
    { intros y i Hi. unfold fapply. rewrite (zsum_ext k _ (fun j => (if ((i =? j) && (i <? q))%nat then dd i else 0) * y j)) by (intros j Hj; rewrite (Eq i j Hi Hj); reflexivity).
      destruct (Nat.ltb_spec i q) as [Q|Q].
      - rewrite (zsum_one k i) by first [lia|intros j Hj N; destruct (Nat.eqb_spec i j); [congruence|cbn; lia]]. rewrite Nat.eqb_refl. reflexivity.
      - apply zsum_zero. intros j Hj. rewrite andb_false_r. lia. }
    assert (To : forall y x, (forall i, (i < m)%nat -> fapply k f y i = x i) -> forall i, (i < m)%nat -> fapply m rho x i = if (i <? q)%nat then dd i * fapply k gamma' y i else 0).
    { intros y x H i Hi. rewrite <- (Dg (fapply k gamma' y) i Hi). rewrite fapply_fmul. 
      rewrite (fapply_ext k (fmul k (fmul k (fmul m rho f) gamma) gamma') (fmul m rho f) y y i).
      - rewrite <- fapply_fmul. apply fapply_ext; [reflexivity|]. intros j Hj. symmetry. apply H. exact Hj.
      - intros j Hj. rewrite fmul_assoc. rewrite (fmul_ext_col k (fmul m rho f) (fmul k gamma gamma') delta i j) by (intros; apply U2; assumption). apply fmul_id_r. exact Hj.
      - reflexivity. }
    assert (From : forall z x, (forall i, (i < m)%nat -> fapply m rho x i = if (i <? q)%nat then dd i * z i else 0) -> forall i, (i < m)%nat -> fapply k f (fapply k gamma z) i = x i).
    { intros z x H i Hi. assert (G : forall j, (j < m)%nat -> fapply m rho (fapply k f (fapply k gamma z)) j = fapply m rho x j).
      { intros j Hj. rewrite (H j Hj), <- (Dg z j Hj). rewrite <- (fapply_fmul k k (fmul m rho f) gamma z j). rewrite <- (fapply_fmul m k rho f). reflexivity. }
      transitivity (fapply m rho' (fapply m rho (fapply k f (fapply k gamma z))) i).
      - rewrite (fapply_fmul m m rho' rho). rewrite (fapply_ext m (fmul m rho' rho) delta _ (fapply k f (fapply k gamma z)) i) by first [reflexivity|intros; apply U1'; assumption]. symmetry. apply fapply_delta. exact Hi.
      - rewrite (fapply_ext m rho' rho' _ (fapply m rho x) i) by first [reflexivity|exact G]. rewrite fapply_fmul. rewrite (fapply_ext m (fmul m rho' rho) delta x x i) by first [reflexivity|intros; apply U1'; assumption]. apply fapply_delta. exact Hi. }
    split.
    - intros S i Hi. destruct (S (dd i) (fun a => rho' a i)) as [y Hy]; [apply Nz; exact Hi| |].
      + exists (fapply k gamma (fun j => delta j i)). intros a Ha. apply (From (fun j => delta j i) (fun a => dd i * rho' a i)); [|exact Ha].
        intros b Hb. rewrite fapply_scale. change (fapply m rho (fun a => rho' a i) b) with (fmul m rho rho' b i). rewrite (U1 b i Hb ltac:(lia)). unfold delta. destruct (Nat.eqb_spec b i) as [->|N]; [rewrite (proj2 (Nat.ltb_lt i q) Hi); reflexivity|]. destruct (b <? q)%nat; lia.
      + pose proof (To y _ Hy i ltac:(lia)) as Q. change (fapply m rho (fun a => rho' a i) i) with (fmul m rho rho' i i) in Q. rewrite (U1 i i ltac:(lia) ltac:(lia)) in Q. unfold delta in Q. rewrite Nat.eqb_refl, (proj2 (Nat.ltb_lt i q) Hi) in Q.
        assert (D : (dd i | 1)) by (exists (fapply k gamma' y i); lia). apply Z.divide_1_r in D. lia.
    - intros U t x Nt (y & Hy). exists (fapply k gamma (fun i => dd i * fapply m rho x i)). intros i Hi. apply From; [|exact Hi]. intros j Hj. pose proof (To y _ Hy j Hj) as Q. cbv beta in Q. rewrite fapply_scale in Q.
      destruct (Nat.ltb_spec j q) as [G|G]; [pose proof (U j G); assert (dd j * dd j = 1) by lia; nia|nia]. }
  eapply gives_mono.
  - apply (gives_upto0 (fun t b => b = true <-> forall i, (i < t)%nat -> Z.abs (dd i) = 1)) with (Q := fun b => b = true <-> forall i, (i < q)%nat -> Z.abs (dd i) = 1).
    + split; [intros _ i Hi; lia|reflexivity].
    + intros t b Ht IH. rewrite (vget_ok _ _ _ (proj2 Vd t Ht)). cbn [bind]. eapply gives_bind; [apply chk_run|]. intros y <-. apply gives_ok. rewrite andb_true_iff, Z.eqb_eq, IH. split.
      * intros [H1 H2] i Hi. destruct (Nat.eq_dec i t) as [->|N]; [exact H2|apply H1; lia].
      * intros H. split; [intros i Hi; apply H; lia|apply H; lia].
    + intros b Hb. exact Hb.
  - intros b Hb. rewrite Hb. symmetry. exact Sat.
Qed.
End Pre.
