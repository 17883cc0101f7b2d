(** The space by which torus parts are taken at an involution. *)

From Coq Require Import List Arith ZArith Bool Lia Permutation.
From Verif Require Import RedModel LatModel RedSpec LatSpec.
From Verif Require Import F2Model F2Spec F2Basics F2Proofs F2Ops F2Kernel F2Props SubqModel SubqSpec SubqProofs SubqQuot SubqProps.
From Verif Require Import VecModel RunModel RunProofs MatModel MatSpec MatLin MatRing MatProofs MatOps MatOps2 MatArith MatDiv RedProps LatProofs LatProps RatVecProofs ToriModel ToriSpec ToriLat ToriProofs ToriTorus.
From Verif Require Import LieTypeSpec RootModel RootSpec RootMath RootForm RootFin RootBase RootAcc RootUniq RootExt RootTop RootProps
  DatModel DatSpec DatMath DatProofs DatOps DatMats DatPre DfSpec UqModel UqSpec UqMath UqProofs UqCross.
Import ListNotations.
Local Open Scope Z_scope.

Lemma fiber_denom_run dim fits as_int M n th : (forall z, as_int z = z) -> (n <= dim)%nat -> is_mx M n n th ->
  gives (fiber_denom dim fits as_int M) (represents n (eigen2 n (fun i j => th j i) (-1))) (overflows fits).
Proof.
  intros Hint Hn HM. unfold fiber_denom.
  eapply gives_bind; [apply (transposed_ok 0 M n n th HM)|]. intros T HT.
  eapply gives_bind; [apply (C86_eigen_lattice fits as_int Hint T n _ (-1) HT)|]. intros K (k & g & HK & Bg).
  eapply gives_bind; [eapply gives_mono_err; [|apply (mat_mod2_ok dim K n k g HK Hn)]; intros e []|]. intros B (RB & MB & EB).
  eapply gives_conv; [| |apply (ss_of_matrix_ok dim B)]; [|intros e []|rewrite RB; exact Hn|unfold ncols; rewrite RB, (proj1 MB); exact MB].
  intros s Hs. rewrite RB in Hs. apply (represents_ext n _ _ _) with (2 := Hs). intros v.
  rewrite (span_mod2 n k (cols B) g v MB EB). split.
  - intros (c & H). exists (fapply k g c). split; [|exact H]. destruct (proj1 Bg (fapply k g c)) as (_ & G). unfold eigen. exact (G (ex_intro _ c (fun i Hi => eq_refl))).
  - intros (x & X & H). destruct (proj1 (proj1 Bg x) X) as (c & Hc). exists c. apply (mod2_same n x); [exact Hc|exact H].
Qed.

(** *** conjugation *)
Section Conj.
Variables (n : nat) (S th : nat -> nat -> Z).
Hypothesis S2 : feq n n (fmul n S S) delta.
Notation T f := (fun i j => f j i).
Lemma transpose_mul (f h : nat -> nat -> Z) i j : fmul n (T f) (T h) i j = fmul n h f j i.
Proof. unfold fmul. apply zsum_ext. intros k Hk. ring. Qed.
Lemma conj_transposed x i : (i < n)%nat -> fapply n (T (conjugate n S th)) x i = fapply n (T S) (fapply n (T th) (fapply n (T S) x)) i.
Proof.
  intros Hi. rewrite !fapply_fapply. unfold conjugate. apply fapply_mat. intros j Hj.
  rewrite <- (transpose_mul S (fmul n S th)). rewrite fmul_assoc. apply zsum_ext. intros k Hk. cbn beta. rewrite <- (transpose_mul th S). reflexivity.
Qed.
Lemma T_two x i : (i < n)%nat -> fapply n (T S) (fapply n (T S) x) i = x i.
Proof. intros Hi. rewrite fapply_fapply, (fapply_mat n _ delta); [apply fapply_delta; exact Hi|]. intros j Hj. rewrite (transpose_mul S S). rewrite (S2 j i Hj Hi). unfold delta. destruct (Nat.eqb_spec j i), (Nat.eqb_spec i j); lia. Qed.
Lemma conj_eigen x s : eigen n (T th) s x -> eigen n (T (conjugate n S th)) s (fapply n (T S) x).
Proof.
  intros E i Hi. rewrite conj_transposed by exact Hi.
  rewrite (fapply_ext n (T S) _ (fun j => s * x j)); [apply fapply_scale|]. intros j Hj. rewrite (fapply_ext n (T th) _ x); [apply E; exact Hj|]. intros l Hl. apply T_two; exact Hl.
Qed.
Lemma eigen_conj x s : eigen n (T (conjugate n S th)) s x -> eigen n (T th) s (fapply n (T S) x).
Proof.
  intros E i Hi. rewrite <- fapply_scale.
  rewrite <- (T_two (fapply n (T th) (fapply n (T S) x)) i Hi). apply fapply_ext. intros j Hj. rewrite <- conj_transposed by exact Hj. apply E; exact Hj.
Qed.
Lemma conj_eigen2 (B : bm) s v : is_matrix n n (cols B) -> (forall i j, (i < n)%nat -> (j < n)%nat -> entry (cols B) i j = Z.odd (S j i)) ->
  (direct_image (cols B) (eigen2 n (T th) s) v <-> eigen2 n (T (conjugate n S th)) s v).
Proof.
  intros MB EB. split.
  - intros (w & (x & X & W) & <-). exists (fapply n (T S) x). split; [apply conj_eigen; exact X|]. apply (image_mod2 n n B (T S) x w MB EB W).
  - intros (x & X & V). pose proof (image_mod2 n n B (T S) x v MB EB V) as W. set (w := F2Spec.image_of (cols B) v) in W. exists w. split; [exists (fapply n (T S) x); split; [apply eigen_conj; exact X|exact W]|].
    apply (mod2_unique n x); [|exact V]. apply (mod2_same n (fapply n (T S) (fapply n (T S) x))); [intros i Hi; apply T_two; exact Hi|]. apply (image_mod2 n n B (T S) _ w MB EB W).
Qed.
End Conj.

Section Datum.
Variable fits : Z -> bool.
Variables (r n : nat) (A B : nat -> nat -> Z) (p : predatum) (d : datum).
Notation al := (fcol r A).
Notation be := (fcol r B).
Notation E := (overflows fits).
Hypothesis K : datum_ok r n A B p d.
Lemma torus_reflection_run dim i : (r <= dim)%nat -> (i < n)%nat ->
  gives (torus_reflection dim fits d i) (fun M => rows M = r%nat /\ F2Spec.is_matrix r r (cols M) /\ forall a b, (a < r)%nat -> (b < r)%nat -> entry (cols M) a b = Z.odd (rmatrix (al i) (be i) b a)) E.
Proof.
  intros Hr Hi. unfold torus_reflection. rewrite (k_rank _ _ _ _ _ _ K).
  destruct (k_simple r n A B p d K i Hi) as (Q1 & Q2 & Q3).
  eapply gives_bind; [apply (id_run fits r)|]. intros M0 HM0.
  eapply gives_bind; [apply (d_left_run fits r n A B p d K (d_simple d i) _ r _ Q1 HM0)|]. intros M1 HM1.
  rewrite Q2, Q3, !comb_basis in HM1 by (auto using fcol_length).
  eapply gives_bind; [apply (transposed_ok 0 M1 r r _ HM1)|]. intros T HT.
  eapply gives_conv; [| |apply (mat_mod2_ok dim T r r _ HT Hr)]; [|intros e []]. intros M (R1 & R2 & R3). split; [exact R1|]. split; [exact R2|].
  intros a b Ha Hb. rewrite R3 by assumption. f_equal. unfold fmul. apply zsum_delta_r. exact Ha.
Qed.
Lemma cross_space_run dim i th V : (r <= dim)%nat -> (i < n)%nat -> represents r (eigen2 r (fun a b => th b a) (-1)) V ->
  gives (cross_space dim fits d i V) (represents r (eigen2 r (fun a b => conjugate r (rmatrix (al i) (be i)) th b a) (-1))) E.
Proof.
  intros Hr Hi HV. unfold cross_space.
  eapply gives_bind; [apply (torus_reflection_run dim i Hr Hi)|]. intros M (R1 & R2 & R3).
  assert (NM : ncols M = r) by (unfold ncols; apply R2).
  eapply gives_conv; [| |apply (C67_apply dim r _ V M Hr HV)]; [|intros e []|rewrite R1; exact Hr|exact NM|rewrite R1, NM; exact R2].
  intros s Hs. rewrite R1 in Hs. apply (represents_ext r _ _ _) with (2 := Hs). intros v.
  apply (conj_eigen2 r (rmatrix (al i) (be i)) th (rmatrix_two r n A B p d K i Hi) M (-1) v R2 R3).
Qed.
End Datum.
