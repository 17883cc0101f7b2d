(** Change of basis and dual component groups: proofs. *)

From Coq Require Import List Arith NArith ZArith Bool Lia.
From Verif Require LieTypeInv RedSystem.
From Verif Require Import DatSub.
From Verif Require Import RedModel LatModel RedSpec LatSpec.
From Verif Require Import F2Model F2Spec F2Basics F2Proofs F2Ops F2Kernel F2Props SubqModel SubqSpec SubqProofs SubqQuot SubqProps.
From Verif Require Import VecModel RunModel RunProofs MatModel MatSpec MatDet MatLin MatRing MatProofs MatOps MatOps2 MatArith MatDiv RedInverse RedProps LatProofs LatProps RatVecModel RatVecSpec RatVecProofs ToriModel ToriSpec ToriLat ToriProofs ToriProps.
From Verif Require Import RootSpec RootMath DatModel DatSpec DatMath DatProofs DatOps DatProps PiModel PiSpec.
Import ListNotations.
Open Scope nat_scope.

Section Basis.
Variables (fits : Z -> bool) (as_int : Z -> Z).
Hypothesis INT : forall z, as_int z = z.
Lemma mul_run M N m n p f g : is_mx M m n f -> is_mx N n p g -> gives (mat_mul (zarith fits) M N) (fun P => is_mx P m p (fmul n f g)) (overflows fits).
Proof. intros HM HN. exact (mat_mul_ok (zarith fits) _ _ _ _ (MatProps.C58_integers fits) M N m n p f g HM HN). Qed.
Lemma on_basis_run M b n f g : is_mx M n n f -> is_mx b n n g ->
  gives (on_basis fits as_int M b) (fun N => exists h, is_mx N n n h /\ det n g <> 0%Z /\ feq n n (fmul n g h) (fmul n f g))
    (fun e => e = Thrown /\ (det n g = 0%Z \/ (exists d, least_denominator n g d /\ (2147483648 <= d)%Z) \/ ~ exists h, feq n n (fmul n g h) (fmul n f g)) \/ overflows fits e).
Proof.
  intros HM Hb. unfold on_basis. eapply gives_bind; [eapply gives_mono_err; [|apply (C48_inverse fits as_int INT b n g Hb)]|].
  { intros e [(-> & D)|O]; [left; auto|right; exact O]. }
  intros [inv d] (k & Hk & HD).
  eapply gives_bind; [eapply gives_mono_err; [|apply (mul_run inv M n n n k f Hk HM)]; right; exact H|]. intros P HP.
  eapply gives_bind; [eapply gives_mono_err; [|apply (mul_run P b n n n _ g HP Hb)]; right; exact H|]. intros P' HP'.
  destruct HD as [(-> & D0)|(D0 & LD & I1 & I2)].
  { cbn. left. auto. }
  unfold int_val. destruct (_ && _)%bool eqn:Er; cbn [bind gives].
  2:{ left. split; [reflexivity|]. right. left. exists d. split; [exact LD|]. destruct LD as (Dp & _). apply andb_false_iff in Er as [Er|Er]; [apply Z.leb_gt in Er; lia|apply Z.ltb_ge in Er; lia]. }
  assert (DP : (0 < d)%Z) by apply LD.
  assert (CAN : forall h, feq n n (fmul n g h) (fmul n f g) <-> feq n n (fmul n (fmul n k f) g) (fun i j => d * h i j)%Z).
  { intros h. split; intros E i j Hi Hj.
    - rewrite fmul_assoc. rewrite (fmul_ext_col n k _ (fmul n g h)) by (intros a Ha; symmetry; now apply E). rewrite <- fmul_assoc.
      rewrite (fmul_ext_row n _ (fun i j => d * delta i j)%Z) by (intros a Ha; now apply I2). apply fmul_scalar_l. exact Hi.
    - apply (Z.mul_cancel_l _ _ d); [lia|].
      transitivity (fmul n g (fun i j => d * h i j)%Z i j).
      { unfold fmul. rewrite <- zsum_mul_l. apply zsum_ext. intros; ring. }
      rewrite (fmul_ext_col n g _ (fmul n (fmul n k f) g)) by (intros a Ha; symmetry; now apply E).
      rewrite (fmul_ext_col n g _ (fmul n k (fmul n f g))) by (intros a Ha; apply fmul_assoc).
      rewrite <- fmul_assoc. rewrite (fmul_ext_row n _ (fun i j => d * delta i j)%Z) by (intros a Ha; now apply I1). apply fmul_scalar_l. exact Hi. }
  eapply gives_conv; [| |apply (MatProps.C59_matrix_division fits P' n n _ d HP')].
  - intros N (_ & h & HN & E). exists h. split; [exact HN|]. split; [exact D0|]. now apply CAN.
  - intros e [(-> & [->|(i & j & Hi & Hj & ND)])|O]; [lia| |right; exact O]. left. split; [reflexivity|]. right. right. intros (h & Eh). apply ND. exists (h i j).
    rewrite (proj1 (CAN h) Eh i j Hi Hj). ring.
Qed.
End Basis.

(** finitely many choices *)
Lemma choose {X} (Pr : nat -> X -> Prop) (x0 : X) k : (forall j, j < k -> exists x, Pr j x) -> exists f, forall j, j < k -> Pr j (f j).
Proof.
  induction k as [|k IH]; intros H; [exists (fun _ => x0); lia|]. destruct IH as (f & Hf); [intros; apply H; lia|]. destruct (H k ltac:(lia)) as (x & Hx).
  exists (fun j => if j =? k then x else f j). intros j Hj. destruct (Nat.eqb_spec j k) as [->|]; [exact Hx|]. apply Hf. lia.
Qed.
Lemma zsum_exchange m n (F : nat -> nat -> Z) : zsum m (fun i => zsum n (fun j => F i j)) = zsum n (fun j => zsum m (fun i => F i j)).
Proof.
  induction m as [|m IH].
  - symmetry. apply zsum_zero. reflexivity.
  - change (zsum (S m) (fun i => zsum n (fun j => F i j))) with (zsum m (fun i => zsum n (fun j => F i j)) + zsum n (fun j => F m j))%Z.
    rewrite IH, <- zsum_add. reflexivity.
Qed.

Section Lattice.
Variables (r n k : nat) (A B w g c a : nat -> nat -> Z).
Notation P := (fun i j => zsum r (fun t => A t i * B t j)%Z).
Hypothesis HP : det n P <> 0%Z.
Hypothesis Hw : LatSpec.basis_of r k w (orthogonal r n A).
Hypothesis HB : on_coroots r n B g c.
Hypothesis HA : forall i j, i < r -> j < n -> zsum r (fun t => g i t * A t j)%Z = zsum n (fun t => A i t * a t j)%Z.
Definition full (i j : nat) : Z := if j <? n then B i j else w i (j - n).
Lemma full_sum x i : fapply (n + k) full x i = (fapply n B x i + fapply k w (fun j => x (n + j)%nat) i)%Z.
Proof.
  unfold fapply. rewrite zsum_split. f_equal; apply zsum_ext; intros j Hj; unfold full.
  - now rewrite (proj2 (Nat.ltb_lt _ _) Hj).
  - rewrite (proj2 (Nat.ltb_ge _ _)) by lia. now replace (n + j - n) with j by lia.
Qed.
Lemma w_orth j s : j < k -> s < n -> zsum r (fun t => A t s * w t j)%Z = 0%Z.
Proof.
  intros Hj Hs. assert (O : orthogonal r n A (fun t => w t j)).
  { apply Hw. exists (fun t => delta t j). intros i Hi. unfold fapply. rewrite (zsum_one k j); [unfold delta; rewrite Nat.eqb_refl; ring|exact Hj|].
    intros t Ht N. unfold delta. rewrite (proj2 (Nat.eqb_neq _ _) N). ring. }
  rewrite <- (O s Hs). unfold frow. apply zsum_ext. intros; ring.
Qed.
Lemma P_zero x : (forall s, s < n -> fapply n P x s = 0%Z) -> forall j, j < n -> x j = 0%Z.
Proof.
  intros E j Hj. destruct (adjugate n P) as (h & _ & H2). assert (Q : fapply n h (fapply n P x) j = 0%Z).
  { unfold fapply at 1. apply zsum_zero. intros i Hi. rewrite (E i Hi). ring. }
  rewrite RedSystem.fapply_fmul in Q. assert (Q' : fapply n (fmul n h P) x j = (det n P * x j)%Z).
  { unfold fapply. rewrite (zsum_one n j); [|exact Hj|].
    - rewrite H2 by assumption. unfold delta. rewrite Nat.eqb_refl. ring.
    - intros i Hi N. rewrite H2 by assumption. unfold delta. rewrite (proj2 (Nat.eqb_neq _ _)) by congruence. ring. }
  rewrite Q' in Q. apply Z.mul_eq_0 in Q as [Q|Q]; [contradiction|exact Q].
Qed.
(** pairing of a combination with a root *)
Lemma pair_B x s : s < n -> zsum r (fun t => A t s * fapply n B x t)%Z = fapply n P x s.
Proof.
  intros Hs. unfold fapply. rewrite (zsum_ext r _ (fun t => zsum n (fun j => A t s * B t j * x j)%Z)) by (intros t Ht; rewrite <- zsum_mul_l; apply zsum_ext; intros; ring).
  rewrite zsum_exchange. apply zsum_ext. intros j Hj. rewrite <- zsum_mul_r. apply zsum_ext. intros; ring.
Qed.
Lemma pair_w x s : s < n -> zsum r (fun t => A t s * fapply k w x t)%Z = 0%Z.
Proof.
  intros Hs. unfold fapply. rewrite (zsum_ext r _ (fun t => zsum k (fun j => A t s * w t j * x j)%Z)) by (intros t Ht; rewrite <- zsum_mul_l; apply zsum_ext; intros; ring).
  rewrite zsum_exchange. apply zsum_zero. intros j Hj. rewrite zsum_mul_r, w_orth by assumption. ring.
Qed.
Lemma full_independent : DatSub.independent r (n + k) full.
Proof.
  intros x E. assert (X1 : forall j, j < n -> x j = 0%Z).
  { apply P_zero. intros s Hs. rewrite <- (pair_B x s Hs). rewrite <- (zsum_zero r (fun _ => 0%Z)) by reflexivity.
    transitivity (zsum r (fun t => A t s * fapply n B x t)%Z + zsum r (fun t => A t s * fapply k w (fun j => x (n + j)%nat) t)%Z)%Z; [rewrite pair_w by exact Hs; ring|].
    rewrite <- zsum_add. apply zsum_ext. intros t Ht. specialize (E t Ht). rewrite full_sum in E. rewrite <- Z.mul_add_distr_l, E. ring. }
  assert (X2 : forall j, j < k -> x (n + j)%nat = 0%Z).
  { apply (proj2 Hw (fun j => x (n + j)%nat)). intros i Hi. specialize (E i Hi). rewrite full_sum in E. replace (fapply n B x i) with 0%Z in E; [exact E|].
    symmetry. apply zsum_zero. intros j Hj. rewrite (X1 j Hj). ring. }
  intros j Hj. destruct (Nat.lt_ge_cases j n) as [L|L]; [now apply X1|]. replace j with (n + (j - n)) by lia. apply X2. lia.
Qed.
Lemma full_size : r = n + k.
Proof.
  pose proof (DatSub.independent_wide r (n + k) full full_independent) as U. destruct (Nat.eq_dec r (n + k)) as [E|E]; [exact E|exfalso].
  destruct (DatSub.wide_kernel (n + k) r (fun j i => full i j)) as (x & (t & Ht & Nz) & E0); [lia|]. apply Nz.
  destruct (adjugate n P) as (h & H1 & _).
  set (y := fun i => delta i t). set (u := fapply n h (fun s => zsum r (fun i => A i s * y i)%Z)).
  assert (O : orthogonal r n A (fun i => det n P * y i - fapply n B u i)%Z).
  { intros s Hs. unfold frow. rewrite (zsum_ext r _ (fun i => det n P * (A i s * y i) + (-1) * (A i s * fapply n B u i))%Z) by (intros; ring).
    rewrite zsum_add, !zsum_mul_l, pair_B by exact Hs. unfold u. rewrite RedSystem.fapply_fmul.
    replace (fapply n (fmul n P h) _ s) with (det n P * zsum r (fun i => A i s * y i))%Z; [ring|]. unfold fapply. rewrite (zsum_one n s); [|exact Hs|].
    - rewrite H1 by assumption. unfold delta. rewrite Nat.eqb_refl. ring.
    - intros i Hi N. rewrite H1 by assumption. unfold delta at 1. rewrite (proj2 (Nat.eqb_neq _ _)) by congruence. ring. }
  apply Hw in O as (v & Ev). cbv beta in Ev.
  assert (EX : (det n P * x t = 0)%Z); [|apply Z.mul_eq_0 in EX as [X|X]; [contradiction|exact X]].
  assert (SX : forall q j, (forall i, i < r -> q i = full i j) -> j < n + k -> zsum r (fun i => q i * x i)%Z = 0%Z).
  { intros q j Eq Hj. rewrite <- (E0 j Hj). unfold fapply. apply zsum_ext. intros i Hi. now rewrite Eq. }
  transitivity (zsum r (fun i => (det n P * y i) * x i)%Z).
  { rewrite (zsum_one r t); [unfold y, delta; rewrite Nat.eqb_refl; ring|exact Ht|]. intros i Hi N. unfold y, delta. rewrite (proj2 (Nat.eqb_neq _ _) N). ring. }
  rewrite (zsum_ext r _ (fun i => fapply n B u i * x i + fapply k w v i * x i)%Z) by (intros i Hi; rewrite <- (Ev i Hi); ring). rewrite zsum_add.
  assert (G : forall m (F : nat -> nat -> Z) z, (forall j, j < m -> zsum r (fun i => F i j * x i)%Z = 0%Z) -> zsum r (fun i => fapply m F z i * x i)%Z = 0%Z).
  { intros m F z HF. unfold fapply. rewrite (zsum_ext r _ (fun i => zsum m (fun j => F i j * x i * z j)%Z)) by (intros i Hi; rewrite <- zsum_mul_r; apply zsum_ext; intros; ring).
    rewrite zsum_exchange. apply zsum_zero. intros j Hj. rewrite zsum_mul_r, (HF j Hj). ring. }
  rewrite !G; [reflexivity| |].
  - intros j Hj. apply (SX _ (n + j)); [|lia]. intros i Hi. unfold full. rewrite (proj2 (Nat.ltb_ge _ _)) by lia. now replace (n + j - n) with j by lia.
  - intros j Hj. apply (SX _ j); [|lia]. intros i Hi. unfold full. now rewrite (proj2 (Nat.ltb_lt _ _) Hj).
Qed.
Lemma full_cancel X Y : feq r r (fmul r full X) (fmul r full Y) -> feq r r X Y.
Proof.
  intros E i j Hi Hj. pose proof full_size as SZ. pose proof full_independent as I0. rewrite <- SZ in I0.
  enough (X i j - Y i j = 0)%Z by lia. apply (I0 (fun t => X t j - Y t j)%Z); [|exact Hi]. intros s Hs. specialize (E s j Hs Hj). unfold fmul in E. unfold fapply.
  rewrite (zsum_ext r _ (fun t => full s t * X t j + (-1) * (full s t * Y t j))%Z) by (intros; ring). rewrite zsum_add, zsum_mul_l, E. ring.
Qed.
Lemma full_det : det r full <> 0%Z.
Proof. pose proof full_size as SZ. pose proof full_independent as I0. rewrite <- SZ in I0. now apply DatSub.independent_det. Qed.
(** the involution on the basis: two diagonal blocks *)
Lemma full_stable : exists h, feq r r (fmul r full h) (fmul r (fun i j => g j i) full) /\ (forall i j, i < n -> j < n -> h i j = c i j) /\
  (forall i j, i < n -> n <= j < r -> h i j = 0%Z) /\ (forall i j, n <= i < r -> j < n -> h i j = 0%Z).
Proof.
  pose proof full_size as SZ.
  destruct (choose (fun j x => forall i, i < r -> zsum r (fun t => g t i * w t j)%Z = fapply k w x i) (fun _ => 0%Z) k) as (c' & Hc').
  { intros j Hj. apply Hw. intros s Hs. unfold frow.
    rewrite (zsum_ext r _ (fun i => zsum r (fun t => w t j * (g t i * A i s))%Z)) by (intros i Hi; rewrite <- zsum_mul_r; apply zsum_ext; intros; ring).
    rewrite zsum_exchange. rewrite (zsum_ext r _ (fun t => zsum n (fun m => A t m * w t j * a m s)%Z)).
    - rewrite zsum_exchange. apply zsum_zero. intros m Hm. rewrite zsum_mul_r, w_orth by assumption. ring.
    - intros t Ht. rewrite zsum_mul_l, (HA t s Ht Hs), <- zsum_mul_l. apply zsum_ext. intros; ring. }
  exists (fun i j => if i <? n then if j <? n then c i j else 0%Z else if j <? n then 0%Z else c' (j - n) (i - n)). split; [|split; [|split]].
  - intros i j Hi Hj. unfold fmul. rewrite SZ at 1. rewrite zsum_split. destruct (Nat.ltb_spec j n) as [L|L].
    + rewrite (zsum_ext n _ (fun t => B i t * c t j)%Z) by (intros t Ht; unfold full; rewrite (proj2 (Nat.ltb_lt _ _) Ht); reflexivity).
      rewrite (zsum_zero k) by (intros t Ht; rewrite (proj2 (Nat.ltb_ge (n + t) n)) by lia; ring).
      rewrite Z.add_0_r, <- (HB i j Hi L). apply zsum_ext. intros t Ht. unfold full. now rewrite (proj2 (Nat.ltb_lt _ _) L).
    + rewrite (zsum_zero n) by (intros t Ht; rewrite (proj2 (Nat.ltb_lt _ _) Ht); ring).
      rewrite (zsum_ext k _ (fun t => w i t * c' (j - n)%nat t)%Z) by (intros t Ht; unfold full; rewrite (proj2 (Nat.ltb_ge (n + t) n)) by lia; now replace (n + t - n) with t by lia).
      rewrite Z.add_0_l. change (zsum k (fun t => w i t * c' (j - n)%nat t)%Z) with (fapply k w (c' (j - n)) i). rewrite <- (Hc' (j - n) ltac:(lia) i Hi). apply zsum_ext. intros t Ht. unfold full. now rewrite (proj2 (Nat.ltb_ge _ _) L).
  - intros i j Hi Hj. now rewrite (proj2 (Nat.ltb_lt _ _) Hi), (proj2 (Nat.ltb_lt _ _) Hj).
  - intros i j Hi Hj. now rewrite (proj2 (Nat.ltb_lt _ _) Hi), (proj2 (Nat.ltb_ge _ _) (proj1 Hj)).
  - intros i j Hi Hj. now rewrite (proj2 (Nat.ltb_ge _ _) (proj1 Hi)), (proj2 (Nat.ltb_lt _ _) Hj).
Qed.
End Lattice.

Lemma toBasis_zero dim m V W q v x : m <= dim -> represents_quotient m V W q -> sized m v -> V (data v) -> sq_toBasis dim q v = Ok x -> (data x = 0%N <-> W (data v)).
Proof.
  intros Hm R Sv Hv E. pose proof (sq_toBasis_ok dim m V W q Hm R v Sv Hv) as G. rewrite E in G. destruct G as [Sx G]. split.
  - intros X. rewrite X, lincomb_0, N.lxor_0_r in G by (intros; apply coord_0). exact G.
  - intros HW. pose proof (sq_toBasis_unique dim m V W q Hm R v (mk_bv 0 (sq_dimension q)) Sv Hv) as U. rewrite E in U.
    assert (U' : Ok x = Ok (mk_bv 0 (sq_dimension q))).
    { apply U; [split; [intros i _; apply coord_0|reflexivity]|]. cbn [data]. rewrite lincomb_0, N.lxor_0_r by (intros; apply coord_0). exact HW. }
    injection U' as ->. reflexivity.
Qed.

Section Run.
Variables (dim : nat) (fits : Z -> bool) (as_int : Z -> Z).
Hypothesis INT : forall z, as_int z = z.
Variables (r n : nat) (A B : nat -> nat -> Z) (p : predatum) (d : datum) (radical : list (list Z)) (w : nat -> nat -> Z) (th : matrix Z) (g c a : nat -> nat -> Z).
Hypothesis Hd : datum_ok r n A B p d.
Hypothesis HP : det n (fun i j => zsum r (fun t => A t i * B t j)%Z) <> 0%Z.
Hypothesis Cw : forall j, j < length radical -> exists x, get radical j = Some x /\ is_vec x r (fun i => w i j).
Hypothesis Hw : LatSpec.basis_of r (length radical) w (orthogonal r n A).
Hypothesis HM : is_mx th r r g.
Hypothesis Inv : is_involution r g.
Hypothesis HB : on_coroots r n B g c.
Hypothesis HA : forall i j, i < r -> j < n -> zsum r (fun t => g i t * A t j)%Z = zsum n (fun t => A i t * a t j)%Z.
Hypothesis Rd : r <= dim.
Notation k := (length radical).
Notation F := (full n B w).
Notation SZ := (full_size r n k A B w HP Hw).
Lemma basis_run : gives (run basis <- upto (d_ssrank d) 0 (fun j basis => run c <- d_coroot d (d_simple d j); set_column basis j c) (mat_fill (d_rank d) (d_rank d) 0%Z);
    upto (length radical) 0 (fun i basis => run v <- vget radical i; set_column basis (d_ssrank d + i) v) basis) (fun M => is_mx M r r F) sure.
Proof.
  pose proof SZ as S0. assert (E1 : d_ssrank d = n) by apply (k_ss r n A B p d Hd). assert (E2 : d_rank d = r) by apply Hd. rewrite E1, E2.
  eapply gives_bind.
  - apply (gives_upto0 (fun t M => is_mx M r r (fun i j => if j <? t then B i j else 0%Z))) with (Q := fun M => is_mx M r r (fun i j => if j <? n then B i j else 0%Z)).
    + apply (is_mx_ext _ _ _ (fun _ _ => 0%Z)); [apply MatProofs.fill_ok|]. intros i j Hi Hj; reflexivity.
    + intros j M Hj HMx. destruct (d_simple_run r n A B p d Hd j Hj) as [_ ->]. cbn [bind].
      assert (VF : is_vec (fcol r B j) r (fun t => B t j)) by (split; [apply fcol_length|]; intros t Ht; unfold get; rewrite (nth_error_nth' _ 0%Z) by (rewrite fcol_length; exact Ht); f_equal; now apply co_fcol).
      eapply gives_mono; [apply (set_column_ok M r r _ j _ _ HMx ltac:(lia) VF)|]. intros M' HM'. eapply is_mx_ext; [exact HM'|]. intros x y Hx Hy. cbn beta.
      destruct (Nat.eqb_spec y j), (Nat.ltb_spec y (S j)), (Nat.ltb_spec y j); subst; try reflexivity; lia.
    + auto.
  - intros M0 HM0. apply (gives_upto0 (fun t M => is_mx M r r (fun i j => if j <? n + t then F i j else 0%Z))).
    + eapply is_mx_ext; [exact HM0|]. intros x y Hx Hy. cbn beta. rewrite Nat.add_0_r. unfold full. destruct (y <? n); reflexivity.
    + intros j M Hj HMx. destruct (Cw j Hj) as (x & Ex & Vx). unfold vget. rewrite Ex. cbn [bind].
      eapply gives_mono; [apply (set_column_ok M r r _ (n + j) _ _ HMx ltac:(lia) Vx)|]. intros M' HM'. eapply is_mx_ext; [exact HM'|]. intros s y Hs Hy. cbn beta.
      destruct (Nat.eqb_spec y (n + j)) as [->|N].
      * rewrite (proj2 (Nat.ltb_lt (n + j) (n + S j))) by lia. unfold full. rewrite (proj2 (Nat.ltb_ge _ _)) by lia. now replace (n + j - n) with j by lia.
      * destruct (Nat.ltb_spec y (n + j)), (Nat.ltb_spec y (n + S j)); try reflexivity; lia.
    + intros M HMx. eapply is_mx_ext; [exact HMx|]. intros s y Hs Hy. cbn beta. rewrite (proj2 (Nat.ltb_lt _ _)) by lia. reflexivity.
Qed.
(** the map to the derived group, followed by zeros *)
Definition proj (i j : nat) : Z := if i <? n then B j i else 0%Z.
Lemma clear_run M : is_mx M r r F -> gives (run b <- upto (d_rank d - d_ssrank d) (d_ssrank d) (fun j basis => set_column basis j (repeat 0%Z (d_rank d))) M; transposed 0%Z b)
  (fun N => is_mx N r r proj) sure.
Proof.
  intros HMx. pose proof SZ as S0. assert (E1 : d_ssrank d = n) by apply (k_ss r n A B p d Hd). assert (E2 : d_rank d = r) by apply Hd. rewrite E1, E2.
  eapply gives_bind; [apply (gives_upto (fun t M => is_mx M r r (fun i j => if j <? n then B i j else if j <? t then 0%Z else F i j)))|].
  - eapply is_mx_ext; [exact HMx|]. intros x y Hx Hy. cbn beta. unfold full. destruct (y <? n); reflexivity.
  - intros j M' Hj HM'. assert (Vz : is_vec (repeat 0%Z r) r (fun _ => 0%Z)) by (split; [apply repeat_length|]; intros t Ht; unfold get; now apply nth_error_repeat).
    eapply gives_mono; [apply (set_column_ok M' r r _ j _ _ HM' ltac:(lia) Vz)|]. intros M2 HM2. eapply is_mx_ext; [exact HM2|]. intros x y Hx Hy. cbn beta.
    destruct (Nat.eqb_spec y j) as [->|N]; [rewrite (proj2 (Nat.ltb_ge _ _)) by lia; rewrite (proj2 (Nat.ltb_lt j (S j))) by lia; reflexivity|].
    destruct (y <? n); [reflexivity|]. destruct (Nat.ltb_spec y j), (Nat.ltb_spec y (S j)); try reflexivity; lia.
  - intros b Hb. eapply gives_mono; [apply (transposed_ok 0%Z b r r _ Hb)|]. intros N HN. eapply is_mx_ext; [exact HN|]. intros x y Hx Hy. cbn beta. unfold proj.
    destruct (x <? n); [reflexivity|]. rewrite (proj2 (Nat.ltb_lt _ _)) by lia. reflexivity.
Qed.
Section Cover.
(** the involution of the cover *)
Variable h : nat -> nat -> Z.
Hypothesis Hh : feq r r (fmul r F h) (fmul r (fun i j => g j i) F).
Notation hT := (fun i j => h j i).
Lemma cover_blocks : (forall i j, i < n -> j < n -> h i j = c i j) /\ (forall i j, i < n -> n <= j < r -> h i j = 0%Z) /\ (forall i j, n <= i < r -> j < n -> h i j = 0%Z).
Proof.
  pose proof SZ as S0. destruct (full_stable r n k A B w g c a HP Hw HB HA) as (h0 & E0 & C1 & C2 & C3).
  assert (EQ : feq r r h h0) by (apply (full_cancel r n k A B w HP Hw); intros i j Hi Hj; rewrite (Hh i j Hi Hj); symmetry; now apply E0).
  split; [|split]; intros i j Hi Hj; rewrite EQ by lia; auto.
Qed.
Lemma cover_involution : is_involution r hT.
Proof.
  assert (E : feq r r (fmul r h h) delta).
  { apply (full_cancel r n k A B w HP Hw). intros i j Hi Hj. set (gT := fun i j => g j i) in *. rewrite <- fmul_assoc.
    rewrite (fmul_ext_row r (fmul r F h) (fmul r gT F) h i j) by (intros t Ht; now apply Hh).
    rewrite fmul_assoc. rewrite (fmul_ext_col r gT (fmul r F h) (fmul r gT F) i j) by (intros t Ht; now apply Hh).
    rewrite <- fmul_assoc. rewrite (fmul_ext_row r (fmul r gT gT) delta F i j).
    - transitivity (F i j); [apply fmul_id_l; exact Hi|symmetry; apply fmul_id_r; exact Hj].
    - intros t Ht. transitivity (fmul r g g t i); [unfold fmul, gT; apply zsum_ext; intros; ring|]. rewrite (Inv t i Ht Hi). unfold delta. now rewrite Nat.eqb_sym. }
  intros i j Hi Hj. transitivity (fmul r h h j i); [unfold fmul; apply zsum_ext; intros; ring|]. rewrite (E j i Hj Hi). unfold delta. now rewrite Nat.eqb_sym.
Qed.
Lemma proj_value x i : i < n -> fapply r proj x i = zsum r (fun t => x t * B t i)%Z.
Proof. intros Hi. unfold fapply, proj. rewrite (proj2 (Nat.ltb_lt _ _) Hi). apply zsum_ext. intros; ring. Qed.
Lemma proj_above x i : n <= i -> fapply r proj x i = 0%Z.
Proof. intros Hi. unfold fapply, proj. rewrite (proj2 (Nat.ltb_ge _ _) Hi). apply zsum_zero. intros; ring. Qed.
Lemma cover_low y i : i < n -> fapply r hT y i = zsum n (fun t => c t i * y t)%Z.
Proof.
  pose proof SZ as S0. destruct cover_blocks as (C1 & C2 & C3). intros Hi. unfold fapply. rewrite S0 at 1. rewrite zsum_split, (zsum_zero k) by (intros t Ht; rewrite C3 by lia; ring).
  rewrite Z.add_0_r. apply zsum_ext. intros t Ht. now rewrite C1.
Qed.
Lemma cover_high y i : (forall t, n <= t < r -> y t = 0%Z) -> n <= i < r -> fapply r hT y i = 0%Z.
Proof.
  destruct cover_blocks as (C1 & C2 & C3). intros Hy Hi. unfold fapply. apply zsum_zero. intros t Ht. destruct (Nat.lt_ge_cases t n) as [L|L]; [rewrite C2 by lia; ring|rewrite Hy by lia; ring].
Qed.
Lemma proj_commutes x i : i < r -> fapply r hT (fapply r proj x) i = fapply r proj (fapply r g x) i.
Proof.
  intros Hi. destruct (Nat.lt_ge_cases i n) as [L|L].
  - rewrite cover_low, proj_value by exact L. rewrite (zsum_ext n _ (fun t => zsum r (fun s => B s t * c t i * x s)%Z)).
    + rewrite zsum_exchange. rewrite (zsum_ext r _ (fun s => zsum r (fun u => x s * (g u s * B u i))%Z)).
      * rewrite zsum_exchange. apply zsum_ext. intros u Hu. unfold fapply. rewrite <- zsum_mul_r. apply zsum_ext. intros; ring.
      * intros s Hs. rewrite zsum_mul_r, zsum_mul_l, <- (HB s i Hs L). ring.
    + intros t Ht. rewrite proj_value by exact Ht. rewrite <- zsum_mul_l. apply zsum_ext. intros; ring.
  - rewrite proj_above by exact L. apply cover_high; [|lia]. intros t Ht. apply proj_above. lia.
Qed.
Lemma proj_eigen s x : eigen r g s x -> eigen r hT s (fapply r proj x).
Proof.
  intros E i Hi. rewrite proj_commutes by exact Hi. rewrite (ToriLat.fapply_ext r proj _ (fun t => s * x t)%Z) by (intros t Ht; now apply E). apply ToriLat.fapply_scale.
Qed.
Variable B0 : list N.
Hypothesis MB : is_matrix r r B0.
Hypothesis EB : forall i j, i < r -> j < r -> entry B0 i j = Z.odd (proj i j).
Lemma proj_image x v : mod2 r x v -> mod2 r (fapply r proj x) (image_of B0 v).
Proof.
  intros (W & C). pose proof (lincomb_mod2 r r B0 proj x MB EB) as H. unfold image_of.
  rewrite (lincomb_ext (coord v) (fun j => Z.odd (x j))); [exact H|]. intros j Hj. apply C. rewrite (proj1 MB) in Hj. exact Hj.
Qed.
Lemma proj_sum v : eigen2_sum r g v -> eigen2_sum r hT (image_of B0 v).
Proof.
  intros (x & y & Ex & Ey & M). exists (fapply r proj x), (fapply r proj y). split; [now apply proj_eigen|]. split; [now apply proj_eigen|].
  eapply mod2_same; [|apply proj_image; exact M]. intros i Hi. apply ToriLat.fapply_add.
Qed.
Lemma proj_plus v : eigen2 r g 1 v -> eigen2 r hT 1 (image_of B0 v).
Proof. intros (x & Ex & M). exists (fapply r proj x). split; [now apply proj_eigen|now apply proj_image]. Qed.
(** which classes become trivial *)
Lemma proj_trivial x v : mod2 r x v -> (eigen2 r hT 1 (image_of B0 v) <-> lifts r n B c x).
Proof.
  intros M. pose proof SZ as S0. pose proof (proj_image x v M) as (W & C). split.
  - intros (y & Ey & My). exists y. split.
    + intros j Hj. rewrite <- cover_low by exact Hj. rewrite (Ey j) by lia. ring.
    + intros j Hj. rewrite <- proj_value by exact Hj. rewrite <- C by lia. apply My. lia.
  - intros (y & Fy & Oy). exists (fun i => if i <? n then y i else 0%Z). split.
    + intros i Hi. destruct (Nat.ltb_spec i n) as [L|L].
      * rewrite cover_low by exact L. rewrite (zsum_ext n _ (fun t => c t i * y t)%Z) by (intros t Ht; now rewrite (proj2 (Nat.ltb_lt _ _) Ht)). rewrite (Fy i L). ring.
      * rewrite cover_high; [reflexivity| |lia]. intros t Ht. now rewrite (proj2 (Nat.ltb_ge _ _)) by lia.
    + split; [exact W|]. intros i Hi. rewrite C by exact Hi. destruct (Nat.ltb_spec i n) as [L|L].
      * rewrite proj_value by exact L. auto.
      * now rewrite proj_above.
Qed.
End Cover.
Lemma quotient_dim_le V W q : represents_quotient r V W q -> sq_dimension q <= r.
Proof. intros (RV & _). unfold sq_dimension, ss_dimension. pose proof (space_dim_le r V _ RV). lia. Qed.
Definition answer (l : list bv) : Prop :=
  exists q, dualPi0 dim fits as_int th = Ok q /\ represents_quotient r (eigen2_sum r g) (eigen2 r g 1) q /\ Forall (sized (sq_dimension q)) l /\ F2Spec.independent (map data l) /\
    forall x v, mod2 r x v -> eigen2_sum r g v -> gives (sq_toBasis dim q (mk_bv v r)) (fun y => in_span (map data l) (data y) <-> lifts r n B c x) sure.
Theorem dual_component_run : gives (dual_component_group_basis dim fits as_int th d radical) answer
  (fun e => e = Thrown /\ (exists k, least_denominator r F k /\ (2147483648 <= k)%Z) \/ overflows fits e).
Proof.
  pose proof SZ as S0. set (E := fun e => e = Thrown /\ _ \/ _).
  assert (OV : forall e, overflows fits e -> E e) by (intros e O; right; exact O).
  assert (NO : forall e, sure e -> E e) by (intros e []).
  unfold dual_component_group_basis. pose proof basis_run as G.
  destruct (upto (d_ssrank d) 0 _ _) as [M0|e]; cbn [bind] in *; [|destruct G]. destruct (upto (length radical) 0 _ M0) as [M|e]; cbn [bind gives] in *; [|destruct G].
  eapply gives_bind; [apply (transposed_ok 0%Z th r r g HM)|]. intros T HT.
  eapply gives_bind; [eapply gives_mono_err; [|apply (on_basis_run fits as_int INT T M r _ _ HT G)]|].
  { intros e [(-> & [D|[D|D]])|O]; [|left; auto| |auto].
    - destruct (full_det r n k A B w HP Hw D).
    - destruct (full_stable r n k A B w g c a HP Hw HB HA) as (h0 & E0 & _). destruct D. now exists h0. }
  intros H (h & Hh & _ & Eh). eapply gives_bind; [apply (transposed_ok 0%Z H r r h Hh)|]. intros isw Hisw.
  pose proof (clear_run M G) as G1. destruct (upto (d_rank d - d_ssrank d) (d_ssrank d) _ M) as [M1|e]; cbn [bind] in *; [|destruct G1].
  pose proof (C144_dualPi0 dim fits as_int th r g INT Rd HM Inv) as G2. destruct (dualPi0 dim fits as_int th) as [q|e] eqn:Eq; cbn [bind gives] in *; [|auto].
  eapply gives_bind; [eapply gives_mono_err; [exact OV|apply (C144_dualPi0 dim fits as_int isw r _ INT Rd Hisw (cover_involution h Eh))]|]. intros q' R'.
  destruct (transposed 0%Z M1) as [N|e]; cbn [bind gives] in *; [|destruct G1].
  eapply gives_bind; [eapply gives_mono_err; [exact NO|apply (mat_mod2_ok dim N r r _ G1 Rd)]|]. intros m (RB & MB & EB).
  eapply gives_bind; [eapply gives_mono_err; [exact NO|apply (C68_subquotientMap dim r r _ _ _ _ q q' m Rd Rd G2 R' RB MB)]|].
  { exact (proj_sum h Eh (cols m) MB EB). } { exact (proj_plus h Eh (cols m) MB EB). }
  intros m2 (RA & MA & HI). pose proof (quotient_dim_le _ _ q G2) as Q1. pose proof (quotient_dim_le _ _ q' R') as Q2.
  assert (NC : ncols m2 = sq_dimension q) by (unfold ncols; apply MA).
  eapply gives_conv; [|exact NO|apply (bm_kernel_ok dim m2)]; [|lia|lia|rewrite RA, NC; exact MA].
  intros l (SL & IL & KL). rewrite NC in *. exists q. split; [exact Eq|]. split; [exact G2|]. split; [exact SL|]. split; [exact IL|].
  intros x v Mx Vv. assert (Sv : sized r (mk_bv v r)) by (split; [apply Mx|reflexivity]).
  eapply gives_mono; [|intros y Hy; exact Hy]. specialize (HI (mk_bv v r) Sv Vv). pose proof (sq_toBasis_ok dim r _ _ q Rd G2 (mk_bv v r) Sv Vv) as G3.
  destruct (sq_toBasis dim q (mk_bv v r)) as [y|e]; cbn [gives data] in *; [|exact G3]. destruct G3 as [[Wy _] _].
  rewrite <- KL. rewrite <- (proj_trivial h Eh (cols m) MB EB x v Mx).
  assert (Si : sized r (mk_bv (image_of (cols m) v) r)) by (split; [apply (proj_image (cols m) MB EB x v Mx)|reflexivity]).
  pose proof (toBasis_zero dim r _ _ q' _ _ Rd R' Si (proj_sum h Eh (cols m) MB EB v Vv) HI) as Z0. cbn [data] in Z0. rewrite <- Z0. unfold in_kernel. tauto.
Qed.
End Run.
