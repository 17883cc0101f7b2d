(** Real tori: the dual of the component group, and the data stored for a torus. *)

From Coq Require Import List Arith ZArith Bool Lia.
From Verif Require Import RedModel LatModel RedSpec LatSpec DatSub.
From Verif Require Import F2Model F2Spec F2Basics F2Proofs F2Ops F2Kernel F2Props SubqModel SubqSpec SubqProofs SubqQuot SubqProps.
From Verif Require Import VecModel VecProofs RunModel RunProofs MatModel MatSpec MatProofs MatOps MatOps2 MatArith MatRing MatDiv MatLin RedProps LatProofs LatProps RatVecProofs DfModel ToriModel ToriSpec ToriLat ToriRank ToriProofs.
From Verif Require YvLog.
Import ListNotations.
Local Open Scope Z_scope.

Lemma represents_basis n V s : represents n V s -> F2Spec.basis_of V (map data (ss_basis s)).
Proof.
  intros (_ & _ & (_ & _ & R & S)). split; [|exact S]. apply (triangular_independent _ (positions_of n (ss_support s))). apply reduced_triangular, echelon_reduced. exact R.
Qed.
Lemma half_even n x : (forall i, (i < n)%nat -> Z.even (x i) = true) -> forall i, (i < n)%nat -> x i = 2 * (x i / 2).
Proof. intros H i Hi. apply H in Hi. apply Z.even_spec in Hi as (z & E). rewrite E, Z.mul_comm, Z.div_mul by lia. lia. Qed.

Section Group.
Variable n : nat.
Variable f : nat -> nat -> Z.
Hypothesis inv : is_involution n f.

Lemma f_f x i : (i < n)%nat -> fapply n f (fapply n f x) i = x i.
Proof. intros Hi. rewrite fapply_fapply, (fapply_mat n _ delta) by (intros j Hj; apply inv; auto). apply fapply_delta. exact Hi. Qed.
(** a vector congruent to its image modulo 2 is a sum of two eigenvectors *)
Lemma half_split x : (forall i, (i < n)%nat -> Z.even (fapply n f x i + x i) = true) ->
  exists y z, eigen n f 1 y /\ eigen n f (-1) z /\ forall i, (i < n)%nat -> x i = y i + z i.
Proof.
  intros H. set (y := fun i => (fapply n f x i + x i) / 2).
  assert (Y : forall i, (i < n)%nat -> fapply n f x i + x i = 2 * y i) by (apply (half_even n (fun i => fapply n f x i + x i)); exact H).
  exists y, (fun i => x i + (-1) * y i). split; [|split].
  - intros i Hi. assert (E : 2 * fapply n f y i = 2 * y i); [|lia]. rewrite <- fapply_scale, (fapply_ext n f _ (fun i => fapply n f x i + x i)) by (intros j Hj; rewrite Y by exact Hj; reflexivity).
    rewrite fapply_add, f_f by exact Hi. rewrite <- (Y i Hi). lia.
  - intros i Hi. rewrite fapply_add, fapply_scale.
    assert (E : 2 * fapply n f y i = 2 * y i). { rewrite <- fapply_scale, (fapply_ext n f _ (fun i => fapply n f x i + x i)) by (intros j Hj; rewrite Y by exact Hj; reflexivity). rewrite fapply_add, f_f by exact Hi. rewrite <- (Y i Hi). lia. }
    pose proof (Y i Hi). lia.
  - intros i Hi. ring.
Qed.
Lemma kernel_sum A v : is_matrix n n A -> (forall i j, (i < n)%nat -> (j < n)%nat -> entry A i j = xorb (Z.odd (f i j)) (i =? j)%nat) -> (in_kernel n A v <-> eigen2_sum n f v).
Proof.
  intros M E.
  assert (E1 : forall i j, (i < n)%nat -> (j < n)%nat -> entry A i j = Z.odd (if (i =? j)%nat then f i j + 1 else f i j)).
  { intros i j Hi Hj. rewrite E by auto. destruct (i =? j)%nat; [rewrite Z.odd_add; reflexivity|apply xorb_false_r]. }
  assert (K : forall x, mod2 n x v -> (image_of A v = 0%N <-> forall i, (i < n)%nat -> Z.even (fapply n f x i + x i) = true)).
  { intros x (Wv & Hv). pose proof (lincomb_mod2 n n A _ x M E1) as L. unfold image_of. rewrite (lincomb_ext (coord v) (fun j => Z.odd (x j))) by (rewrite (proj1 M); exact Hv). split.
    - intros Z0 i Hi. rewrite Z0 in L. destruct L as (_ & L). specialize (L i Hi). unfold coord in L. rewrite N.bits_0 in L. rewrite f1_apply in L by exact Hi. rewrite even_odd. rewrite Z.mul_1_l in L. rewrite <- L. reflexivity.
    - intros H. apply (mod2_unique n _ _ _ L). split; [apply within_0|]. intros i Hi. rewrite f1_apply by exact Hi. specialize (H i Hi). rewrite even_odd in H. rewrite Z.mul_1_l.
      unfold coord. rewrite N.bits_0. destruct (Z.odd _); [discriminate|reflexivity]. }
  split.
  - intros (Wv & Im). set (x := fun i => Z.b2z (coord v i)). assert (X : mod2 n x v) by (split; [exact Wv|intros i Hi; unfold x; rewrite odd_b2z; reflexivity]).
    destruct (half_split x (proj1 (K x X) Im)) as (y & z & Y & Zz & S). exists y, z. split; [exact Y|]. split; [exact Zz|]. apply (mod2_same n x); [exact S|exact X].
  - intros (y & z & Y & Zz & X). split; [apply X|]. apply (K _ X). intros i Hi. rewrite fapply_add, (Y i Hi), (Zz i Hi). apply Z.even_spec. exists (y i). ring.
Qed.
Lemma eigen2_in v : eigen2 n f 1 v -> eigen2_sum n f v.
Proof.
  intros (x & X & V). exists x, (fun _ => 0). split; [exact X|]. split; [intros i Hi; unfold fapply; rewrite zsum_zero by (intros; lia); lia|]. apply (mod2_same n x); [intros; ring|exact V].
Qed.

Lemma plusBasis_ok fits as_int q s : (forall z, as_int z = z) -> is_mx q n n f ->
  gives (run K <- eigen_lattice fits as_int q s; mat_columns 0 K) (fun l => exists g, LatSpec.basis_of n (length l) g (eigen n f s) /\
    forall j, (j < length l)%nat -> exists v, get l j = Some v /\ is_vec v n (fun i => g i j)) (overflows fits).
Proof.
  intros Hint HM. eapply gives_bind; [apply (C86_eigen_lattice fits as_int Hint q n f s HM)|]. intros K (k & g & HK & B).
  eapply gives_mono; [apply (columns_ok 0 K n k g HK)|]. intros l (L & H). exists g. rewrite L. split; [exact B|exact H].
Qed.
Lemma dualPi0_ok dim fits as_int q : (forall z, as_int z = z) -> (n <= dim)%nat -> is_mx q n n f ->
  gives (dualPi0 dim fits as_int q) (represents_quotient n (eigen2_sum n f) (eigen2 n f 1)) (overflows fits).
Proof.
  intros Hint Hn HM. unfold dualPi0. rewrite (is_mx_rows _ _ _ _ HM).
  eapply gives_bind; [eapply gives_mono_err; [|apply (mat_mod2_ok dim q n n f HM Hn)]; intros e []|]. intros B (RB & MB & EB).
  eapply gives_bind; [eapply gives_mono_err; [|apply (C62_identity dim n Hn)]; intros e []|]. intros J (RJ & LJ & EJ).
  eapply gives_bind; [eapply gives_mono_err; [|apply (C62_matrix_add B J)]; [intros e []|unfold ncols; rewrite LJ, (proj1 MB); reflexivity]|]. intros I2 (RI & CI & EI).
  assert (MI : is_matrix n n (cols I2)).
  { split; [unfold ncols in CI; rewrite CI; apply MB|]. intros x Hx. destruct (In_nth _ _ 0%N Hx) as (j & Hj & <-). intros i Hi. change (entry (cols I2) i j = false). rewrite EI.
    assert (Hj' : (j < n)%nat) by (unfold ncols in CI; rewrite CI, (proj1 MB) in Hj; exact Hj). rewrite EJ by exact Hj'.
    unfold entry. rewrite (proj2 MB) by (try exact Hi; apply nth_In; rewrite (proj1 MB); exact Hj'). destruct (Nat.eqb_spec i j); [lia|reflexivity]. }
  assert (NI : ncols I2 = n) by (unfold ncols; apply MI).
  eapply gives_bind; [eapply gives_mono_err; [|apply (C65_kernel dim I2)]; [intros e []|rewrite RI, RB; exact Hn|rewrite NI; exact Hn|rewrite RI, RB, NI; exact MI]|].
  intros ker (Sk & _ & Bk). rewrite NI in *.
  eapply gives_bind; [unfold plusBasis; apply (plusBasis_ok fits as_int q 1 Hint HM)|]. intros l (g & Bg & Hl).
  eapply gives_bind; [eapply gives_mono_err; [|apply (list_mod2_ok dim n l (length l) g Hn eq_refl Hl)]; intros e []|]. intros w (Sw & Mw & Ew).
  assert (Ker : forall v, in_span (map data ker) v <-> eigen2_sum n f v).
  { intros v. rewrite <- (Bk v). apply kernel_sum; [exact MI|]. intros i j Hi Hj. rewrite EI, EB, EJ by auto. reflexivity. }
  assert (Pl : forall v, in_span (map data w) v <-> eigen2 n f 1 v).
  { intros v. rewrite (span_mod2 n (length l) (map data w) g v Mw Ew). split.
    - intros (c & H). exists (fapply (length l) g c). split; [apply Bg; exists c; reflexivity|exact H].
    - intros (x & X & H). destruct (proj1 (proj1 Bg x) X) as (c & Hc). exists c. apply (mod2_same n x); [exact Hc|exact H]. }
  eapply gives_conv; [| |apply (C68_of_lists dim n ker w Hn Sk Sw)]; [|intros e []|intros v Hv; apply Ker, eigen2_in, Pl; exact Hv].
  intros s (R1 & R2 & I1 & R3 & R4). split; [apply (represents_ext n _ _ _ Ker R1)|]. split; [apply (represents_ext n _ _ _ Pl R2)|]. split; [exact eigen2_in|]. split; [exact R3|exact R4].
Qed.

(** dimensions *)
Lemma sum_dim a b c bb : splits n f a b c -> F2Spec.basis_of (eigen2_sum n f) bb -> length bb = (a + b + c)%nat.
Proof.
  intros (g & Sz & (h & Igh) & Fa & Nb & Sw) B. apply (dim_mod2 n _ (both a b c g) (eigen2_sum n f) bb); [apply (both_indep2 n a b c g h Sz Igh)| |exact B].
  pose proof (plus_basis n a b c f g h Sz inv Igh Fa Nb Sw) as (P1 & _). pose proof (minus_basis n a b c f g h Sz inv Igh Fa Nb Sw) as (M1 & _).
  intros v. split.
  - intros (x & y & X & Y & V). apply P1 in X as (c1 & X). apply M1 in Y as (c2 & Y).
    exists (fun j => if (j <? a)%nat then c1 j else if (j <? a + b)%nat then c2 (j - a)%nat else c1 (j - b)%nat + c2 (j - a)%nat).
    apply (mod2_ext n (fun i => x i + y i)); [|exact V]. intros i Hi. rewrite (X i Hi), (Y i Hi). rewrite (plus_coords n a b c g Sz), (minus_coords n a b c g Sz), (both_coords n a b c g Sz).
    rewrite <- fapply_add. match goal with |- Z.even (fapply n g ?p i - fapply n g ?q i) = true => replace (fapply n g p i - fapply n g q i) with (fapply n g (fun j => p j + (-1) * q j) i) by (rewrite fapply_add, fapply_scale; ring) end.
    apply even_fapply. intros j Hj. unfold plus_emb, minus_emb, both_emb.
    repeat match goal with |- context [Nat.ltb ?x ?y] => destruct (Nat.ltb_spec x y); try (exfalso; lia) end; apply Z.even_spec.
    + exists 0. ring.
    + exists 0. ring.
    + exists 0. ring.
    + exists (- c2 (j - a - c)%nat). replace (j - c - b)%nat with (j - b - c)%nat by lia. replace (j - c - a)%nat with (j - a - c)%nat by lia. ring.
  - intros (d & V). exists (fapply (a + c) (plus a b c g) (fun j => if (j <? a)%nat then d j else d (b + j)%nat)), (fapply (b + c) (minus a b c g) (fun j => if (j <? b)%nat then d (a + j)%nat else 0)).
    split; [apply P1; eexists; intros i Hi; reflexivity|]. split; [apply M1; eexists; intros i Hi; reflexivity|].
    apply (mod2_same n (fapply (a + b + c) (both a b c g) d)); [|exact V]. intros i Hi.
    rewrite (plus_coords n a b c g Sz), (minus_coords n a b c g Sz), (both_coords n a b c g Sz). rewrite <- fapply_add. apply fapply_ext. intros j Hj. unfold plus_emb, minus_emb, both_emb.
    repeat match goal with |- context [Nat.ltb ?x ?y] => destruct (Nat.ltb_spec x y); try (exfalso; lia) end; rewrite ?Z.add_0_r, ?Z.add_0_l; try reflexivity; f_equal; lia.
Qed.
Lemma plus_dim a b c bb : splits n f a b c -> F2Spec.basis_of (eigen2 n f 1) bb -> length bb = (a + c)%nat.
Proof.
  intros (g & Sz & (h & Igh) & Fa & Nb & Sw) B. apply (dim_mod2 n _ (plus a b c g) (eigen2 n f 1) bb); [apply (plus_indep2 n a b c g h Sz Igh)| |exact B].
  pose proof (plus_basis n a b c f g h Sz inv Igh Fa Nb Sw) as (P1 & _). intros v. split.
  - intros (x & X & V). apply P1 in X as (c1 & X). exists c1. apply (mod2_same n x); [exact X|exact V].
  - intros (c1 & V). exists (fapply (a + c) (plus a b c g) c1). split; [apply P1; exists c1; reflexivity|exact V].
Qed.
Lemma topology_dim a b c q : splits n f a b c -> represents_quotient n (eigen2_sum n f) (eigen2 n f 1) q ->
  ss_dimension (sq_space q) = (a + b + c)%nat /\ sq_dimension q = b.
Proof.
  intros S (R1 & R2 & _). pose proof (sum_dim a b c _ S (represents_basis _ _ _ R1)) as E1. pose proof (plus_dim a b c _ S (represents_basis _ _ _ R2)) as E2.
  rewrite map_length in E1, E2. unfold sq_dimension, ss_dimension. lia.
Qed.

(** ** fullSignBasis *)
Lemma fullSign_ok fits as_int q s : (forall z, as_int z = z) -> (s = 1 \/ s = -1) -> is_mx q n n f ->
  gives (fullSignBasis fits as_int q s) (fun '(l, M) => exists g h, LatSpec.basis_of n (length l) g (eigen n f s) /\
    (forall j, (j < length l)%nat -> exists v, get l j = Some v /\ is_vec v n (fun i => g i j)) /\ is_mx M (length l) n h /\
    forall x, eigen n f s x -> forall i, (i < n)%nat -> fapply (length l) g (fapply n h x) i = x i) (overflows fits).
Proof.
  intros Hint Hs HM. unfold fullSignBasis.
  eapply gives_bind; [eapply add_scalar_ok; [apply (zarith_ok fits)|exact HM]|]. intros M1 HM1. cbn beta in HM1.
  eapply gives_bind; [apply (C49_adapted_basis fits as_int Hint n n _ M1 HM1)|]. intros [B dg] (r & dd & beta & Vd & HB & Rn & _ & Dp & Ub & Sp).
  rewrite (proj1 Vd), (is_mx_rows _ _ _ _ HB).
  eapply gives_bind with (P := fun l => length l = r /\ forall j, (j < r)%nat -> exists v, get l j = Some v /\ is_vec v n (fun i => beta i j)).
  { apply (gives_upto0 (fun t l => length l = t /\ forall j, (j < t)%nat -> exists v, get l j = Some v /\ is_vec v n (fun i => beta i j))).
    - split; [reflexivity|]. intros; lia.
    - intros t l Ht (L & H). eapply gives_bind; [apply (column_ok 0 B n n beta t HB); lia|]. intros v Hv. cbn [gives]. rewrite app_length, L. split; [cbn; lia|].
      intros j Hj. destruct (Nat.eq_dec j t) as [->|N].
      + exists v. split; [|exact Hv]. rewrite (get_nth _ _ v) by (rewrite app_length, L; cbn; lia). rewrite app_nth2, L, Nat.sub_diag by lia. reflexivity.
      + destruct (H j ltac:(lia)) as (w & Gw & Vw). exists w. split; [|exact Vw]. rewrite (get_nth _ _ v) by (rewrite app_length, L; cbn; lia). rewrite app_nth1 by lia. rewrite (get_nth _ _ v) in Gw by lia. exact Gw.
    - auto. }
  intros l (Ll & Hl).
  eapply gives_bind; [eapply gives_conv; [intros x H; exact H| |apply (C48_inverse_Z fits as_int Hint B n beta HB)]|].
  { intros e [(_ & H)|H]; [contradiction|exact H]. }
  intros Bi (g & HBi & Ig).
  eapply gives_bind; [apply (block_ok 0 Bi n n g 0 0 r n HBi); lia|]. intros M HMb. rewrite !Nat.sub_0_r in HMb. cbn [gives]. rewrite Ll.
  (* the involution multiplied by the sign *)
  set (f' := fun i j => s * f i j).
  assert (inv' : feq n n (fmul n f' f') delta).
  { intros i j Hi Hj. rewrite <- (inv i j Hi Hj). unfold fmul, f'. apply zsum_ext. intros k Hk. destruct Hs as [-> | ->]; ring. }
  assert (Fd : forall x i, (i < n)%nat -> fapply n (fun i j => f' i j + delta i j) x i = s * fapply n f x i + x i).
  { intros x i Hi. unfold fapply, f'. rewrite (zsum_ext n (fun j => (s * f i j + delta i j) * x j) (fun j => s * (f i j * x j) + delta i j * x j)) by (intros; ring).
    rewrite zsum_add, zsum_mul_l, zsum_delta_l by exact Hi. reflexivity. }
  assert (Sp' : same_span n n (fun i j => f' i j + delta i j) r (fun a b => dd b * beta a b)).
  { intros v. rewrite <- (Sp v). split; intros (x & X).
    - exists (fun j => s * x j). intros i Hi. rewrite <- (X i Hi), Fd, f1_apply, fapply_scale by exact Hi. destruct Hs as [-> | ->]; ring.
    - exists (fun j => s * x j). intros i Hi. rewrite <- (X i Hi), Fd, f1_apply, fapply_scale by exact Hi. destruct Hs as [-> | ->]; ring. }
  assert (Bf : forall i j, (i < n)%nat -> (j < r)%nat -> fmul n f beta i j = s * beta i j).
  { intros i j Hi Hj. pose proof (YvLog.beta_fixed n f' inv' r dd beta Rn Dp Sp' i j Hi Hj) as E. rewrite <- E. unfold fmul, f'. rewrite <- zsum_mul_l. apply zsum_ext. intros k Hk. destruct Hs as [-> | ->]; ring. }
  assert (Co : forall x, eigen n f s x -> forall k, (r <= k < n)%nat -> fapply n g x k = 0).
  { intros x X k Hk. assert (E : 2 * fapply n g x k = 0); [|lia]. rewrite <- fapply_scale.
    rewrite (fapply_ext n g _ (fapply n (fun i j => f' i j + delta i j) x)).
    - rewrite fapply_fapply. unfold fapply. apply zsum_zero. intros j Hj. rewrite (YvLog.g_f1 n f' r dd beta g Rn Ig Sp' k j Hk Hj). lia.
    - intros j Hj. rewrite Fd, (X j Hj) by exact Hj. destruct Hs as [-> | ->]; ring. }
  assert (Re : forall x, eigen n f s x -> forall i, (i < n)%nat -> fapply r beta (fapply n g x) i = x i).
  { intros x X i Hi. transitivity (fapply n beta (fapply n g x) i).
    - generalize (Co x X). generalize (fapply n g x). intros y Y. unfold fapply. assert (Er : exists d, n = (r + d)%nat) by (exists (n - r)%nat; lia). destruct Er as (d & Er).
      replace (zsum n (fun j => beta i j * y j)) with (zsum (r + d) (fun j => beta i j * y j)) by (rewrite Er; reflexivity). rewrite zsum_split, (zsum_zero d); [ring|]. intros k Hk. rewrite Y by lia. ring.
    - rewrite fapply_fapply, (fapply_mat n _ delta) by (intros j Hj; apply (proj1 Ig); auto). apply fapply_delta. exact Hi. }
  exists beta, g. split; [|split; [exact Hl|split; [exact HMb|exact Re]]]. split.
  - intros x. split.
    + intros X. exists (fapply n g x). intros i Hi. symmetry. apply Re; auto.
    + intros (c & X). intros i Hi. rewrite (fapply_ext n f x (fapply r beta c)) by exact X. rewrite fapply_fapply, (fapply_mat r _ (fun i j => s * beta i j)) by (intros j Hj; apply Bf; auto).
      rewrite (X i Hi). unfold fapply. rewrite <- zsum_mul_l. apply zsum_ext. intros; ring.
  - intros c H j Hj. assert (E : fapply n g (fapply r beta c) j = 0) by (unfold fapply at 1; apply zsum_zero; intros k Hk; rewrite (H k Hk); lia).
    rewrite fapply_fapply in E. rewrite (fapply_mat r _ delta) in E by (intros k Hk; apply (proj2 Ig); lia). rewrite fapply_delta in E by exact Hj. exact E.
Qed.
End Group.
