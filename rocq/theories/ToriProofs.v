(** Real tori: reduction modulo 2, classification, component groups. *)

From Coq Require Import List Arith ZArith Bool Lia.
From Verif Require Import RedModel LatModel RedSpec LatSpec DatSub.
From Verif Require Import F2Model F2Spec F2Basics F2Proofs F2Ops F2Kernel F2Props SubqModel SubqSpec SubqProofs SubqQuot.
From Verif Require Import VecModel VecProofs RunModel RunProofs MatModel MatSpec MatProofs MatOps MatOps2 MatArith MatRing MatDiv MatLin RedProps LatProofs LatProps RatVecProofs DfModel ToriModel ToriSpec ToriLat ToriRank.
Import ListNotations.
Local Open Scope Z_scope.

Lemma even_odd z : Z.even z = negb (Z.odd z).
Proof. rewrite <- Z.negb_odd. reflexivity. Qed.
Lemma mod2_ext n x y v : (forall i, (i < n)%nat -> Z.even (x i - y i) = true) -> mod2 n x v -> mod2 n y v.
Proof.
  intros H (W & C). split; [exact W|]. intros i Hi. rewrite (C i Hi). specialize (H i Hi). rewrite Z.even_sub in H. rewrite !even_odd in H.
  destruct (Z.odd (x i)), (Z.odd (y i)); cbn in H; congruence.
Qed.
Lemma mod2_same n x y v : (forall i, (i < n)%nat -> x i = y i) -> mod2 n x v -> mod2 n y v.
Proof. intros H. apply mod2_ext. intros i Hi. rewrite (H i Hi), Z.sub_diag. reflexivity. Qed.
Lemma mod2_unique n x v w : mod2 n x v -> mod2 n x w -> v = w.
Proof. intros (W1 & C1) (W2 & C2). apply (within_ext n); auto. intros i Hi. rewrite C1, C2 by exact Hi. reflexivity. Qed.
Lemma mod2_diff n x y v : mod2 n x v -> mod2 n y v -> forall i, (i < n)%nat -> Z.even (x i - y i) = true.
Proof. intros (_ & C1) (_ & C2) i Hi. rewrite Z.even_sub, !even_odd, <- C1, <- C2 by exact Hi. apply eqb_reflx. Qed.
Lemma odd_zsum n x : Z.odd (zsum n x) = sum2 n (fun i => Z.odd (x i)).
Proof. induction n; [reflexivity|]. cbn [sum2]. rewrite <- IHn. unfold zsum. cbn [fsum]. apply Z.odd_add. Qed.
Lemma odd_b2z b : Z.odd (Z.b2z b) = b.
Proof. destruct b; reflexivity. Qed.
(** combinations modulo 2 of the columns of a matrix of integers *)
Lemma lincomb_mod2 n k A G c : is_matrix n k A -> (forall i j, (i < n)%nat -> (j < k)%nat -> entry A i j = Z.odd (G i j)) ->
  mod2 n (fapply k G c) (lincomb (fun j => Z.odd (c j)) A).
Proof.
  intros (L & W) E. split.
  - apply (span_within n A W). exists (fun j => Z.odd (c j)). reflexivity.
  - intros i Hi. rewrite coord_lincomb, L. unfold fapply. rewrite odd_zsum. apply sum2_ext. intros j Hj. rewrite Z.odd_mul, <- E by auto. unfold entry. apply andb_comm.
Qed.
Lemma span_mod2 n k A G v : is_matrix n k A -> (forall i j, (i < n)%nat -> (j < k)%nat -> entry A i j = Z.odd (G i j)) ->
  (in_span A v <-> exists c, mod2 n (fapply k G c) v).
Proof.
  intros M E. split.
  - intros (c & <-). exists (fun j => Z.b2z (c j)). pose proof (lincomb_mod2 n k A G (fun j => Z.b2z (c j)) M E) as H.
    rewrite (lincomb_ext _ c) in H by (intros; apply odd_b2z). exact H.
  - intros (c & H). exists (fun j => Z.odd (c j)). apply (mod2_unique n (fapply k G c)); [|exact H]. apply lincomb_mod2; auto.
Qed.
Definition lift (A : list N) (i j : nat) : Z := Z.b2z (entry A i j).
Lemma lift_entry n k A : is_matrix n k A -> forall i j, (i < n)%nat -> (j < k)%nat -> entry A i j = Z.odd (lift A i j).
Proof. intros _ i j _ _. unfold lift. rewrite odd_b2z. reflexivity. Qed.
Lemma lift_indep n k A : is_matrix n k A -> F2Spec.independent A -> indep2 n k (lift A).
Proof.
  intros M I c H j Hj. pose proof (lincomb_mod2 n k A (lift A) c M (lift_entry n k A M)) as E. destruct M as (L & W).
  specialize (I (fun j => Z.odd (c j))). rewrite even_odd, I; [reflexivity| |lia]. apply (mod2_unique n (fapply k (lift A) c)); [exact E|].
  split; [apply within_0|]. intros i Hi. specialize (H i Hi). rewrite even_odd in H. destruct (Z.odd _); [discriminate|]. unfold coord. rewrite N.bits_0. reflexivity.
Qed.
(** the dimension of a space described by integer vectors independent modulo 2 *)
Lemma dim_mod2 n k u V b : indep2 n k u -> (forall v, V v <-> exists c, mod2 n (fapply k u c) v) -> F2Spec.basis_of V b -> length b = k.
Proof.
  intros Iu HV (Ib & Sb).
  assert (W : is_matrix n (length b) b).
  { split; [reflexivity|]. intros x Hx. destruct (proj1 (HV x) (proj2 (Sb x) (span_in b x Hx))) as (c & (W & _)). exact W. }
  apply Nat.le_antisymm.
  - apply (rank2_le n _ _ (lift b) u (lift_indep n _ b W Ib)). intros j Hj.
    destruct (proj1 (HV (nth j b 0%N)) (proj2 (Sb _) (span_in b _ (nth_In b 0%N Hj)))) as (c & Hc). exists c.
    apply (mod2_diff n (fun i => lift b i j) (fapply k u c) (nth j b 0%N)); [|exact Hc]. split; [apply W, nth_In; exact Hj|]. intros i Hi. unfold lift. rewrite odd_b2z. reflexivity.
  - apply (rank2_le n _ _ u (lift b) Iu). intros j Hj.
    assert (E : exists v, mod2 n (fun i => u i j) v).
    { exists (lincomb (fun i => Z.odd (u i j)) (map (fun i => N.shiftl 1 (N.of_nat i)) (seq 0 n))). split.
      - apply (span_within n (map (fun i => N.shiftl 1 (N.of_nat i)) (seq 0 n))); [|eexists; reflexivity]. intros x Hx. apply in_map_iff in Hx as (i & <- & Hi). apply in_seq in Hi.
        intros l Hl. unfold coord. rewrite N.shiftl_spec_high' by lia. apply N.bits_above_log2. cbn. lia.
      - intros i Hi. rewrite coord_lincomb, map_length, seq_length. rewrite (sum2_single n i); auto; [|intros l Hl Nl].
        + rewrite (nth_indep _ _ (N.shiftl 1 (N.of_nat 0))) by (rewrite map_length, seq_length; exact Hi). rewrite (map_nth (fun i => N.shiftl 1 (N.of_nat i))), seq_nth by exact Hi.
          unfold coord. rewrite N.shiftl_spec_high' by lia. rewrite N.sub_diag. cbn. rewrite andb_true_r. reflexivity.
        + rewrite (nth_indep _ _ (N.shiftl 1 (N.of_nat 0))) by (rewrite map_length, seq_length; exact Hl). rewrite (map_nth (fun i => N.shiftl 1 (N.of_nat i))), seq_nth by exact Hl.
          rewrite Nat.add_0_l. unfold coord. rewrite N.shiftl_1_l, N.pow2_bits_false by lia. apply andb_false_r. }
    destruct E as (v & Hv). assert (Sv : in_span b v).
    { apply Sb, HV. exists (fun l => delta l j). apply (mod2_same n (fun i => u i j)); [|exact Hv]. intros i Hi. apply column_is. exact Hj. }
    destruct (proj1 (span_mod2 n _ b (lift b) v W (lift_entry n _ b W)) Sv) as (c & Hc). exists c. apply (mod2_diff n (fun i => u i j) _ v Hv Hc).
Qed.

Lemma mat_mod2_ok dim M m n f : is_mx M m n f -> (m <= dim)%nat ->
  gives (mat_mod2 dim M) (fun B => rows B = m /\ is_matrix m n (cols B) /\ forall i j, (i < m)%nat -> (j < n)%nat -> entry (cols B) i j = Z.odd (f i j)) sure.
Proof.
  intros HM Hm. unfold mat_mod2. rewrite (is_mx_rows _ _ _ _ HM), (is_mx_cols _ _ _ _ HM).
  eapply gives_mono; [apply (C62_matrix_mod2 dim m n _ Hm)|]. intros B (R & I & E). split; [exact R|]. split; [exact I|]. intros i j Hi Hj. rewrite E by auto.
  assert (G : gives (mget M i j) (fun x => x = f i j) (fun _ => False)) by (eapply gives_mget; eauto). destruct (mget M i j); [cbn in G; subst; reflexivity|contradiction].
Qed.
Lemma list_mod2_ok dim n l k G : (n <= dim)%nat -> length l = k -> (forall j, (j < k)%nat -> exists v, get l j = Some v /\ is_vec v n (fun i => G i j)) ->
  gives (list_mod2 dim l) (fun w => Forall (sized n) w /\ is_matrix n k (map data w) /\ forall i j, (i < n)%nat -> (j < k)%nat -> entry (map data w) i j = Z.odd (G i j)) sure.
Proof.
  intros Hn. revert k G. induction l as [|x l IH]; intros k G L H.
  - cbn in L. subst k. split; [constructor|]. split; [split; [reflexivity|intros c []]|]. intros; lia.
  - cbn in L. subst k. destruct (H 0%nat ltac:(lia)) as (v & E & V). cbn in E. injection E as <-. cbn [list_mod2].
    assert (Lx : length x = n) by (apply V).
    eapply gives_bind; [apply (bv_mod2_ok dim x); lia|]. intros w (Sw & Cw). rewrite Lx in *.
    eapply gives_bind; [apply (IH (length l) (fun i j => G i (S j)) eq_refl)|]; [intros j Hj; destruct (H (S j) ltac:(lia)) as (v & E & V'); exists v; auto|].
    intros ws (F & (Lw & Ww) & Ew). cbn [gives]. split; [constructor; auto|]. split.
    + split; [cbn; rewrite Lw; reflexivity|]. intros c [<-|I]; [apply Sw|apply Ww; exact I].
    + intros i [|j] Hi Hj; [|apply (Ew i j); lia]. unfold entry. cbn [map nth]. rewrite (Cw i Hi). f_equal. destruct V as (_ & V). specialize (V i Hi).
      rewrite (get_nth _ _ 0) in V by lia. congruence.
Qed.

(** ** classify *)
Lemma f1_apply n (f : nat -> nat -> Z) s x i : (i < n)%nat -> fapply n (fun i j => if (i =? j)%nat then f i j + s else f i j) x i = fapply n f x i + s * x i.
Proof.
  intros Hi. rewrite <- (fapply_delta n x i Hi). unfold fapply. rewrite <- zsum_mul_l, <- zsum_add. apply zsum_ext. intros j Hj. unfold delta. destruct (Nat.eqb_spec i j); ring.
Qed.
Lemma usub_ok a b c (P : nat -> Prop) E : a = (b + c)%nat -> P c -> gives (usub a b) P E.
Proof. intros -> H. unfold usub. destruct (Nat.leb_spec b (b + c)); [|lia]. cbn [gives]. replace (b + c - b)%nat with c by lia. exact H. Qed.
Lemma fixed_image n f x : is_involution n f -> eigen n f 1 (fun i => fapply n f x i + x i).
Proof.
  intros I i Hi. rewrite fapply_add, fapply_fapply. rewrite (fapply_mat n _ delta) by (intros j Hj; apply I; auto). rewrite fapply_delta by exact Hi. ring.
Qed.
Section Classify.
Variables n a b c : nat.
Variables f g h : nat -> nat -> Z.
Hypothesis size : n = (a + b + (c + c))%nat.
Hypothesis inv : is_involution n f.
Hypothesis igh : inverses n g h.
Hypothesis fixa : forall j, (j < a)%nat -> forall i, (i < n)%nat -> fmul n f g i j = g i j.
Hypothesis negb : forall j, (a <= j < a + b)%nat -> forall i, (i < n)%nat -> fmul n f g i j = - g i j.
Hypothesis swpc : forall j, (a + b <= j < a + b + c)%nat -> forall i, (i < n)%nat -> fmul n f g i j = g i (j + c)%nat.
Notation f1 := (fun i j : nat => if (i =? j)%nat then f i j + 1 else f i j).
Variable r : nat.
Variable gg : nat -> nat -> Z.
Hypothesis ind : DatSub.independent n r gg.
Hypothesis span : same_span n n f1 r gg.

Lemma in_image y : RedSpec.solvable n r gg y <-> exists x, forall i, (i < n)%nat -> y i = fapply n f x i + x i.
Proof.
  rewrite <- (span y). split; intros (x & H); exists x; intros i Hi; specialize (H i Hi).
  - rewrite f1_apply in H by exact Hi. lia.
  - rewrite f1_apply by exact Hi. lia.
Qed.
Lemma image_rank : r = (a + c)%nat.
Proof.
  pose proof (plus_basis n a b c f g h size inv igh fixa negb swpc) as (P1 & P2). apply Nat.le_antisymm.
  - apply (rank_le n r (a + c) gg (plus a b c g) ind). intros j Hj. apply P1.
    destruct (proj1 (in_image (fun i => gg i j))) as (x & Hx); [exists (fun l => delta l j); intros i Hi; symmetry; apply column_is; exact Hj|].
    apply (eigen_ext n f 1 (fun i => fapply n f x i + x i)); [intros i Hi; rewrite Hx by exact Hi; reflexivity|]. apply fixed_image. exact inv.
  - apply (rank_le n (a + c) r (fun i j => 2 * plus a b c g i j) gg).
    + intros c0 H. apply P2. intros i Hi. specialize (H i Hi). assert (E : fapply (a + c) (fun i j => 2 * plus a b c g i j) c0 i = 2 * fapply (a + c) (plus a b c g) c0 i).
      { unfold fapply. rewrite <- zsum_mul_l. apply zsum_ext. intros; ring. }
      lia.
    + intros j Hj. destruct (proj2 (in_image (fun i => 2 * plus a b c g i j))) as (y & Hy); [|exists y; intros i Hi; symmetry; apply Hy; exact Hi].
      exists (fun i => plus a b c g i j). intros i Hi. assert (E : eigen n f 1 (fun i => plus a b c g i j)) by (apply P1; exists (fun l => delta l j); intros k Hk; apply column_is; exact Hj).
      rewrite (E i Hi). lia.
Qed.
Lemma image_dim A bb : is_matrix n r A -> (forall i j, (i < n)%nat -> (j < r)%nat -> entry A i j = Z.odd (gg i j)) -> F2Spec.basis_of (in_span A) bb -> length bb = c.
Proof.
  intros M E B. apply (dim_mod2 n c (pairs a b c g) (in_span A) bb); [apply (pairs_indep2 n a b c g h size igh)| |exact B].
  intros v. rewrite (span_mod2 n r A gg v M E). split.
  - intros (c0 & H). destruct (proj1 (in_image (fapply r gg c0))) as (x & Hx); [exists c0; intros i Hi; reflexivity|].
    destruct (image_pairs n a b c f g h size inv igh fixa negb swpc x) as (d & Hd). exists d. apply (mod2_ext n (fapply r gg c0)); [|exact H]. intros i Hi. rewrite Hx by exact Hi. apply Hd. exact Hi.
  - intros (d & H). destruct (pairs_image n a b c f g size inv fixa negb swpc d) as (x & Hx).
    destruct (proj2 (in_image (fapply c (pairs a b c g) d))) as (y & Hy); [exists x; intros i Hi; symmetry; apply Hx; exact Hi|].
    exists y. apply (mod2_same n (fapply c (pairs a b c g) d)); [|exact H]. intros i Hi. symmetry. apply Hy. exact Hi.
Qed.
End Classify.

Lemma classify_ok dim fits as_int tau n f a b c : (forall z, as_int z = z) -> (n <= dim)%nat -> is_mx tau n n f -> is_involution n f -> splits n f a b c ->
  gives (classify dim fits as_int tau) (fun t => t = (a, c, b)) (overflows fits).
Proof.
  intros Hint Hn HM Inv (g & Sz & (h & Igh) & Fa & Nb & Sw). unfold classify.
  eapply gives_bind; [eapply add_scalar_ok; [apply (zarith_ok fits)|exact HM]|]. intros M1 HM1. cbn beta in HM1.
  eapply gives_bind; [apply (C44_column_echelon fits as_int Hint M1 n n _ HM1)|]. intros [[[M' col] flip] piv] (r & gg & c0 & p & Rn & HM' & _ & _ & _ & _ & Ech & Sp & _).
  rewrite (is_mx_rows _ _ _ _ HM'), (is_mx_cols _ _ _ _ HM').
  assert (Ind : DatSub.independent n r gg) by (intros y H j Hj; apply (echelon_inj n r gg p y Ech H j Hj)).
  pose proof (image_rank n a b c f g h Sz Inv Igh Fa Nb Sw r gg Ind Sp) as Er.
  eapply gives_bind; [eapply gives_mono_err; [|apply (mat_mod2_ok dim M' n r gg HM' Hn)]; intros e []|]. intros B (RB & MB & EB).
  eapply gives_bind; [eapply gives_mono_err; [|apply (C65_image dim B)]; [intros e []| |]|]; [lia| |].
  { unfold ncols. rewrite (proj1 MB), RB. exact MB. }
  intros im (_ & Bim). rewrite <- (map_length data im).
  rewrite (image_dim n a b c f g h Sz Inv Igh Fa Nb Sw r gg Sp (cols B) (map data im) MB EB Bim).
  eapply gives_bind; [apply (usub_ok r c a (fun x => x = a)); [lia|reflexivity]|]. intros x ->.
  eapply gives_bind; [apply (usub_ok n r (b + c) (fun x => x = (b + c)%nat)); [lia|reflexivity]|]. intros x ->.
  eapply gives_bind; [apply (usub_ok (b + c) c b (fun x => x = b)); [lia|reflexivity]|]. intros x ->. reflexivity.
Qed.
Lemma splits_unique n f a b c a' b' c' : is_involution n f -> splits n f a b c -> splits n f a' b' c' -> a = a' /\ b = b' /\ c = c'.
Proof.
  intros Inv S1 S2. destruct (mx_any n n f) as (M & HM).
  pose proof (classify_ok n (fun _ => true) (fun z => z) M n f a b c (fun z => eq_refl) (le_n n) HM Inv S1) as G1.
  pose proof (classify_ok n (fun _ => true) (fun z => z) M n f a' b' c' (fun z => eq_refl) (le_n n) HM Inv S2) as G2.
  destruct (classify n (fun _ => true) (fun z => z) M) as [t|e]; cbn [gives] in *; [|destruct G1 as (_ & z & Q); discriminate]. rewrite G1 in G2. injection G2. auto.
Qed.
