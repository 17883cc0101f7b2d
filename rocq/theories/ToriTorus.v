(** Real tori: the constructed torus, its ranks, its dual, and maps of component groups. *)

From Coq Require Import List Arith ZArith Bool Lia.
From Verif Require Import RedModel LatModel RedSpec LatSpec DatSub.
From Verif Require Import F2Model F2Spec F2Basics F2Proofs F2Ops F2Kernel F2Props SubqModel SubqSpec SubqProofs SubqQuot SubqProps.
From Verif Require Import VecModel VecProofs RunModel RunProofs MatModel MatSpec MatProofs MatOps MatOps2 MatArith MatRing MatDiv MatLin MatDet RedInverse RedProps LatProofs LatProps RatVecProofs DfModel ToriModel ToriSpec ToriLat ToriRank ToriProofs ToriGroup.
From Verif Require RootForm.
Import ListNotations.
Local Open Scope Z_scope.

Lemma usub_eq a b : (b <= a)%nat -> usub a b = Ok (a - b)%nat.
Proof. intros H. unfold usub. rewrite (proj2 (Nat.leb_le b a) H). reflexivity. Qed.

(** the vectors [l] form a basis of the [s]-eigenlattice, and [M] maps vectors of that lattice to their coordinates *)
Definition sign_basis (n : nat) (f : nat -> nat -> Z) (s : Z) (l : list (list Z)) (M : matrix Z) : Prop :=
  exists g h, LatSpec.basis_of n (length l) g (eigen n f s) /\
    (forall j, (j < length l)%nat -> exists v, get l j = Some v /\ is_vec v n (fun i => g i j)) /\ is_mx M (length l) n h /\
    forall x, eigen n f s x -> forall i, (i < n)%nat -> fapply (length l) g (fapply n h x) i = x i.
Definition torus_of (n : nat) (f : nat -> nat -> Z) (t : torus) : Prop :=
  t_rank t = n /\ is_mx (t_involution t) n n f /\ is_involution n f /\
  sign_basis n f 1 (t_plus t) (t_toPlus t) /\ sign_basis n f (-1) (t_minus t) (t_toMinus t) /\
  represents_quotient n (eigen2_sum n f) (eigen2 n f 1) (t_topology t) /\
  exists a b, splits n f a b (t_complex t).

Lemma make_ok dim fits as_int q n f : (forall z, as_int z = z) -> (n <= dim)%nat -> is_mx q n n f -> is_involution n f ->
  gives (torus_make dim fits as_int q) (fun t => torus_of n f t /\ t_involution t = q) (overflows fits).
Proof.
  intros Hint Hn HM Inv. unfold torus_make.
  eapply gives_bind; [apply (fullSign_ok n f Inv fits as_int q 1 Hint); [left; reflexivity|exact HM]|]. intros [lp Mp] Hp.
  eapply gives_bind; [apply (fullSign_ok n f Inv fits as_int q (-1) Hint); [right; reflexivity|exact HM]|]. intros [lm Mm] Hm.
  eapply gives_bind; [apply (dualPi0_ok n f Inv dim fits as_int q Hint Hn HM)|]. intros tp Htp.
  destruct (splits_exist n f Inv) as (a & b & c & Sp). destruct (topology_dim n f Inv a b c tp Sp Htp) as (D1 & D2). rewrite (is_mx_cols _ _ _ _ HM), D1.
  destruct Sp as (g & Sg). assert (En : n = (a + b + (c + c))%nat) by apply Sg. rewrite usub_eq by lia. cbn [gives fst snd bind]. replace (n - (a + b + c))%nat with c by lia.
  split; [|reflexivity]. split; [reflexivity|]. split; [exact HM|]. split; [exact Inv|]. split; [exact Hp|]. split; [exact Hm|]. split; [exact Htp|]. exists a, b. cbn [t_complex]. exists g. exact Sg.
Qed.

Section Ranks.
Variable n : nat.
Variable f : nat -> nat -> Z.
Variable t : torus.
Hypothesis T : torus_of n f t.
Variable a b c : nat.
Hypothesis sp : splits n f a b c.

Lemma t_c : t_complex t = c.
Proof. destruct T as (_ & _ & Inv & _ & _ & _ & a' & b' & S'). apply (splits_unique n f a' b' _ a b c Inv S' sp). Qed.
Lemma t_size : n = (a + b + (c + c))%nat.
Proof. destruct sp as (g & Sg). apply Sg. Qed.
Lemma t_plus_length : length (t_plus t) = (a + c)%nat.
Proof.
  destruct T as (_ & _ & Inv & (g & h & B & _) & _). destruct sp as (g0 & Sz & (h0 & Igh) & Fa & Nb & Sw).
  apply (basis_rank n _ _ _ _ _ B (plus_basis n a b c f g0 h0 Sz Inv Igh Fa Nb Sw)).
Qed.
Lemma t_minus_length : length (t_minus t) = (b + c)%nat.
Proof.
  destruct T as (_ & _ & Inv & _ & (g & h & B & _) & _). destruct sp as (g0 & Sz & (h0 & Igh) & Fa & Nb & Sw).
  apply (basis_rank n _ _ _ _ _ B (minus_basis n a b c f g0 h0 Sz Inv Igh Fa Nb Sw)).
Qed.
Lemma compact_rank : compactRank t = Ok a.
Proof. unfold compactRank. rewrite t_plus_length, t_c, usub_eq by lia. f_equal. lia. Qed.
Lemma split_rank : splitRank t = Ok b.
Proof. unfold splitRank. rewrite t_minus_length, t_c, usub_eq by lia. f_equal. lia. Qed.
Lemma two_rank : twoRank t = Ok (a + b + c)%nat.
Proof. unfold twoRank. rewrite (proj1 T), t_c. rewrite usub_eq by (pose proof t_size; lia). f_equal. pose proof t_size. lia. Qed.
Lemma topology_rank : sq_dimension (t_topology t) = b.
Proof. destruct T as (_ & _ & Inv & _ & _ & Q & _). apply (topology_dim n f Inv a b c _ sp Q). Qed.

Lemma scalar_splits s : (s = 1 \/ s = -1) -> feq n n f (fun i j => s * delta i j) -> splits n f (if s =? 1 then n else 0%nat) (if s =? 1 then 0%nat else n) 0.
Proof.
  intros Hs E. exists delta. assert (F : forall i j, (i < n)%nat -> (j < n)%nat -> fmul n f delta i j = s * delta i j).
  { intros i j Hi Hj. unfold fmul. rewrite zsum_delta_r by exact Hj. apply E; auto. }
  split; [destruct (s =? 1); lia|]. split; [exists delta; split; intros i j Hi Hj; unfold fmul; apply zsum_delta_r; exact Hj|].
  destruct Hs as [-> | ->]; cbn [Z.eqb Pos.eqb]; split; [intros j Hj i Hi|split|intros j Hj|split].
  - rewrite F by auto. ring.
  - intros j Hj. lia.
  - intros j Hj. lia.
  - lia.
  - intros j Hj i Hi. rewrite F by (auto; lia). ring.
  - intros j Hj. lia.
Qed.
Lemma unimodular_cancel m g r r' : unimodular m g -> (forall j, (j < m)%nat -> zsum m (fun k => r k * g k j) = zsum m (fun k => r' k * g k j)) ->
  forall i, (i < m)%nat -> r i = r' i.
Proof.
  intros (h & I1 & I2) H i Hi.
  assert (E : forall r, zsum m (fun j => zsum m (fun k => r k * g k j) * h j i) = r i).
  { intros r0. rewrite (zsum_ext m _ (fun j => zsum m (fun k => r0 k * (g k j * h j i)))) by (intros j Hj; rewrite Z.mul_comm, <- zsum_mul_l; apply zsum_ext; intros; ring).
    rewrite RootForm.zsum_swap, (zsum_ext m _ (fun k => r0 k * delta k i)); [apply zsum_delta_r; exact Hi|]. intros k Hk. rewrite zsum_mul_l. f_equal. apply (I1 k i Hk Hi). }
  rewrite <- (E r), <- (E r'). apply zsum_ext. intros j Hj. rewrite H by exact Hj. reflexivity.
Qed.
Lemma scalar_of s g : unimodular n g -> (forall i j, (i < n)%nat -> (j < n)%nat -> fmul n f g i j = s * g i j) -> feq n n f (fun i j => s * delta i j).
Proof.
  intros U E i j Hi Hj. revert j Hj. apply (unimodular_cancel n g _ _ U). intros j Hj. change (fmul n f g i j = zsum n (fun k => s * delta i k * g k j)). rewrite E by auto.
  rewrite (zsum_ext n _ (fun k => s * (delta i k * g k j))) by (intros; ring). rewrite zsum_mul_l, zsum_delta_l by exact Hi. reflexivity.
Qed.
Lemma compact_iff : isCompact t = true <-> feq n n f delta.
Proof.
  unfold isCompact. rewrite t_plus_length, (proj1 T). rewrite Nat.eqb_eq. pose proof t_size as Sz. split.
  - intros E. destruct sp as (g & _ & U & Fa & _). intros i j Hi Hj. rewrite (scalar_of 1 g U) by (auto; intros i' j' Hi' Hj'; rewrite Fa by lia; ring). ring.
  - intros E. destruct T as (_ & _ & Inv & _). assert (E1 : feq n n f (fun i j => 1 * delta i j)) by (intros i j Hi Hj; rewrite E by auto; ring).
    pose proof (scalar_splits 1 (or_introl eq_refl) E1) as S1. cbn [Z.eqb Pos.eqb] in S1. destruct (splits_unique n f _ _ _ _ _ _ Inv S1 sp) as (A1 & A2 & A3). lia.
Qed.
Lemma split_iff : isSplit t = true <-> feq n n f (fun i j => - delta i j).
Proof.
  unfold isSplit. rewrite t_minus_length, (proj1 T). rewrite Nat.eqb_eq. pose proof t_size as Sz. split.
  - intros E. destruct sp as (g & _ & U & _ & Nb & _). intros i j Hi Hj. rewrite (scalar_of (-1) g U) by (auto; intros i' j' Hi' Hj'; rewrite Nb by lia; ring). ring.
  - intros E. destruct T as (_ & _ & Inv & _). assert (E1 : feq n n f (fun i j => (-1) * delta i j)) by (intros i j Hi Hj; rewrite E by auto; ring).
    pose proof (scalar_splits (-1) (or_intror eq_refl) E1) as S1. cbn [Z.eqb Pos.eqb] in S1. destruct (splits_unique n f _ _ _ _ _ _ Inv S1 sp) as (A1 & A2 & A3). lia.
Qed.
End Ranks.

(** ** the dual torus *)
Lemma dual_involution n f : is_involution n f -> is_involution n (fun i j => - f j i).
Proof.
  intros H i j Hi Hj. unfold fmul. rewrite (zsum_ext n _ (fun k => f j k * f k i)) by (intros; ring). change (fmul n f f j i = delta i j). rewrite H by auto. unfold delta. rewrite Nat.eqb_sym. reflexivity.
Qed.
Section Dual.
Variable n a b c : nat.
Variable f g h : nat -> nat -> Z.
Hypothesis size : n = (a + b + (c + c))%nat.
Hypothesis inv : is_involution n f.
Hypothesis igh : inverses n g h.
Hypothesis fixa : forall j, (j < a)%nat -> forall i, (i < n)%nat -> fmul n f g i j = g i j.
Hypothesis negb_ : forall j, (a <= j < a + b)%nat -> forall i, (i < n)%nat -> fmul n f g i j = - g i j.
Hypothesis swpc : forall j, (a + b <= j < a + b + c)%nat -> forall i, (i < n)%nat -> fmul n f g i j = g i (j + c)%nat.

Definition pm (k : nat) : nat := if (k <? a + b)%nat then k else if (k <? a + b + c)%nat then (k + c)%nat else (k - c)%nat.
Definition sg (k : nat) : Z := if (k <? a)%nat then 1 else if (k <? a + b)%nat then -1 else 1.
Ltac cases := repeat match goal with |- context [Nat.ltb ?x ?y] => destruct (Nat.ltb_spec x y); try (exfalso; lia) | |- context [Nat.eqb ?x ?y] => destruct (Nat.eqb_spec x y); try (exfalso; lia) end.
Lemma f_g i j : (i < n)%nat -> (j < n)%nat -> fmul n f g i j = sg j * g i (pm j).
Proof.
  intros Hi Hj. unfold sg, pm. cases.
  - rewrite fixa by auto. ring.
  - rewrite negb_ by (auto; lia). ring.
  - rewrite swpc by (auto; lia). ring.
  - assert (E : forall k, (k < n)%nat -> g k j = fmul n f g k (j - c)%nat) by (intros k Hk; rewrite swpc by (auto; lia); f_equal; lia).
    unfold fmul at 1. rewrite (zsum_ext n _ (fun k => f i k * fmul n f g k (j - c)%nat)) by (intros k Hk; rewrite E by exact Hk; reflexivity).
    change (fapply n f (fapply n f (fun k => g k (j - c)%nat)) i = 1 * g i (j - c)%nat). rewrite (f_f n f inv) by exact Hi. ring.
Qed.
Lemma pm_lt k : (k < n)%nat -> (pm k < n)%nat.
Proof. intros H. unfold pm. cases; lia. Qed.
Lemma h_f k i : (k < n)%nat -> (i < n)%nat -> fmul n h f k i = sg k * h (pm k) i.
Proof.
  intros Hk Hi. revert i Hi. apply (unimodular_cancel n g); [exists h; exact igh|]. intros j Hj.
  transitivity (sg j * delta k (pm j)).
  - change (fmul n (fmul n h f) g k j = sg j * delta k (pm j)). transitivity (fapply n h (fapply n f (fun i => g i j)) k); [rewrite fapply_fapply; reflexivity|].
    rewrite (fapply_ext n h _ (fun i => sg j * g i (pm j))) by (intros i Hi; apply f_g; auto). rewrite fapply_scale. f_equal. apply (proj2 igh); [exact Hk|apply pm_lt; exact Hj].
  - transitivity (sg k * delta (pm k) j).
    + unfold delta, sg, pm. cases; ring.
    + rewrite (zsum_ext n _ (fun i => sg k * (h (pm k) i * g i j))) by (intros; ring). rewrite zsum_mul_l. f_equal. symmetry. apply (proj2 igh); [apply pm_lt; exact Hk|exact Hj].
Qed.
(** the dual basis: its members taken in another order, the last ones with the opposite sign *)
Definition ord (j : nat) : nat := if (j <? b)%nat then (a + j)%nat else if (j <? b + a)%nat then (j - b)%nat else j.
Definition sgn (j : nat) : Z := if (j <? b + a + c)%nat then 1 else -1.
Definition dg (i j : nat) : Z := sgn j * h (ord j) i.
Definition dh (j i : nat) : Z := sgn j * g i (ord j).
Lemma ord_lt j : (j < n)%nat -> (ord j < n)%nat.
Proof. intros H. unfold ord. cases; lia. Qed.
Lemma dual_inverses : inverses n dh dg.
Proof.
  assert (E : feq n n (fmul n dh dg) (fun i j => 1 * delta i j)).
  { intros j k Hj Hk. unfold fmul, dh, dg. rewrite (zsum_ext n _ (fun i => sgn j * sgn k * (h (ord k) i * g i (ord j)))) by (intros; ring). rewrite zsum_mul_l.
    pose proof (proj2 igh (ord k) (ord j) (ord_lt k Hk) (ord_lt j Hj)) as D. unfold fmul in D. rewrite D. unfold delta, sgn, ord. cases; ring. }
  assert (D : det n dh <> 0) by (apply (inverse_det n dh dg 1); [lia|exact E]).
  destruct (right_left_inverse n dh dg 1 D E) as (I1 & I2). split; intros i j Hi Hj; [rewrite I1 by auto|rewrite I2 by auto]; ring.
Qed.
Lemma dual_splits_by : splits_by n (fun i j => - f j i) dg b a c.
Proof.
  assert (A : forall i j, (i < n)%nat -> (j < n)%nat -> fmul n (fun i j => - f j i) dg i j = - (sgn j * sg (ord j)) * h (pm (ord j)) i).
  { intros i j Hi Hj. unfold fmul, dg. rewrite (zsum_ext n _ (fun k => - sgn j * (h (ord j) k * f k i))) by (intros; ring). rewrite zsum_mul_l. change (zsum n (fun k => h (ord j) k * f k i)) with (fmul n h f (ord j) i).
    rewrite h_f by (auto; apply ord_lt; exact Hj). ring. }
  split; [lia|]. split; [exists dh; destruct dual_inverses; split; assumption|]. split; [|split].
  - intros j Hj i Hi. rewrite A by (auto; lia). unfold dg, sgn, sg, pm, ord. cases. ring.
  - intros j Hj i Hi. rewrite A by (auto; lia). unfold dg, sgn, sg, pm, ord. cases. ring.
  - intros j Hj i Hi. rewrite A by (auto; lia). unfold dg, sgn, sg, pm, ord. cases. ring.
Qed.
End Dual.
Lemma dual_splits n f a b c : is_involution n f -> splits n f a b c -> splits n (fun i j => - f j i) b a c.
Proof. intros Inv (g & Sz & (h & Igh) & Fa & Nb & Sw). eexists. apply (dual_splits_by n a b c f g h Sz Inv Igh Fa Nb Sw). Qed.
Lemma dual_ok dim fits as_int t n f : (forall z, as_int z = z) -> (n <= dim)%nat -> torus_of n f t ->
  gives (torus_dual dim fits as_int t) (torus_of n (fun i j => - f j i)) (overflows fits).
Proof.
  intros Hint Hn (_ & HM & Inv & _). unfold torus_dual.
  eapply gives_bind; [apply (transposed_ok 0 _ n n f HM)|]. intros M1 H1.
  eapply gives_bind; [eapply mat_negate_ok; [apply (zarith_ok fits)|exact H1]|]. intros M2 H2.
  eapply gives_mono; [apply (make_ok dim fits as_int M2 n (fun i j => - f j i) Hint Hn H2 (dual_involution n f Inv))|]. intros t' H. apply H.
Qed.

(** ** maps between component groups *)
Lemma image_mod2 n n' B m x v : is_matrix n' n (cols B) -> (forall i j, (i < n')%nat -> (j < n)%nat -> entry (cols B) i j = Z.odd (m i j)) ->
  mod2 n x v -> mod2 n' (fapply n m x) (image_of (cols B) v).
Proof.
  intros M E (W & H). unfold image_of. rewrite (lincomb_ext (coord v) (fun j => Z.odd (x j))) by (rewrite (proj1 M); exact H). apply lincomb_mod2; auto.
Qed.
Lemma eigen_map n n' f f' m s x : feq n' n (fmul n' f' m) (fmul n m f) -> eigen n f s x -> eigen n' f' s (fapply n m x).
Proof.
  intros E X i Hi. rewrite fapply_fapply, (fapply_mat n _ (fmul n m f)) by (intros j Hj; apply E; auto). rewrite <- fapply_fapply.
  rewrite (fapply_ext n m _ (fun j => s * x j)) by exact X. apply fapply_scale.
Qed.
Lemma component_ok dim t t' n n' f f' M m : (n <= dim)%nat -> (n' <= dim)%nat -> torus_of n f t -> torus_of n' f' t' -> is_mx M n' n m ->
  feq n' n (fmul n' f' m) (fmul n m f) ->
  gives (componentMap dim t M t') (fun A => rows A = sq_dimension (t_topology t') /\ is_matrix (sq_dimension (t_topology t')) (sq_dimension (t_topology t)) (cols A) /\
    forall x v w, eigen2_sum n f (data v) -> sized n v -> mod2 n x (data v) -> sized n' w -> mod2 n' (fapply n m x) (data w) ->
      gives (sq_toBasis dim (t_topology t) v) (fun u => sq_toBasis dim (t_topology t') w = Ok (mk_bv (image_of (cols A) (data u)) (sq_dimension (t_topology t')))) sure) sure.
Proof.
  intros Hn Hn' (_ & _ & _ & _ & _ & Q & _) (_ & _ & _ & _ & _ & Q' & _) HM E. unfold componentMap.
  eapply gives_bind; [apply (mat_mod2_ok dim M n' n m HM Hn')|]. intros B (RB & MB & EB).
  eapply gives_mono; [apply (C68_subquotientMap dim n n' _ _ _ _ _ _ B Hn Hn' Q Q' RB MB)|].
  - intros v (x & y & X & Y & V). exists (fapply n m x), (fapply n m y). split; [apply (eigen_map n n' f f' m 1 x E X)|]. split; [apply (eigen_map n n' f f' m (-1) y E Y)|].
    apply (mod2_same n' (fapply n m (fun i => x i + y i))); [intros i Hi; apply fapply_add|]. apply (image_mod2 n n' B m _ v MB EB V).
  - intros v (x & X & V). exists (fapply n m x). split; [apply (eigen_map n n' f f' m 1 x E X)|]. apply (image_mod2 n n' B m _ v MB EB V).
  - intros A (R1 & R2 & R3). split; [exact R1|]. split; [exact R2|]. intros x v w Hv Sv Xv Sw Xw. eapply gives_mono; [apply (R3 v Sv Hv)|]. intros u Hu. rewrite <- Hu. f_equal.
    destruct w as [dw lw]. cbn [data] in Xw. destruct Sw as (W1 & W2). cbn in W2. subst lw. f_equal. apply (mod2_unique n' _ _ _ Xw). apply (image_mod2 n n' B m x (data v) MB EB Xv).
Qed.
