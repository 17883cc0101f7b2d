(** Records for conjugate involutions, and the projection of rho. *)

From Coq Require Import List Arith ZArith Bool Lia Permutation.
From Verif Require Import VecModel RunModel RunProofs MatModel MatSpec MatLin MatRing MatProofs MatArith MatDiv LieTypeSpec RootModel RootSpec RootMath RootForm RootFin RootBase RootAcc RootUniq RootExt RootTop RootProps
  DatModel DatSpec DatMath DatProofs DatOps DatFactor DatMats DatPre DfSpec DfInv ToriSpec ToriLat IvModel IvSpec IvProofs IvDatum UqModel UqSpec UqMath UqProofs.
Import ListNotations.
Local Open Scope Z_scope.

(** *** conjugation by a matrix of order 2 *)
Section Conj.
Variables (n k : nat) (S th m g : nat -> nat -> Z).
Hypothesis S2 : feq n n (fmul n S S) delta.
Lemma two_apply x i : (i < n)%nat -> fapply n S (fapply n S x) i = x i.
Proof. intros Hi. rewrite fapply_fapply, (fapply_mat n _ delta) by (intros; apply S2; assumption). apply fapply_delta. exact Hi. Qed.
Notation conj := (conjugate n S th).
Lemma conj_apply x i : fapply n conj x i = fapply n S (fapply n th (fapply n S x)) i.
Proof. unfold conjugate. rewrite <- fapply_fapply, <- fapply_fapply. reflexivity. Qed.
Lemma matrix_apply a b (f h : nat -> nat -> Z) : (forall x i, (i < a)%nat -> fapply b f x i = fapply b h x i) -> feq a b f h.
Proof.
  intros E i j Hi Hj. specialize (E (fun l => delta l j) i Hi). unfold fapply in E. rewrite !zsum_delta_r in E by exact Hj. exact E.
Qed.
Lemma conj_involution : is_involution n th -> is_involution n conj.
Proof.
  intros I. apply matrix_apply. intros x i Hi. rewrite <- fapply_fapply, conj_apply.
  rewrite (fapply_ext n S _ (fapply n S x)); [rewrite two_apply by exact Hi; symmetry; apply fapply_delta; exact Hi|].
  intros j Hj. rewrite (fapply_ext n th _ (fapply n th (fapply n S x))).
  - rewrite fapply_fapply, (fapply_mat n _ delta) by (intros; apply I; assumption). apply fapply_delta. exact Hj.
  - intros l Hl. rewrite (fapply_ext n S _ (fapply n S (fapply n th (fapply n S x)))) by (intros; apply conj_apply). apply two_apply. exact Hl.
Qed.
Lemma conj_anti x i : (i < n)%nat -> anti n conj x i = fapply n S (anti n th (fapply n S x)) i.
Proof.
  intros Hi. unfold anti. rewrite conj_apply. change (fun j => fapply n S x j - fapply n th (fapply n S x) j) with (fun j => fapply n S x j - fapply n th (fapply n S x) j).
  rewrite fapply_sub. change (fun j => fapply n S x j) with (fapply n S x). change (fun j => fapply n th (fapply n S x) j) with (fapply n th (fapply n S x)). rewrite two_apply by exact Hi. reflexivity.
Qed.
Lemma conj_factors : factors n k th m g -> factors n k conj (fmul n m S) (fmul n S g).
Proof.
  intros F. split; [|split].
  - apply matrix_apply. intros x i Hi. rewrite anti_mat, conj_anti by exact Hi. rewrite <- fapply_fapply, <- fapply_fapply. apply fapply_ext. intros j Hj. rewrite <- (fac_apply n k th m g F) by exact Hj.
    apply fapply_ext. intros l Hl. rewrite <- fapply_fapply. reflexivity.
  - intros x X. apply (proj1 (proj2 F)). intros i Hi. rewrite <- (two_apply (fapply k g x)) by exact Hi. unfold fapply at 1. apply zsum_zero. intros j Hj. rewrite fapply_fapply, X by exact Hj. ring.
  - intros y. destruct (proj2 (proj2 F) y) as (x & X). exists (fapply n S x). intros j Hj. rewrite <- X by exact Hj. rewrite <- fapply_fapply. apply fapply_ext. intros i Hi. apply two_apply. exact Hi.
Qed.
End Conj.

(** *** sums over lists *)
Definition lsum (l : list Z) : Z := fold_right Z.add 0 l.
Lemma co_vsum r l k : (k < r)%nat -> co (vsum r l) k = lsum (map (fun v => co v k) l).
Proof.
  intros Hk. induction l as [|v l IH]; [unfold co; cbn; apply nth_repeat|]. change (vsum r (v :: l)) with (RootSpec.plus r v (vsum r l)). cbn [map]. rewrite co_plusk, IH by exact Hk. reflexivity.
Qed.
Lemma lsum_perm l l' : Permutation l l' -> lsum l = lsum l'.
Proof. intros P. unfold lsum. induction P; cbn [fold_right]; lia. Qed.
Lemma lsum_even {T} (f h : T -> Z) l : (forall a, In a l -> (2 | f a - h a)) -> (2 | lsum (map f l) - lsum (map h l)).
Proof.
  induction l as [|a l IH]; intros X; cbn; [exists 0; reflexivity|]. destruct (IH ltac:(intros; apply X; right; assumption)) as (z & Ez). destruct (X a ltac:(left; reflexivity)) as (w & Ew).
  exists (z + w). fold (lsum (map f l)). fold (lsum (map h l)). lia.
Qed.

Lemma nodup_map {T U} (f : T -> U) l : (forall a b, In a l -> In b l -> f a = f b -> a = b) -> NoDup l -> NoDup (map f l).
Proof.
  induction l as [|a l IH]; intros X N; cbn; [constructor|]. inversion N; subst. constructor.
  - intros J. apply in_map_iff in J as (b & E & Ib). assert (b = a) by (apply X; [right; exact Ib|left; reflexivity|exact E]). subst. contradiction.
  - apply IH; [|assumption]. intros x y Ix Iy. apply X; right; assumption.
Qed.

Section Datum.
Variable fits : Z -> bool.
Variables (r n : nat) (A B : nat -> nat -> Z) (p : predatum) (d : datum).
Notation al := (fcol r A).
Notation be := (fcol r B).
Notation C := (fun i j => dot r (al i) (be j)).
Hypothesis K : datum_ok r n A B p d.
Notation s := (d_sys d).
Notation E := (overflows fits).
Notation rho2 := (co (d_2rho d)).
Lemma co_image g v i : (i < r)%nat -> co (image_by r g v) i = fapply r g (co v) i.
Proof. intros Hi. unfold image_by. rewrite co_comb by exact Hi. unfold fapply. apply zsum_ext. intros j Hj. rewrite co_fcol by exact Hi. ring. Qed.
Lemma image_inv g v : is_involution r g -> length v = r -> image_by r g (image_by r g v) = v.
Proof.
  intros I L. apply vec_ext; [rewrite image_length; symmetry; exact L|]. intros i Hi. rewrite image_length in Hi. rewrite co_image by exact Hi.
  rewrite (fapply_ext r g _ (fapply r g (co v))) by (intros; apply co_image; assumption). rewrite fapply_fapply, (fapply_mat r _ delta) by (intros; apply I; assumption). apply fapply_delta. exact Hi.
Qed.
Lemma rho_sum k : (k < r)%nat -> rho2 k = lsum (map (fun a => co (weight d a) k) (seq (num_pos s) (num_pos s))).
Proof.
  intros Hk. rewrite (k_2rho _ _ _ _ _ _ K), co_vsum, map_map by exact Hk. f_equal. apply map_ext_in. intros a Ia. apply in_seq in Ia. rewrite (weight_eq r n A B p d K) by (unfold num_roots; lia). reflexivity.
Qed.
Lemma fapply_lsum g (F : nat -> nat -> Z) l k : fapply r g (fun j => lsum (map (fun a => F a j) l)) k = lsum (map (fun a => fapply r g (F a) k) l).
Proof.
  induction l as [|a l IH]; cbn; [unfold fapply; apply zsum_zero; intros; lia|]. fold (lsum (map (fun a => fapply r g (F a) k) l)). rewrite <- IH.
  exact (fapply_add r g (F a) (fun j => lsum (map (fun a => F a j) l)) k).
Qed.
(** the sum of the positive roots and its image differ by twice a weight *)
Lemma rho_even q g k : is_mx q r r g -> is_involution r g -> automorphism r n A B g -> (k < r)%nat -> (2 | rho2 k + fapply r g rho2 k).
Proof.
  intros Hq Ig Ag Hk.
  assert (M : exists l, moves s (weight d) (image_by r g) l).
  { pose proof (perm_run (fun _ => true) r n A B p d K q g Hq Ag) as X. destruct (rootPermutation (fun _ => true) d q) as [l|e]; cbn in X; [exists l; apply X|]. destruct X as (_ & z & Hz). discriminate. }
  destruct M as (l & Ml).
  set (N := num_pos s). set (im := fun a => nth a l 0%nat). set (pi := fun a => if (N <=? im a)%nat then im a else (num_roots s - 1 - im a)%nat).
  assert (NR : num_roots s = (N + N)%nat) by (unfold num_roots, N; lia).
  assert (I1 : forall a, (a < num_roots s)%nat -> (im a < num_roots s)%nat /\ weight d (im a) = image_by r g (weight d a)).
  { intros a Ha. destruct (proj2 Ml a Ha) as (b & G & Hb & W). unfold im. rewrite (VecProofs.get_nth_eq _ _ _ _ G). auto. }
  assert (Lw : forall a, (a < num_roots s)%nat -> length (weight d a) = r) by (intros a Ha; rewrite (weight_eq r n A B p d K a Ha); apply comb_length).
  assert (Inj : forall a b, (a < num_roots s)%nat -> (b < num_roots s)%nat -> weight d a = weight d b -> a = b).
  { intros a b Ha Hb W. destruct (k_sys _ _ _ _ _ _ K) as [c (n32 & ft & mc & made)]. apply (top_inj n C c _ s n32 ft mc made a b Ha Hb). left. rewrite !(weight_eq r n A B p d K) in W by assumption. apply (emb_eq r n A B p d K); [apply (at_len r n A B p d K a Ha)|apply (at_len r n A B p d K b Hb)|exact W]. }
  assert (Back : forall a b, (a < num_roots s)%nat -> (b < num_roots s)%nat -> image_by r g (weight d a) = image_by r g (weight d b) -> a = b).
  { intros a b Ha Hb W. apply Inj; [exact Ha|exact Hb|]. rewrite <- (image_inv g (weight d a) Ig (Lw a Ha)), W. apply image_inv; auto. }
  assert (Pp : Permutation (map pi (seq N N)) (seq N N)).
  { apply NoDup_Permutation_bis; [|rewrite map_length; reflexivity|].
    - apply nodup_map; [|apply seq_NoDup]. intros a b Ia Ib Q. apply in_seq in Ia, Ib. destruct (I1 a ltac:(lia)) as (Ba & Wa). destruct (I1 b ltac:(lia)) as (Bb & Wb).
      assert (Hx : forall x, (x < num_roots s)%nat -> weight d (num_roots s - 1 - x) = opp (weight d x)) by (intros; apply (weight_minus r n A B p d K); assumption).
      assert (Opp : forall x y, (x < num_roots s)%nat -> (y < num_roots s)%nat -> (N <= x)%nat -> (N <= y)%nat -> weight d (im x) = opp (weight d (im y)) -> False).
      { intros x y Hxx Hyy Nx Ny W. destruct (I1 x Hxx) as (_ & Wx). destruct (I1 y Hyy) as (_ & Wy). rewrite Wx, Wy, <- image_opp, <- Hx in W by exact Hyy. apply Back in W; [|exact Hxx|lia]. lia. }
      unfold pi in Q. destruct (Nat.leb_spec N (im a)), (Nat.leb_spec N (im b)).
      + apply Back; [lia|lia|]. rewrite <- Wa, <- Wb. f_equal. exact Q.
      + exfalso. apply (Opp a b); [lia|lia|lia|lia|]. rewrite Q. apply Hx. exact Bb.
      + exfalso. apply (Opp b a); [lia|lia|lia|lia|]. rewrite <- Q. apply Hx. exact Ba.
      + apply Back; [lia|lia|]. rewrite <- Wa, <- Wb. f_equal. lia.
    - intros x Ix. apply in_map_iff in Ix as (a & <- & Ia). apply in_seq in Ia. destruct (I1 a ltac:(lia)) as (Ba & _). apply in_seq. unfold pi. destruct (Nat.leb_spec N (im a)); lia. }
  assert (E1 : fapply r g rho2 k = lsum (map (fun a => co (weight d (im a)) k) (seq N N))).
  { rewrite (fapply_ext r g rho2 (fun j => lsum (map (fun a => co (weight d a) j) (seq N N)))) by (intros; apply rho_sum; assumption). rewrite (fapply_lsum g (fun a => co (weight d a)) (seq N N) k). f_equal. apply map_ext_in. intros a Ia. apply in_seq in Ia.
    destruct (I1 a ltac:(lia)) as (_ & ->). rewrite co_image by exact Hk. reflexivity. }
  assert (E2 : rho2 k = lsum (map (fun a => co (weight d (pi a)) k) (seq N N))).
  { rewrite rho_sum by exact Hk. rewrite <- (map_map pi (fun a => co (weight d a) k)). apply lsum_perm. apply Permutation_map. symmetry. exact Pp. }
  assert (D : (2 | fapply r g rho2 k - rho2 k)).
  { rewrite E1, E2. apply lsum_even. intros a Ia. apply in_seq in Ia. destruct (I1 a ltac:(lia)) as (Ba & _). unfold pi. destruct (Nat.leb_spec N (im a)); [exists 0; lia|]. rewrite (weight_minus r n A B p d K) by exact Ba. rewrite co_opp. exists (co (weight d (im a)) k). lia. }
  destruct D as (z & Ez). exists (rho2 k + z). lia.
Qed.
(** twice the vector is the image of twice rho by 1 plus the involution *)
Definition rho_at (th : nat -> nat -> Z) (v : list Z) : Prop := exists x, is_vec v r x /\ forall i, (i < r)%nat -> 2 * x i = rho2 i + fapply r th rho2 i.
Lemma first_rho_run q g : is_mx q r r g -> is_involution r g -> automorphism r n A B g -> gives (first_th1_rho fits d q) (rho_at g) E.
Proof.
  intros Hq Ig Ag. unfold first_th1_rho. assert (V : is_vec (d_2rho d) r rho2) by (apply vec_self; apply (rho_ok r n A B p d K)).
  eapply gives_bind; [apply (apply_run fits q r r g _ _ Hq V)|]. intros v Hv.
  eapply gives_bind; [eapply vec_add_ok; [apply (zarith_ok fits)|exact V|exact Hv]|]. intros w Hw. cbn beta in Hw.
  eapply RatVecProofs.gives_conv; [| |apply (vec_div_ok fits w r _ 2 Hw)].
  - intros u (_ & y & Hu & Hy). exists y. split; [exact Hu|]. intros i Hi. rewrite <- Hy by exact Hi. reflexivity.
  - intros e [(_ & [J|(i & Hi & J)])|J]; [discriminate| |exact J]. exfalso. apply J. apply (rho_even q g i Hq Ig Ag Hi).
Qed.

(** *** conjugation by a simple reflection *)
Lemma rmatrix_two i : (i < n)%nat -> feq r r (fmul r (rmatrix (al i) (be i)) (rmatrix (al i) (be i))) delta.
Proof.
  intros Hi a b Ha Hb. unfold fmul, rmatrix. pose proof (pairing_2 r n A B p d K) as P2. destruct (k_simple r n A B p d K i Hi) as (Q1 & Q2 & Q3). specialize (P2 _ Q1). rewrite Q2, Q3, !comb_basis in P2 by (auto using fcol_length).
  rewrite (zsum_ext r _ (fun k => delta a k * (delta k b - co (al i) k * co (be i) b) + (- co (al i) a) * (co (be i) k * delta k b) + co (al i) a * co (be i) b * (co (al i) k * co (be i) k))) by (intros; ring).
  rewrite !zsum_add, zsum_delta_l, !zsum_mul_l, zsum_delta_r by assumption. unfold dot in P2. rewrite P2. ring.
Qed.
Lemma rmatrix_fapply i v k : (k < r)%nat -> fapply r (rmatrix (al i) (be i)) v k = v k - zsum r (fun j => v j * co (be i) j) * co (al i) k.
Proof.
  intros Hk. unfold fapply, rmatrix. rewrite (zsum_ext r _ (fun j => delta k j * v j + (- co (al i) k) * (v j * co (be i) j))) by (intros; ring).
  rewrite zsum_add, zsum_delta_l, zsum_mul_l by exact Hk. ring.
Qed.
Theorem cross_run i beta k th m g me : (i < n)%nat -> record_at r k th m g me -> rho_at th (ir_rho me) ->
  let S := rmatrix (al i) (be i) in (beta < num_roots s)%nat -> weight d beta = image_by r (conjugate r S th) (al i) ->
  gives (cross_record fits d i beta me) (fun me' => record_at r k (conjugate r S th) (fmul r m S) (fmul r S g) me' /\ rho_at (conjugate r S th) (ir_rho me')) E.
Proof.
  intros Hi (H1 & H2 & H3 & H4 & H5) (x & Vx & Hx) S Hb Wb. unfold cross_record.
  destruct (k_simple r n A B p d K i Hi) as (Q1 & Q2 & Q3).
  assert (RS : forall N : nat, rmatrix (comb r n al (root_at s (d_simple d i))) (comb r n be (coroot_at s (d_simple d i))) = S).
  { intros _. rewrite Q2, Q3, !comb_basis by (auto using fcol_length). reflexivity. }
  eapply gives_bind; [apply (d_left_run fits r n A B p d K (d_simple d i) _ r th Q1 H1)|]. intros t1 T1. rewrite (RS 0%nat) in T1.
  eapply gives_bind; [apply (d_right_run fits r n A B p d K (d_simple d i) _ r _ Q1 T1)|]. intros t2 T2. rewrite (RS 0%nat) in T2.
  eapply gives_bind; [apply (d_right_run fits r n A B p d K (d_simple d i) _ k m Q1 H2)|]. intros m2 M2. rewrite (RS 0%nat) in M2.
  eapply gives_bind; [apply (d_left_run fits r n A B p d K (d_simple d i) _ k g Q1 H3)|]. intros l2 L2. rewrite (RS 0%nat) in L2.
  eapply gives_bind; [apply (simple_run fits r n A B p d K i (ir_rho me) 0 Hi (proj1 Vx))|]. intros v <-.
  rewrite (proj1 (d_simple_run r n A B p d K i Hi)). cbn [bind].
  eapply gives_bind; [eapply (vec_add_ok (zarith fits)); [apply (zarith_ok fits)|apply vec_self; apply away_length|apply vec_self; apply fcol_length]|]. intros v1 V1. cbn beta in V1.
  assert (Db : d_root d beta = Ok (weight d beta)) by (rewrite (weight_eq r n A B p d K beta Hb); apply (d_root_run r n A B p d K beta Hb)). rewrite Db. cbn [bind].
  eapply gives_bind; [eapply (vec_add_ok (zarith fits)); [apply (zarith_ok fits)|exact V1|apply vec_self; rewrite Wb; apply image_length]|]. intros v2 V2. cbn beta in V2. cbn [gives ir_rho].
  pose proof (rmatrix_two i Hi) as S2. fold S in S2. split.
  - split; [exact T2|]. split; [exact M2|]. split; [exact L2|]. split; [apply (conj_involution r S th S2 H4)|apply (conj_factors r k S th m g S2 H5)].
  - eexists. split; [exact V2|]. intros j Hj. cbn beta. rewrite Wb, co_image, co_awayk by exact Hj. rewrite Z.add_0_r.
    assert (Ex : forall t, (t < r)%nat -> co (ir_rho me) t = x t) by (intros t Ht; unfold co; apply VecProofs.get_nth_eq, (proj2 Vx t Ht)). unfold dot. rewrite (Ex j Hj).
    rewrite (zsum_ext r (fun k0 => co (ir_rho me) k0 * co (be i) k0) (fun k0 => x k0 * co (be i) k0)) by (intros; rewrite Ex by assumption; reflexivity).
    rewrite <- (rmatrix_fapply i x j Hj). fold S.
    assert (Sr : forall t, (t < r)%nat -> fapply r S rho2 t = rho2 t - 2 * co (al i) t).
    { intros t Ht. unfold S. rewrite rmatrix_fapply by exact Ht. change (zsum r (fun j0 => rho2 j0 * co (be i) j0)) with (dot r (d_2rho d) (be i)). rewrite (proj1 (proj2 (proj2 (rho_ok r n A B p d K))) i Hi). reflexivity. }
    assert (X : 2 * fapply r S x j = fapply r S rho2 j + fapply r S (fapply r th rho2) j).
    { rewrite <- fapply_scale, <- fapply_add. apply fapply_ext. exact Hx. }
    assert (Y : fapply r S (fapply r th rho2) j = fapply r (conjugate r S th) rho2 j - 2 * fapply r (conjugate r S th) (co (al i)) j).
    { rewrite <- (fapply_scale r _ 2), <- fapply_sub. transitivity (fapply r (conjugate r S th) (fapply r S rho2) j).
      - rewrite conj_apply. apply fapply_ext. intros t Ht. apply fapply_ext. intros u Hu. symmetry. apply (two_apply r S S2). exact Hu.
      - apply fapply_ext. intros t Ht. apply Sr. exact Ht. }
    rewrite Sr in X by exact Hj. lia.
Qed.
End Datum.
