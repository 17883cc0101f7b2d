(** Proofs about lattice functions. *)

From Coq Require Import List Arith ZArith Lia Bool.
From Verif Require Import VecModel VecProofs SetModel RunModel RunProofs MatModel MatSpec MatProofs MatArith MatDiv MatOps MatOps2 MatRing MatDet RedSpec MatLin RedModel RedGcd RedEchelon RedSolve RedInverse RedDiag RedSystem RedAdapt RedSpan LatModel LatSpec.
Import ListNotations.
Open Scope nat_scope.

Lemma echelon_inj m r g p y : echelon m r g p -> (forall i, i < m -> fapply r g y i = 0%Z) -> forall j, j < r -> y j = 0%Z.
Proof.
  intros (H1 & H2) HY.
  assert (K : forall t, t <= r -> forall j, r - t <= j < r -> y j = 0%Z).
  { induction t as [|t IH]; intros Ht j Hj; [lia|]. destruct (Nat.eq_dec j (r - S t)) as [E|N]; [|apply IH; lia].
    assert (J : j < r) by lia. destruct (H1 j J) as (P1 & P2 & P3). specialize (HY (p j) P1). unfold fapply in HY.
    rewrite (zsum_one r j) in HY; [|exact J|].
    - nia.
    - intros k Hk ne. destruct (Nat.lt_total k j) as [L|[->|L]]; [|tauto|].
      + destruct (H1 k Hk) as (_ & _ & Z0). rewrite Z0; [lia|]. split; [apply H2; auto|exact P1].
      + rewrite (IH ltac:(lia) k ltac:(lia)). lia. }
  intros j Hj. apply (K r); lia.
Qed.
(** consecutive columns of an invertible matrix *)
Lemma part_basis n c o s (P : (nat -> Z) -> Prop) : unimodular n c -> o + s <= n ->
  (forall x x', (forall i, i < n -> x i = x' i) -> P x -> P x') ->
  (forall y, P (fapply n c y) <-> forall j, j < n -> ~ o <= j < o + s -> y j = 0%Z) ->
  basis_of n s (fun i j => c i (o + j)) P.
Proof.
  intros (c' & G1 & G2) Hs EX HP.
  assert (T : forall y i, (forall j, j < n -> ~ o <= j < o + s -> y j = 0%Z) -> fapply n c y i = fapply s (fun i j => c i (o + j)) (fun j => y (o + j)) i).
  { intros y i H. unfold fapply. rewrite (zsum_range n o s); [reflexivity|lia|]. intros k Hk ne. rewrite H by lia. lia. }
  assert (I1 : forall x i, i < n -> fapply n c (fapply n c' x) i = x i).
  { intros x i Hi. rewrite fapply_fmul, (fapply_ext n _ delta x x) by auto. apply fapply_delta; auto. }
  assert (I2 : forall x i, i < n -> fapply n c' (fapply n c x) i = x i).
  { intros x i Hi. rewrite fapply_fmul, (fapply_ext n _ delta x x) by auto. apply fapply_delta; auto. }
  set (pad := fun (d : nat -> Z) j => if (o <=? j) && (j <? o + s) then d (j - o) else 0%Z).
  assert (PZ : forall d j, ~ o <= j < o + s -> pad d j = 0%Z).
  { intros d j H. unfold pad. destruct (Nat.leb_spec o j), (Nat.ltb_spec j (o + s)); cbn; auto; lia. }
  assert (PD : forall d j, j < s -> pad d (o + j) = d j).
  { intros d j H. unfold pad. destruct (Nat.leb_spec o (o + j)), (Nat.ltb_spec (o + j) (o + s)); cbn; try lia. f_equal. lia. }
  assert (TP : forall d i, fapply n c (pad d) i = fapply s (fun i j => c i (o + j)) d i).
  { intros d i. rewrite T by auto. apply fapply_ext; auto. }
  split.
  - intros x. split.
    + intros Hx. assert (Hy : P (fapply n c (fapply n c' x))) by (eapply EX; [|exact Hx]; intros; rewrite I1; auto).
      pose proof (proj1 (HP _) Hy) as Hz. exists (fun j => fapply n c' x (o + j)). intros i Hi. rewrite <- T by auto. rewrite I1; auto.
    + intros (d & Hd). apply EX with (x := fapply n c (pad d)).
      * intros i Hi. rewrite TP. symmetry. auto.
      * apply HP. auto.
  - intros d Hd j Hj. rewrite <- PD by exact Hj. rewrite <- (I2 (pad d) (o + j)) by lia.
    unfold fapply at 1. apply zsum_zero. intros k Hk. rewrite TP, Hd by auto. lia.
Qed.
Lemma annihilated_ext m n f x x' : (forall i, i < n -> x i = x' i) -> annihilated m n f x -> annihilated m n f x'.
Proof. intros H A i Hi. rewrite <- (A i Hi). apply fapply_ext; auto. intros; symmetry; auto. Qed.

Section Lat.
Variable fits : Z -> bool.
Variable as_int : Z -> Z.
Hypothesis Hint : forall z, as_int z = z.
Notation E := (overflows fits).

Theorem kernel_ok M m n f : is_mx M m n f ->
  gives (kernel fits as_int M) (fun K => exists k g, is_mx K n k g /\ basis_of n k g (annihilated m n f)) E.
Proof.
  intros HM. unfold kernel. rewrite (is_mx_cols _ _ _ _ HM).
  eapply gives_bind; [apply (column_echelon_ok fits as_int Hint M m n f HM)|].
  intros [[[M' C] flip] piv] (r & g & c & p & Hr & HM' & HC & HD & HF & HE & _).
  rewrite (is_mx_cols _ _ _ _ HM'). eapply gives_mono; [apply (block_ok 0%Z C n n c 0 r n n HC); lia|].
  intros K HK. exists (n - r), (fun i j => c i (r + j)). rewrite Nat.sub_0_r in HK. split; [exact HK|].
  apply part_basis; [eapply sgn_unimodular; eauto|lia|intros x x'; apply annihilated_ext|].
  intros y. assert (X : forall i, i < m -> fapply n f (fapply n c y) i = fapply r g y i).
  { intros i Hi. rewrite fapply_fmul. unfold fapply. rewrite (zsum_range n 0 r) by (try lia; intros k Hk ne; rewrite HF by auto; destruct (Nat.ltb_spec k r); lia).
    apply zsum_ext. intros k Hk. cbn [Nat.add]. rewrite HF by lia. destruct (Nat.ltb_spec k r); [reflexivity|lia]. }
  split.
  - intros A j Hj Ho. apply (echelon_inj m r g p y HE); [|lia]. intros i Hi. rewrite <- X by auto. apply A; auto.
  - intros Z0 i Hi. rewrite X by auto. unfold fapply. apply zsum_zero. intros j Hj. rewrite Z0 by lia. lia.
Qed.
Theorem eigen_lattice_ok M n f lambda : is_mx M n n f ->
  gives (eigen_lattice fits as_int M lambda)
    (fun K => exists k g, is_mx K n k g /\ basis_of n k g (fun x => forall i, i < n -> fapply n f x i = (lambda * x i)%Z)) E.
Proof.
  intros HM. unfold eigen_lattice. eapply gives_bind with (P := fun c => c = (- lambda)%Z).
  { unfold chkz. destruct (fits (- lambda)) eqn:F; cbn; auto. split; auto. eauto. }
  intros c ->. eapply gives_bind; [eapply add_scalar_ok; [apply zarith_ok|exact HM]|].
  intros M' HM'. eapply gives_mono; [apply (kernel_ok M' n n _ HM')|].
  intros K (k & g & HK & B1 & B2). exists k, g. split; auto. split; auto.
  intros x. rewrite <- B1. unfold annihilated.
  assert (X : forall i, i < n -> fapply n (fun i j => if i =? j then (f i j + - lambda)%Z else f i j) x i = (fapply n f x i - lambda * x i)%Z).
  { intros i Hi. unfold fapply. rewrite (zsum_ext n _ (fun j => f i j * x j + (if (j =? i)%nat then - lambda * x i else 0))%Z).
    - rewrite zsum_add, (zsum_one n i (fun j => if j =? i then (- lambda * x i)%Z else 0%Z)); auto.
      + rewrite Nat.eqb_refl. lia.
      + intros j Hj ne. destruct (Nat.eqb_spec j i); [tauto|reflexivity].
    - intros j Hj. rewrite (Nat.eqb_sym j i). destruct (Nat.eqb_spec i j) as [->|]; lia. }
  split; intros H i Hi; specialize (H i Hi); [rewrite X by auto; lia|rewrite X in H by auto; lia].
Qed.

Lemma orthogonal_ext m n f x x' : (forall i, i < m -> x i = x' i) -> orthogonal m n f x -> orthogonal m n f x'.
Proof. intros H A j Hj. rewrite <- (A j Hj). apply frow_ext; auto. intros; symmetry; auto. Qed.
Lemma frow_fapply m y f j : frow m y f j = fapply m (fun a b => f b a) y j.
Proof. unfold frow, fapply. apply zsum_ext. intros; lia. Qed.
Theorem perp_ok b m n f : is_mx b m n f ->
  gives (perp fits b) (fun vs => exists v, length vs <= m /\ (forall j, j < length vs -> exists l, get vs j = Some l /\ is_vec l m (fun i => v i j)) /\
     basis_of m (length vs) v (orthogonal m n f)) E.
Proof.
  intros HM. unfold perp. rewrite (is_mx_rows _ _ _ _ HM).
  eapply gives_bind; [apply (diagonalise_ok fits m n f b HM)|].
  intros [[factor Rm] C] (r & dd & rho & gamma & [Lf _] & HR & HC & UR & HX). 
  destruct HX as (UC & _ & Hm & Hn & HF & HD & _). rewrite Lf.
  eapply gives_mono; [apply (gives_upto (fun i vs => length vs = i - r /\ forall j, j < i - r -> exists l, get vs j = Some l /\ is_vec l m (rho (r + j))))|].
  - rewrite Nat.sub_diag. split; [reflexivity|]. intros; lia.
  - intros i vs Hi (L & G). eapply gives_bind; [apply (row_ok Rm m m rho i HR); lia|]. intros v Hv. apply gives_ok. split.
    + rewrite app_length, L. cbn [length]. lia.
    + intros j Hj. unfold get in *. destruct (Nat.eq_dec j (i - r)) as [->|N].
      * exists v. rewrite nth_error_app2 by lia. replace (i - r - length vs) with 0 by lia. split; [reflexivity|]. replace (r + (i - r)) with i by lia. exact Hv.
      * rewrite nth_error_app1 by lia. apply G. lia.
  - intros vs (L & G). replace (r + (m - r) - r) with (m - r) in * by lia. exists (fun i j => rho (r + j) i). rewrite L. split; [lia|]. split; [exact G|].
    apply (part_basis m (fun i j => rho j i) r (m - r)); [apply unimodular_transpose; exact UR|lia|intros x x'; apply orthogonal_ext|].
    intros z.
    set (W := frow m z (fmul m rho f)).
    assert (EW : forall j, frow m (fapply m (fun i j => rho j i) z) f j = W j).
    { intros j. unfold W. rewrite <- frow_mul. apply frow_ext; auto. intros i Hi. symmetry. apply frow_fapply. }
    assert (WG : forall k, k < n -> frow n W gamma k = (if (k <? r)%nat then z k * dd k else 0)%Z).
    { intros k Hk. unfold W. rewrite frow_mul. unfold frow.
      destruct (Nat.ltb_spec k r) as [Lk|Lk].
      - rewrite (zsum_one m k); [|lia|].
        + rewrite HF by lia. rewrite Nat.eqb_refl. destruct (Nat.ltb_spec k r); [reflexivity|lia].
        + intros i Hi ne. rewrite HF by auto. destruct (Nat.eqb_spec i k); [tauto|]. cbn [andb]. lia.
      - apply zsum_zero. intros i Hi. rewrite HF by auto. destruct (Nat.eqb_spec i k) as [->|]; cbn [andb]; [|lia]. destruct (Nat.ltb_spec k r); lia. }
    split.
    + intros H k Hk Ho. assert (Lk : k < r) by lia. specialize (WG k ltac:(lia)).
      destruct (Nat.ltb_spec k r); [|lia]. assert (frow n W gamma k = 0%Z). { unfold frow. apply zsum_zero. intros j Hj. rewrite <- EW, (H j Hj). lia. }
      specialize (HD k Lk). nia.
    + intros H j Hj. rewrite EW. apply Z.divide_0_l. revert j Hj. apply (frow_divides n W gamma 0%Z); [apply unimodular_det; auto|].
      intros k Hk. rewrite WG by auto. destruct (Nat.ltb_spec k r); [rewrite H by lia|]; apply Z.divide_0_r.
Qed.

(** * saturation *)
Lemma common_multiple r (dd : nat -> Z) : (forall b, b < r -> (0 < dd b)%Z) -> exists k, (0 < k)%Z /\ forall b, b < r -> (dd b | k)%Z.
Proof.
  induction r as [|r IH]; intros H; [exists 1%Z; split; [lia|intros; lia]|]. destruct IH as (k & K & D); [intros; apply H; lia|].
  exists (k * dd r)%Z. split; [specialize (H r ltac:(lia)); nia|]. intros b Hb. destruct (Nat.eq_dec b r) as [->|]; [apply Z.divide_factor_r|].
  apply Z.divide_mul_l. apply D. lia.
Qed.
Theorem row_saturate_ok M m n f : is_mx M m n f ->
  gives (row_saturate fits as_int M) (fun S => exists r g, is_mx S r n g /\ basis_of n r (fun i j => g j i) (in_saturation m n f) /\ forall x, annihilated m n f x <-> annihilated r n g x) E.
Proof.
  intros HM. unfold row_saturate. rewrite (is_mx_cols _ _ _ _ HM).
  eapply gives_bind; [apply (transposed_ok 0%Z M m n f HM)|]. intros T HT.
  eapply gives_bind; [apply (adapted_basis_ok fits as_int Hint n m _ T HT)|].
  intros [b factor] (r & dd & beta & gamma & [Lf _] & HB & Hr & Hr' & HD & UB & UG & HF). rewrite Lf.
  apply (gives_upto0 (fun i S => exists h, is_mx S r n h /\ forall a c, a < i -> c < n -> h a c = beta c a)).
  - exists (fun _ _ => 0%Z). split; [apply fill_ok|intros; lia].
  - intros i S0 Hi (h & HS & EH). eapply gives_bind; [apply (column_ok 0%Z b n n beta i HB); lia|]. intros v Hv.
    eapply gives_mono; [apply (set_row_ok S0 r n h i v _ HS Hi Hv)|]. intros S1 HS1. eexists. split; [exact HS1|].
    intros a c Ha Hc. cbn beta. destruct (Nat.eqb_spec a i) as [->|]; auto. apply EH; lia.
  - intros S0 (h & HS & EH). exists r, h. split; [exact HS|].
    set (fT := fun i j => f j i) in *.
    assert (FG : forall w a, a < n -> fapply m fT (fapply m gamma w) a = zsum r (fun b => beta a b * (dd b * w b))%Z).
    { intros w a Ha. rewrite fapply_fmul. unfold fapply. rewrite (zsum_range m 0 r) by (try lia; intros k Hk ne; rewrite HF by auto; destruct (Nat.ltb_spec k r); lia).
      apply zsum_ext. intros k Hk. cbn [Nat.add]. rewrite HF by lia. destruct (Nat.ltb_spec k r); [lia|lia]. }
    destruct UG as (gamma' & G1 & G2). destruct UB as (beta' & B1 & B2).
    split.
    + assert (BO : basis_of n r (fun i j => beta i (0 + j)) (in_saturation m n f)).
      { apply part_basis; [exists beta'; split; auto|lia| |].
        - intros x x' EX (k & y & K & H). exists k, y. split; auto. intros j Hj. rewrite H by auto. rewrite EX by auto. reflexivity.
        - intros z. split.
          + intros (k & y & K & H) b0 Hb Ho. 
            assert (ZB : forall a, a < n -> fapply n beta (fun b => k * z b - (if (b <? r)%nat then dd b * fapply m gamma' y b else 0))%Z a = 0%Z).
            { intros a Ha. unfold fapply at 1. rewrite (zsum_ext n _ (fun b => beta a b * (k * z b) + (-1) * (beta a b * (if (b <? r)%nat then dd b * fapply m gamma' y b else 0))))%Z by (intros; lia).
              rewrite zsum_add, zsum_mul_l.
              rewrite (zsum_range n 0 r (fun b => beta a b * (if (b <? r)%nat then dd b * fapply m gamma' y b else 0))%Z) by (try lia; intros c Hc ne; destruct (Nat.ltb_spec c r); lia).
              cbn [Nat.add]. rewrite (zsum_ext r (fun k0 => beta a k0 * (if (k0 <? r)%nat then dd k0 * fapply m gamma' y k0 else 0))%Z (fun b => beta a b * (dd b * fapply m gamma' y b))%Z)
                by (intros c Hc; destruct (Nat.ltb_spec c r); [reflexivity|lia]).
              rewrite <- FG by auto. rewrite (fapply_ext m fT fT _ y) by (auto; intros j Hj; rewrite fapply_fmul, (fapply_ext m _ delta y y) by auto; apply fapply_delta; auto).
              specialize (H a Ha). rewrite frow_fapply in H. fold fT in H. rewrite H.
              change (zsum n (fun i => (beta a i * (k * z i))%Z)) with (fapply n beta (fun i => k * z i)%Z a). rewrite fapply_scale. lia. }
            assert (V0 : (k * z b0 - (if (b0 <? r)%nat then dd b0 * fapply m gamma' y b0 else 0) = 0)%Z).
            { rewrite <- (fapply_delta n (fun b => k * z b - (if (b <? r)%nat then dd b * fapply m gamma' y b else 0))%Z b0) by auto.
              rewrite <- (fapply_ext n (fmul n beta' beta) delta _ _ b0 (fun j Hj => B2 b0 j Hb Hj) (fun _ _ => eq_refl)).
              rewrite <- fapply_fmul. unfold fapply at 1. apply zsum_zero. intros j Hj. rewrite ZB by auto. lia. }
            destruct (Nat.ltb_spec b0 r); [lia|]. nia.
          + intros H. destruct (common_multiple r dd HD) as (k & K & D).
            exists k, (fapply m gamma (fun b => k / dd b * z b)%Z). split; [lia|]. intros a Ha.
            rewrite frow_fapply. fold fT. rewrite FG by auto. rewrite <- fapply_scale. unfold fapply. symmetry.
            rewrite (zsum_range n 0 r) by (try lia; intros c Hc ne; rewrite H by lia; lia). apply zsum_ext. intros c Hc. cbn [Nat.add].
            specialize (HD c Hc). destruct (D c Hc) as (e & ->). rewrite Z.div_mul by lia. lia. }
      destruct BO as (BO1 & BO2). cbn [Nat.add] in *. 
      assert (HX : forall c i, i < n -> fapply r (fun i j => h j i) c i = fapply r (fun i j => beta i j) c i).
      { intros c i Hi. apply fapply_ext; auto. }
      split.
      * intros x. rewrite BO1. split; intros (c & Hc); exists c; intros i Hi; [rewrite HX by auto|rewrite <- HX by auto]; auto.
      * intros c Hc. apply BO2. intros i Hi. rewrite <- HX by auto. auto.
    + intros x. 
      assert (XG : forall k, k < m -> frow m (fapply n f x) gamma k = (if (k <? r)%nat then dd k * fapply n h x k else 0)%Z).
      { intros k Hk. assert (A : frow m (fapply n f x) gamma k = frow m (frow n x fT) gamma k).
        { apply frow_ext; auto. intros j Hj. unfold frow, fapply, fT. apply zsum_ext. intros; lia. }
        rewrite A, frow_mul. unfold frow. rewrite (zsum_ext n _ (fun j => x j * (if (k <? r)%nat then dd k * beta j k else 0))%Z) by (intros j Hj; rewrite HF by auto; reflexivity).
        destruct (Nat.ltb_spec k r); [|apply zsum_zero; intros; lia]. unfold fapply. rewrite <- zsum_mul_l. apply zsum_ext. intros j Hj. rewrite EH by auto. lia. }
      split.
      * intros A k Hk. specialize (XG k ltac:(lia)). destruct (Nat.ltb_spec k r); [|lia].
        assert (frow m (fapply n f x) gamma k = 0%Z). { unfold frow. apply zsum_zero. intros j Hj. rewrite A by auto. lia. }
        specialize (HD k Hk). nia.
      * intros A i Hi. apply Z.divide_0_l. revert i Hi. apply (frow_divides m (fapply n f x) gamma 0%Z); [exists gamma'; split; auto|].
        intros k Hk. rewrite XG by auto. destruct (Nat.ltb_spec k r); [rewrite A by auto; replace (dd k * 0)%Z with 0%Z by lia|]; apply Z.divide_0_r.
Qed.

(** * change of basis *)
Lemma vmap_list {A} (op : A -> res A) (P : A -> A -> Prop) (F : err -> Prop) l :
  (forall v, In v l -> gives (op v) (P v) F) -> gives (vmap op l) (Forall2 P l) F.
Proof.
  induction l as [|v l IH]; intros H; cbn [vmap]; [constructor|].
  eapply gives_bind; [apply H; left; auto|]. intros w Hw. eapply gives_bind; [apply IH; intros; apply H; right; auto|]. intros r Hr. constructor; auto.
Qed.
Theorem baseChange_ok b n B vs : length b = n -> (forall j, j < n -> exists l, get b j = Some l /\ is_vec l n (fun i => B i j)) ->
  (forall v, In v vs -> length v = n) ->
  gives (baseChange fits as_int vs b)
    (Forall2 (fun v w => length w = n /\ forall i, i < n -> fapply n B (fun k => nth k w 0%Z) i = nth i v 0%Z) vs)
    (fun e => e = Thrown /\ (det n B = 0%Z \/ (exists d, least_denominator n B d /\ (2147483648 <= d)%Z) \/
        exists v, In v vs /\ ~ solvable n n B (fun i => nth i v 0%Z)) \/ E e).
Proof.
  intros Lb HB HV. unfold baseChange. rewrite Lb.
  assert (HM : gives (mat_of_columns 0%Z b n) (fun M => is_mx M n n B) E).
  { eapply gives_mono; [apply (of_columns_ok 0%Z b n (fun j i => B i j)); rewrite Lb; exact HB|]. rewrite Lb. auto. }
  eapply gives_bind; [eapply gives_mono_err; [|exact HM]; auto|]. intros M0 HM0.
  eapply gives_bind; [eapply gives_mono_err; [|apply (inverse_ok fits as_int Hint M0 n B HM0)]|].
  { intros e [(-> & H)|H]; [left; split; auto|right; auto]. }
  intros [q d] (g & Hq & HD). apply vmap_list. intros v Hv.
  assert (V : is_vec v n (fun i => nth i v 0%Z)).
  { split; [auto|]. intros i Hi. unfold get. apply nth_error_nth'. rewrite HV; auto. }
  eapply gives_bind; [eapply gives_mono_err; [|eapply mat_apply_ok; [apply zarith_ok|exact Hq|exact V]]; auto|].
  intros w Hw. cbn beta in Hw. eapply gives_bind with (P := fun c => c = d).
  { unfold int_val. destruct HD as [(-> & HD)|(ND & LD & _)]; [reflexivity|]. destruct (Z.leb_spec (-2147483648) d), (Z.ltb_spec d 2147483648); cbn; auto.
    - left. split; auto. right. left. exists d. auto.
    - exfalso. destruct LD as (LD & _). lia.
    - exfalso. destruct LD as (LD & _). lia. }
  intros c ->. eapply gives_mono; [eapply gives_mono_err; [|apply (vec_div_ok fits w n _ d Hw)]|].
  - intros e [(-> & H)|H]; [left; split; auto|right; auto]. destruct HD as [(-> & HD)|(ND & LD & I1 & I2)]; [left; auto|].
    right. right. destruct H as [->|(i & Hi & H)]; [destruct LD as (LD & _); lia|].
    exists v. split; auto. intros (y & Hy). apply H. exists (y i).
    change (fapply n g (fun j => nth j v 0%Z) i = (y i * d)%Z).
    rewrite (fapply_ext n g g _ (fapply n B y)) by (auto; intros j Hj; symmetry; apply Hy; auto).
    rewrite fapply_fmul, (fapply_ext n _ (fun i j => d * delta i j)%Z y y) by auto.
    unfold fapply. rewrite (zsum_ext n _ (fun j => d * (delta i j * y j))%Z) by (intros; lia). rewrite zsum_mul_l.
    change (zsum n (fun j => (delta i j * y j)%Z)) with (fapply n delta y i). rewrite fapply_delta by auto. lia.
  - intros u (D0 & y & [Lu U] & HY). split; [exact Lu|]. intros i Hi.
    destruct HD as [(-> & _)|(ND & LD & I1 & I2)]; [tauto|].
    assert (EU : forall j, j < n -> nth j u 0%Z = y j). { intros j Hj. apply nth_error_nth. apply (U j Hj). }
    apply (Z.mul_reg_l _ _ d D0). rewrite <- fapply_scale.
    rewrite (fapply_ext n B B _ (fapply n g (fun j => nth j v 0%Z))); auto.
    + rewrite fapply_fmul, (fapply_ext n _ (fun i j => d * delta i j)%Z _ (fun j => nth j v 0%Z)) by auto.
      unfold fapply. rewrite (zsum_ext n _ (fun j => d * (delta i j * nth j v 0))%Z) by (intros; lia). rewrite zsum_mul_l.
      change (zsum n (fun j => (delta i j * nth j v 0)%Z)) with (fapply n delta (fun j => nth j v 0%Z) i). rewrite fapply_delta by auto. reflexivity.
    + intros j Hj. rewrite EU by auto. symmetry. apply HY; auto.
Qed.
Theorem inverseBaseChange_ok b n B vs : length b = n -> (forall j, j < n -> exists l, get b j = Some l /\ is_vec l n (fun i => B i j)) ->
  (forall v, In v vs -> length v = n) ->
  gives (inverseBaseChange fits vs b)
    (Forall2 (fun v w => is_vec w n (fapply n B (fun k => nth k v 0%Z))) vs) E.
Proof.
  intros Lb HB HV. unfold inverseBaseChange. rewrite Lb.
  assert (HM : gives (mat_of_columns 0%Z b n) (fun M => is_mx M n n B) E).
  { eapply gives_mono; [apply (of_columns_ok 0%Z b n (fun j i => B i j)); rewrite Lb; exact HB|]. rewrite Lb. auto. }
  eapply gives_bind; [exact HM|]. intros M0 HM0. apply vmap_list. intros v Hv.
  assert (V : is_vec v n (fun i => nth i v 0%Z)).
  { split; [auto|]. intros i Hi. unfold get. apply nth_error_nth'. rewrite HV; auto. }
  eapply gives_mono; [eapply mat_apply_ok; [apply zarith_ok|exact HM0|exact V]|]. auto.
Qed.
End Lat.
