(** Inversion of integer matrices. *)

From Coq Require Import List Arith ZArith Znumtheory Lia Bool.
From Verif Require Import VecModel VecProofs SetModel SetProofs RunModel RunProofs MatModel MatSpec MatProofs MatOps MatOps2 MatArith MatRing MatDiv MatDet RedSpec MatLin RedModel RedGcd RedEchelon RedSolve.
Import ListNotations.
Open Scope nat_scope.

Lemma filter_le {A} (f : A -> bool) l : length (filter f l) <= length l.
Proof. induction l as [|a l IH]; cbn; [lia|]. destruct (f a); cbn; lia. Qed.
Lemma all_members (b : bset) : length (filter (fun x => x) b) = length b -> forallb (fun x => x) b = true.
Proof.
  induction b as [|[|] b IH]; [reflexivity| |]; cbn; intros H.
  - apply IH. lia.
  - pose proof (filter_le (fun x : bool => x) b). lia.
Qed.
Lemma filter_all {A} (f : A -> bool) l : (forall x, In x l -> f x = true) -> filter f l = l.
Proof.
  induction l as [|a l IH]; intros H; [reflexivity|]. cbn. rewrite (H a) by (left; reflexivity). f_equal. apply IH.
  intros x Hx. apply H. right. exact Hx.
Qed.
Lemma full_elems (b : bset) : forallb (fun x => x) b = true -> bs_elems b = seq 0 (length b).
Proof.
  intros H. unfold bs_elems. apply filter_all. intros i Hi. apply in_seq in Hi. rewrite forallb_forall in H.
  apply H. unfold bs_mem. apply nth_In. lia.
Qed.
Lemma det_zero_col n f j : j < n -> (forall i, i < n -> f i j = 0%Z) -> det n f = 0%Z.
Proof.
  intros Hj H. rewrite (det_ext (n := n) (g := fun a b => if b =? j then (f a b * 0)%Z else f a b)).
  - rewrite det_colmul by exact Hj. lia.
  - intros a b Ha Hb. destruct (Nat.eqb_spec b j) as [->|]; [rewrite H by exact Ha; lia|reflexivity].
Qed.
Lemma fmul_scalar_l n c f i j : i < n -> fmul n (fun i j => c * delta i j)%Z f i j = (c * f i j)%Z.
Proof.
  intros Hi. unfold fmul. rewrite (zsum_ext n _ (fun k => c * (delta i k * f k j)))%Z by (intros; lia).
  rewrite zsum_mul_l. f_equal. exact (fmul_id_l n f i j Hi).
Qed.
Lemma fmul_scalar_r n c f i j : j < n -> fmul n f (fun i j => c * delta i j)%Z i j = (c * f i j)%Z.
Proof.
  intros Hj. unfold fmul. rewrite (zsum_ext n _ (fun k => c * (f i k * delta k j)))%Z by (intros; lia).
  rewrite zsum_mul_l. f_equal. exact (fmul_id_r n f i j Hj).
Qed.
(** a right inverse is a left inverse *)
Lemma right_left_inverse n f g d : det n f <> 0%Z -> feq n n (fmul n f g) (fun i j => d * delta i j)%Z -> is_inverse n f g d.
Proof.
  intros nz H. split; [exact H|]. destruct (adjugate n f) as (a & A1 & A2).
  assert (X : feq n n (fun i j => det n f * g i j)%Z (fun i j => d * a i j)%Z).
  { intros i j Hi Hj. rewrite <- (fmul_scalar_l n (det n f) g i j Hi).
    rewrite <- (fmul_ext_row n (fmul n a f) (fun i j => det n f * delta i j)%Z g i j) by (intros; apply A2; assumption).
    rewrite fmul_assoc. rewrite (fmul_ext_col n a (fmul n f g) (fun i j => d * delta i j)%Z i j) by (intros; apply H; assumption).
    apply fmul_scalar_r. exact Hj. }
  intros i j Hi Hj. apply (Z.mul_cancel_l _ _ (det n f) nz).
  unfold fmul. rewrite <- zsum_mul_l. rewrite (zsum_ext n _ (fun k => d * (a i k * f k j)))%Z.
  - rewrite zsum_mul_l. change (zsum n (fun i0 => (a i i0 * f i0 j)%Z)) with (fmul n a f i j). rewrite A2 by assumption. ring.
  - intros k Hk. specialize (X i k Hi Hk). cbv beta in X. rewrite !Z.mul_assoc, X. reflexivity.
Qed.
Lemma inverse_det n f g d : d <> 0%Z -> feq n n (fmul n f g) (fun i j => d * delta i j)%Z -> det n f <> 0%Z.
Proof. intros nz H H0. apply (@det_scalar_ne n d nz). rewrite <- (det_ext H), det_fmul, H0. lia. Qed.

Lemma det_upper_ne n f : (forall i, i < n -> f i i <> 0%Z) -> (forall i j, j < i -> i < n -> f i j = 0%Z) -> det n f <> 0%Z.
Proof.
  induction n as [|n IH]; intros H0 H; [discriminate|]. replace (S n) with (n + 1) by lia. rewrite det_block.
  - intros X. apply Z.mul_eq_0 in X. destruct X as [X|X].
    + revert X. apply IH; intros; [apply H0; lia|apply H; lia].
    + apply (H0 n); [lia|]. rewrite <- X. cbn. rewrite Nat.add_0_r. destruct (f n n); rewrite ?Z.mul_1_r; reflexivity.
  - intros i j Hi Hj. apply H; lia.
Qed.

Section Inverse.
Variable fits : Z -> bool.
Variable as_int : Z -> Z.
Hypothesis Hint : forall z, as_int z = z.
Notation R := (zarith fits).

Definition inverse_fails (n : nat) (f : nat -> nat -> Z) (er : err) : Prop :=
  er = Thrown /\ (exists d, least_denominator n f d /\ (2147483648 <= d)%Z) \/ overflows fits er.

Lemma inverse_ok A n f : is_mx A n n f ->
  gives (inverse fits as_int A) (fun '(M, d) => exists g, is_mx M n n g /\
     (d = 0%Z /\ det n f = 0%Z \/ det n f <> 0%Z /\ least_denominator n f d /\ is_inverse n f g d)) (inverse_fails n f).
Proof.
  intros HA. assert (HO : forall er, overflows fits er -> inverse_fails n f er) by (intros er H; right; exact H).
  unfold inverse. rewrite (is_mx_rows _ _ _ _ HA).
  destruct (Nat.eqb_spec n 0) as [n0|nn].
  { apply gives_ok. exists (fun _ _ => 0%Z). split; [apply fill_ok|]. right. subst n. split; [discriminate|].
    assert (I1 : is_inverse 0 f (fun _ _ => 0%Z) 1) by (split; intros i j Hi; lia).
    split; [|exact I1]. split; [lia|]. split; [exists (fun _ _ => 0%Z); exact I1|]. intros. apply Z.divide_1_l. }
  eapply gives_bind; [eapply gives_mono_err; [exact HO|]; apply (column_echelon_ok fits as_int Hint A n n f HA)|].
  intros [[[A' col] flip] piv] (r & g & c & p & Hr & HA' & HC & HD & HF & HE & LP & HP).
  assert (Uc : unimodular n c) by (apply (sgn_unimodular _ _ _ HD)).
  assert (Dfc : det n (fmul n f c) = 0%Z -> det n f = 0%Z).
  { rewrite det_fmul, HD. destruct flip; cbn [sgn]; lia. }
  destruct (forallb (fun x => x) piv) eqn:Full; cbn [negb].
  2:{ apply gives_ok. exists (fun _ _ => 0%Z). split; [apply fill_ok|]. left. split; [reflexivity|]. apply Dfc.
      assert (r <> n).
      { intros ->. rewrite all_members in Full; [discriminate|]. change (bs_size piv = length piv). rewrite size_elems, HP, map_length, seq_length. congruence. }
      apply (det_zero_col n _ r); [lia|]. intros i Hi. rewrite HF by lia. rewrite Nat.ltb_irrefl. reflexivity. }
  rewrite full_elems, LP in HP by exact Full.
  assert (r = n) by (apply (f_equal (@length nat)) in HP; rewrite map_length, !seq_length in HP; congruence). subst r.
  assert (Hpi : forall j, j < n -> p j = j).
  { intros j Hj. apply (f_equal (fun l => nth j l 0)) in HP. rewrite seq_nth in HP by exact Hj. rewrite (nth_indep _ 0 (p 0)), map_nth, seq_nth in HP by (rewrite ?map_length, ?seq_length; exact Hj). cbn in HP. congruence. }
  assert (HG : feq n n (fmul n f c) g).
  { intros i j Hi Hj. rewrite HF by assumption. nb. }
  eapply gives_bind; [apply (standard_basis_ok R n)|].
  intros basis [LB GB].
  assert (Dg : det n g <> 0%Z).
  { destruct HE as [HE1 HE2]. apply det_upper_ne.
    - intros i Hi. destruct (HE1 i Hi) as (_ & P & _). rewrite (Hpi i Hi) in P. lia.
    - intros i j Hj Hi. destruct (HE1 j ltac:(lia)) as (_ & _ & Z). apply Z. rewrite Hpi by lia. lia. }
  assert (Df : det n f <> 0%Z).
  { intros D0. apply Dg. rewrite <- (det_ext HG), det_fmul, D0. lia. }
  assert (Sg : forall i, i < n -> ~ unsolvable n n g (delta i)).
  { intros i Hi U. destruct (adjugate n g) as (a & A1 & _). apply Dg. apply (U (fun k => a k i)). intros j Hj.
    change (fmul n g a j i = (det n g * delta i j)%Z). rewrite A1 by assumption. unfold delta. rewrite (Nat.eqb_sym j i). reflexivity. }
  eapply gives_bind; [apply (gives_upto0 (fun t '(basis, denoms) => length basis = n /\ length denoms = n /\
     (forall i, t <= i < n -> exists v, get basis i = Some v /\ is_vec v n (delta i)) /\
     (forall i, i < t -> exists v xi fi, get basis i = Some v /\ is_vec v n xi /\ get denoms i = Some fi /\ least_solution n n g (delta i) xi fi)));
     [| |intros s Hs; exact Hs]|].
  { split; [exact LB|]. split; [apply repeat_length|]. split; [intros i Hi; apply GB; lia|intros; lia]. }
  { intros j [bs ds] Hj (L1 & L2 & G1 & G2). destruct (G1 j ltac:(lia)) as (v & Gv & Hv).
    eapply gives_bind; [eapply gives_vget; [exact Gv|]; exact eq_refl|]. intros ? <-.
    eapply gives_bind.
    { eapply gives_mono_err; [|apply (echelon_solve_ok fits n n g p (delta j) HE piv A' v HA' LP)].
      - intros er [[_ H]|H]; [destruct (Sg j Hj H)|exact (HO er H)].
      - rewrite full_elems, LP by exact Full. exact HP.
      - exact Hv. }
    intros [x fj] (xi & Hx & HL).
    eapply gives_bind; [apply (gives_vput bs j x (fun w => length w = length bs /\ forall k, get w k = if k =? j then Some x else get bs k)); [lia|auto]|].
    intros bs' [Lb Gb].
    eapply gives_bind; [apply (gives_vput ds j fj (fun w => length w = length ds /\ forall k, get w k = if k =? j then Some fj else get ds k)); [lia|auto]|].
    intros ds' [Ld Gd]. apply gives_ok. split; [lia|]. split; [lia|]. split.
    - intros i Hi. rewrite Gb. destruct (Nat.eqb_spec i j); [lia|]. apply G1. lia.
    - intros i Hi. rewrite Gb, Gd. destruct (Nat.eqb_spec i j) as [->|ne]; [exists x, xi, fj; auto|]. apply G2. lia. }
  intros [bs ds] (L1 & L2 & _ & G2).
  assert (GD : forall i, i < n -> exists fi, get ds i = Some fi /\ (0 < fi)%Z).
  { intros i Hi. destruct (G2 i Hi) as (v & xi & fi & _ & _ & H1 & H2 & _). exists fi. auto. }
  destruct (GD 0 ltac:(lia)) as (d0 & E0 & P0).
  eapply gives_bind; [eapply gives_vget; [exact E0|]; exact eq_refl|]. intros ? <-.
  eapply gives_bind; [apply (gives_upto (fun t d => (0 < d)%Z /\ (forall i fi, i < t -> get ds i = Some fi -> (fi | d)%Z) /\
     (forall k, (forall i fi, i < t -> get ds i = Some fi -> (fi | k)%Z) -> (d | k)%Z)))|].
  { split; [exact P0|]. split.
    - intros i fi Hi. assert (i = 0) by lia. subst i. rewrite E0. intros X. injection X as <-. apply Z.divide_refl.
    - intros k Hk. apply (Hk 0 d0); [lia|exact E0]. }
  { intros j d Hj (P & D1 & D2). destruct (GD j ltac:(lia)) as (e & Ej & Pe).
    eapply gives_bind; [eapply gives_vget; [exact Ej|]; exact eq_refl|]. intros ? <-. apply gives_ok.
    assert (Z.lcm d e <> 0%Z) by (rewrite Z.lcm_eq_0; lia). pose proof (Z.lcm_nonneg d e).
    split; [lia|]. split.
    - intros i fi Hi Gi. destruct (Nat.eq_dec i j) as [->|]; [rewrite Ej in Gi; injection Gi as <-; apply Z.divide_lcm_r|].
      eapply Z.divide_trans; [apply (D1 i); [lia|exact Gi]|apply Z.divide_lcm_l].
    - intros k Hk. apply Z.lcm_least; [apply D2; intros; eapply Hk; [|eassumption]; lia|]. apply (Hk j e); [lia|exact Ej]. }
  intros d (Pd & D1 & D2). replace (1 + (n - 1)) with n in D1, D2 by lia.
  (* a multiple of the inverse *)
  assert (Min : forall h k, feq n n (fmul n f h) (fun i j => k * delta i j)%Z -> (d | k)%Z).
  { intros h k Hh. apply D2. intros i fi Hi Gi. destruct (G2 i Hi) as (v & xi & fi' & _ & _ & H1 & _ & _ & H3).
    rewrite Gi in H1. injection H1 as <-. destruct Uc as (c' & C1 & C2).
    destruct (H3 (fun a => fmul n c' h a i) k) as (s & Hs & _); [|exists s; exact Hs].
    intros a Ha. change (fmul n g (fmul n c' h) a i = (k * delta i a)%Z). rewrite <- fmul_assoc.
    rewrite (fmul_ext_row n (fmul n g c') f h a i).
    - rewrite Hh by assumption. unfold delta. rewrite Nat.eqb_sym. reflexivity.
    - intros j Hj. rewrite <- (fmul_ext_row n (fmul n f c) g c' a j) by (intros; apply HG; assumption).
      rewrite fmul_assoc. rewrite (fmul_ext_col n f (fmul n c c') delta a j) by (intros; apply C1; assumption). apply fmul_id_r. exact Hj. }
  (* d is a denominator *)
  assert (Den : least_denominator n f d).
  { split; [exact Pd|]. split; [|intros h k Hk; apply (Min h); apply Hk].
    assert (X : forall t, t <= n -> exists h, forall j, j < t -> forall i, i < n -> fmul n f h i j = (d * delta i j)%Z).
    { induction t as [|t IH]; intros Ht; [exists (fun _ _ => 0%Z); intros; lia|]. destruct (IH ltac:(lia)) as [h Hh].
      destruct (G2 t ltac:(lia)) as (v & xi & fi & _ & _ & H1 & _ & H2 & _).
      destruct (D1 t fi ltac:(lia) H1) as [q Hq].
      exists (fun a b => if b =? t then (q * fapply n c xi a)%Z else h a b). intros j Hj i Hi.
      destruct (Nat.eq_dec j t) as [->|ne].
      - unfold fmul. rewrite (zsum_ext n _ (fun k => q * (f i k * fapply n c xi k)))%Z by (intros; rewrite Nat.eqb_refl; lia).
        rewrite zsum_mul_l. change (q * fmul n f (fmul n c (fun a (_ : nat) => xi a)) i 0 = d * delta i t)%Z.
        rewrite <- fmul_assoc. rewrite (fmul_ext_row n (fmul n f c) g) by (intros; apply HG; assumption).
        change (q * fapply n g xi i = d * delta i t)%Z. rewrite H2 by exact Hi. rewrite Hq. unfold delta. rewrite (Nat.eqb_sym t i). ring.
      - rewrite <- (Hh j ltac:(lia) i Hi). apply fmul_ext_col. intros. nb. }
    destruct (X n (le_n n)) as [h Hh]. exists h. apply right_left_inverse; [exact Df|]. intros i j Hi Hj. apply Hh; assumption. }
  eapply gives_bind; [apply (gives_upto0 (fun t M => exists h, is_mx M n n h /\ forall j, j < t -> forall i, i < n -> fmul n f h i j = (d * delta i j)%Z));
     [| |intros s Hs; exact Hs]|].
  { exists (fun _ _ => 0%Z). split; [apply fill_ok|]. intros; lia. }
  { intros t M Ht (h & HM & Hh). destruct (G2 t Ht) as (v & xi & fi & Gv & Hv & H1 & P1 & H2 & _).
    eapply gives_bind; [eapply gives_vget; [exact Gv|]; exact eq_refl|]. intros ? <-.
    eapply gives_bind; [eapply gives_mono_err; [exact HO|]; apply (zapply_ok fits col n n c v xi HC Hv)|]. intros w Hw.
    eapply gives_bind; [eapply gives_vget; [exact H1|]; exact eq_refl|]. intros ? <-.
    destruct (D1 t fi Ht H1) as [q Hq]. replace (d / fi)%Z with q by (rewrite Hq, Z.div_mul by lia; reflexivity).
    assert (0 < q)%Z by nia. unfold int_val. destruct ((-2147483648 <=? q) && (q <? 2147483648))%Z eqn:Q.
    2:{ left. split; [reflexivity|]. exists d. split; [exact Den|]. apply andb_false_iff in Q. nia. }
    cbn [bind]. apply bind_chk; [exact HO|].
    eapply gives_bind; [eapply gives_mono_err; [exact HO|]; apply (vec_scale_ok R _ _ _ _ (zarith_ok fits) w q n _ Hw)|]. intros u Hu.
    eapply gives_mono; [apply (set_column_ok M n n h t u _ HM Ht Hu)|]. intros M' HM'.
    eexists. split; [exact HM'|]. intros j Hj i Hi. cbv beta.
    destruct (Nat.eq_dec j t) as [->|ne].
    - unfold fmul. rewrite (zsum_ext n _ (fun k => q * (f i k * fapply n c xi k)))%Z by (intros; rewrite Nat.eqb_refl; lia).
      rewrite zsum_mul_l. change (q * fmul n f (fmul n c (fun a (_ : nat) => xi a)) i 0 = d * delta i t)%Z.
      rewrite <- fmul_assoc. rewrite (fmul_ext_row n (fmul n f c) g) by (intros; apply HG; assumption).
      change (q * fapply n g xi i = d * delta i t)%Z. rewrite H2 by exact Hi. rewrite Hq. unfold delta. rewrite (Nat.eqb_sym t i). ring.
    - rewrite <- (Hh j ltac:(lia) i Hi). apply fmul_ext_col. intros. nb. }
  intros M (h & HM & Hh). apply gives_ok. exists h. split; [exact HM|]. right. split; [exact Df|]. split; [exact Den|].
  apply right_left_inverse; [exact Df|]. intros i j Hi Hj. apply Hh; assumption.
Qed.

Lemma inverse_Z_ok A n f : is_mx A n n f ->
  gives (inverse_Z fits as_int A) (fun M => exists g, is_mx M n n g /\ inverses n f g)
    (fun er => er = Thrown /\ ~ unimodular n f \/ overflows fits er).
Proof.
  intros HA. unfold inverse_Z.
  assert (NU : forall d, (d = 0%Z /\ det n f = 0%Z \/ least_denominator n f d /\ d <> 1%Z) -> ~ unimodular n f).
  { intros d Hd [g [U1 U2]]. destruct Hd as [[_ D0]|[(Pd & _ & Mn) n1]].
    - assert (U : unimodular n f) by (exists g; split; assumption). apply unimodular_det in U. lia.
    - assert (D1 : (d | 1)%Z); [apply (Mn g 1%Z)|apply Z.divide_pos_le in D1; lia].
      split; intros i j Hi Hj; [rewrite U1 by assumption|rewrite U2 by assumption]; lia. }
  eapply gives_bind; [eapply gives_mono_err; [|apply (inverse_ok A n f HA)]|].
  - intros er [(Er & d & HL & Bd)|H]; [|right; exact H]. left. split; [exact Er|]. apply (NU d). right. split; [exact HL|lia].
  - intros [M d] (g & HM & H). destruct (Z.eqb_spec d 1) as [->|n1].
    + exists g. split; [exact HM|]. destruct H as [[H _]|(_ & _ & H1 & H2)]; [discriminate|].
      split; intros i j Hi Hj; [rewrite H1 by assumption|rewrite H2 by assumption]; lia.
    + left. split; [reflexivity|]. apply (NU d). destruct H as [H|(_ & H & _)]; [left; exact H|right; auto].
Qed.
End Inverse.
