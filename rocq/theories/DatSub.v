(** Root data derived from others: derived, coderived and quotient data, fundamental weights, radicals. *)

From Coq Require Import List Arith ZArith Bool Lia.
From Verif Require Import VecModel VecProofs RunModel RunProofs MatModel MatSpec MatProofs MatLin MatRing MatDet MatOps MatOps2 MatProps RedModel RedSpec RedSolve RedSystem RedInverse RedProps
  LatModel LatSpec LatProps LieTypeModel LieTypeSpec RootModel RootSpec RootBase RootMath RootForm RootFin RootTop RootProps DatModel DatSpec DatMath DatProofs DatMats.
Import ListNotations.
Local Open Scope Z_scope.

(** ** a matrix with more columns than rows has a kernel *)
Lemma mx_any m n (f : nat -> nat -> Z) : exists M, is_mx M m n f.
Proof.
  exists (mk_mat m n (map (fun p => f (p / n)%nat (p mod n)%nat) (seq 0 (m * n)))). split; [reflexivity|]. split; [reflexivity|]. cbn. split; [rewrite map_length, seq_length; reflexivity|].
  intros i j Hi Hj. rewrite (get_map_some _ _ _ (i * n + j)%nat).
  - f_equal. rewrite Nat.div_add_l by lia. rewrite Nat.div_small by exact Hj. rewrite Nat.add_0_r. f_equal. rewrite Nat.add_comm, Nat.mod_add by lia. apply Nat.mod_small. exact Hj.
  - rewrite (get_nth _ _ 0%nat) by (rewrite seq_length; nia). rewrite seq_nth by nia. reflexivity.
Qed.
Lemma rank_cases m n f : exists r dd rho gamma, unimodular m rho /\ unimodular n gamma /\ (r <= m)%nat /\ (r <= n)%nat /\
  feq m n (fmul n (fmul m rho f) gamma) (fun i j => if ((i =? j) && (i <? r))%nat then dd i else 0) /\ (forall i, (i < r)%nat -> dd i <> 0).
Proof.
  destruct (mx_any m n f) as [M HM]. pose proof (C45_diagonalise (fun _ => true) m n f M HM) as Q. destruct (diagonalise (fun _ => true) M) as [[[dg row] col]|e].
  - destruct Q as (r & dd & rho & gamma & _ & _ & _ & U1 & U2 & L1 & L2 & E & N & _). exists r, dd, rho, gamma. auto 10.
  - destruct Q as [_ [z Hz]]. discriminate.
Qed.
Lemma wide_kernel m n f : (m < n)%nat -> exists c, (exists j, (j < n)%nat /\ c j <> 0) /\ forall i, (i < m)%nat -> fapply n f c i = 0.
Proof.
  intros L. destruct (rank_cases m n f) as (r & dd & rho & gamma & (rho' & U1 & U1') & (gamma' & U2 & U2') & L1 & L2 & E & N).
  exists (fun j => gamma j (n - 1)%nat). split.
  - assert (Nz : ~ forall j, (j < n)%nat -> gamma j (n - 1)%nat = 0).
    { intros Z0. pose proof (U2' (n - 1)%nat (n - 1)%nat ltac:(lia) ltac:(lia)) as D. unfold fmul in D. rewrite zsum_zero in D by (intros k Hk; rewrite (Z0 k Hk); lia). unfold delta in D. rewrite Nat.eqb_refl in D. discriminate. }
    assert (Dec : forall k, (forall j, (j < k)%nat -> gamma j (n - 1)%nat = 0) \/ exists j, (j < k)%nat /\ gamma j (n - 1)%nat <> 0).
    { intros k. induction k as [|k [IH|(j & Hj & Nj)]]; [left; intros; lia| |right; exists j; split; [lia|exact Nj]].
      destruct (Z.eq_dec (gamma k (n - 1)%nat) 0) as [Z0|Z0]; [left; intros j Hj; destruct (Nat.eq_dec j k) as [->|Nk]; [exact Z0|apply IH; lia]|right; exists k; split; [lia|exact Z0]]. }
    destruct (Dec n) as [Q|Q]; [contradiction|exact Q].
  - intros i Hi. change (fmul n f gamma i (n - 1)%nat = 0).
    rewrite <- (fmul_id_l m (fmul n f gamma) i (n - 1)%nat Hi).
    rewrite <- (fmul_ext_row m (fmul m rho' rho) delta _ i (n - 1)%nat) by (intros j Hj; apply U1'; assumption).
    rewrite fmul_assoc. unfold fmul at 1. apply zsum_zero. intros k Hk.
    replace (fmul m rho (fmul n f gamma) k (n - 1)%nat) with 0; [lia|]. rewrite <- fmul_assoc. rewrite (E k (n - 1)%nat Hk ltac:(lia)).
    destruct (Nat.eqb_spec k (n - 1)) as [Q|Q]; [lia|reflexivity].
Qed.
(** independent columns *)
Definition independent (m n : nat) (f : nat -> nat -> Z) : Prop := forall c, (forall i, (i < m)%nat -> fapply n f c i = 0) -> forall j, (j < n)%nat -> c j = 0.
Lemma independent_wide m n f : independent m n f -> (n <= m)%nat.
Proof. intros I. destruct (le_lt_dec n m) as [Q|Q]; [exact Q|]. exfalso. destruct (wide_kernel m n f Q) as (c & (j & Hj & N) & Z0). apply N. apply I; assumption. Qed.
Lemma independent_det n f : independent n n f -> det n f <> 0.
Proof.
  intros I. destruct (rank_cases n n f) as (r & dd & rho & gamma & (rho' & U1 & U1') & (gamma' & U2 & U2') & L1 & L2 & E & N).
  assert (R : r = n).
  { destruct (Nat.eq_dec r n) as [Q|Q]; [exact Q|]. exfalso. pose proof (U2' (n - 1)%nat (n - 1)%nat ltac:(lia) ltac:(lia)) as D. unfold fmul in D.
    rewrite zsum_zero in D; [unfold delta in D; rewrite Nat.eqb_refl in D; discriminate|]. intros k Hk. rewrite (I (fun j => gamma j (n - 1)%nat)); [lia| |exact Hk].
    intros i Hi. change (fmul n f gamma i (n - 1)%nat = 0). rewrite <- (fmul_id_l n (fmul n f gamma) i (n - 1)%nat Hi).
    rewrite <- (fmul_ext_row n (fmul n rho' rho) delta _ i (n - 1)%nat) by (intros j Hj; apply U1'; assumption).
    rewrite fmul_assoc. unfold fmul at 1. apply zsum_zero. intros k' Hk'. replace (fmul n rho (fmul n f gamma) k' (n - 1)%nat) with 0; [lia|]. rewrite <- fmul_assoc. rewrite (E k' (n - 1)%nat Hk' ltac:(lia)).
    destruct (Nat.eqb_spec k' (n - 1)) as [Q1|Q1]; [|reflexivity]. destruct (Nat.ltb_spec k' r); [lia|reflexivity]. }
  subst r. intros D0. assert (DD : det n (fmul n (fmul n rho f) gamma) = 0) by (rewrite !det_fmul, D0; lia).
  rewrite (det_ext E) in DD.
  assert (G : forall k (d : nat -> Z), (forall i, (i < k)%nat -> d i <> 0) -> det k (fun i j => if ((i =? j) && (i <? k))%nat then d i else 0) <> 0).
  { clear. induction k as [|m IH]; intros d Nd; [cbn; lia|].
    pose proof (@det_block 1 m (fun i j => if ((i =? j) && (i <? S m))%nat then d i else 0)) as DB. change (1 + m)%nat with (S m) in DB. rewrite DB.
    - clear DB. intros Q. apply (IH (fun i => d (S i))); [intros i Hi; apply Nd; lia|]. pose proof (Nd 0%nat ltac:(lia)) as N0.
      apply Z.mul_eq_0 in Q. destruct Q as [Q|Q]; [exfalso; cbn in Q; destruct (d 0%nat); cbn in Q; congruence|]. etransitivity; [|exact Q]. apply det_ext. intros i j Hi Hj. reflexivity.
    - intros i j Hi Hj. destruct (Nat.eqb_spec (1 + i) j); [lia|reflexivity]. }
  exact (G n dd N DD).
Qed.

Lemma gives_weaken {T} (m : res T) (P Q : T -> Prop) (E1 E2 : err -> Prop) : gives m P E1 -> (forall x, P x -> Q x) -> (forall e, E1 e -> E2 e) -> gives m Q E2.
Proof. destruct m; cbn; auto. Qed.
Section Derived.
Variable fits : Z -> bool.
Variable as_int : Z -> Z.
Hypothesis int_id : forall z, as_int z = z.
Notation R := (zarith fits).
Notation E := (overflows fits).
Lemma mul_run M N m k q f g : is_mx M m k f -> is_mx N k q g -> gives (mat_mul R M N) (fun P => is_mx P m q (fmul k f g)) E.
Proof. intros HM HN. apply (C58_products R _ _ _ _ (C58_integers fits) M N m k q f g HM HN). Qed.
(** ** the basis adapted to independent columns: the columns lie in the span of the first vectors *)
Lemma adapted_run M r n f : is_mx M r n f -> independent r n f ->
  gives (adapted_basis fits as_int M) (fun q => exists beta iota, is_mx (fst q) r r beta /\ inverses r beta iota /\ (n <= r)%nat /\
    (forall k j, (n <= k < r)%nat -> (j < n)%nat -> fmul r iota f k j = 0)) E.
Proof.
  intros HM I. eapply gives_mono; [apply (C49_adapted_basis fits as_int int_id r n f M HM)|]. intros [res dg] (k & dd & beta & _ & HB & Lk & Ln & Dp & (iota & U1 & U2) & Sp). cbn [fst].
  exists beta, iota. split; [exact HB|]. split; [split; assumption|]. split; [apply (independent_wide r n f I)|].
  intros a j Ha Hj.
  destruct (proj1 (Sp (fun i => f i j))) as [y Hy].
  { exists (fun b => delta b j). intros i Hi. change (fmul n f delta i j = f i j). apply fmul_id_r. exact Hj. }
  unfold fmul. rewrite (zsum_ext r _ (fun i => iota a i * fapply k (fun a b => dd b * beta a b) y i)) by (intros i Hi; rewrite (Hy i Hi); reflexivity).
  change (fapply r iota (fapply k (fun a b => dd b * beta a b) y) a = 0). rewrite fapply_fmul. unfold fapply. apply zsum_zero. intros b Hb.
  replace (fmul r iota (fun a b => dd b * beta a b) a b) with (dd b * fmul r iota beta a b).
  - rewrite (U2 a b ltac:(lia) ltac:(lia)). unfold delta. destruct (Nat.eqb_spec a b); lia.
  - unfold fmul. rewrite <- zsum_mul_l. apply zsum_ext. intros; lia.
Qed.
Lemma split_sum n r f : (n <= r)%nat -> (forall k, (n <= k < r)%nat -> f k = 0) -> zsum r f = zsum n f.
Proof.
  intros L Z0. replace r with (n + (r - n))%nat by lia. rewrite zsum_split, (zsum_zero (r - n)) by (intros k Hk; apply Z0; lia). lia.
Qed.
Variables (r n : nat) (A B : nat -> nat -> Z) (p : predatum).
Hypothesis HA : is_mx (p_roots p) r n A.
Hypothesis HB : is_mx (p_coroots p) r n B.
Lemma derived_run : independent r n B -> gives (p_derived fits as_int p) (fun '(pr, p') => exists q t A' B',
    is_mx pr n r q /\ is_mx (p_roots p') n n A' /\ is_mx (p_coroots p') n n B' /\ p_prefer p' = p_prefer p /\
    feq n n (fmul r q t) delta /\ feq n n A' (fmul r q A) /\ feq r n B (fmul n (fun i k => q k i) B')) E.
Proof.
  intros I. unfold p_derived, p_rank, p_ssrank. rewrite (proj1 HA), (proj1 (proj2 HA)). eapply gives_bind; [apply (adapted_run _ r n B HB I)|].
  intros [M dg] (beta & iota & HM & Iv & Ln & Z0). cbn [fst] in *.
  eapply gives_bind; [apply (transposed_block_ok _ M r r beta 0 0 n r HM); lia|]. rewrite !Nat.sub_0_r. cbn [Nat.add]. intros pr Hpr.
  eapply gives_bind; [apply (mul_run _ _ _ _ _ _ _ Hpr HA)|]. intros rt Hrt.
  eapply gives_bind.
  { eapply gives_weaken; [apply (C48_inverse_Z fits as_int int_id M r beta HM)|intros x Hx; exact Hx|]. intros e [[_ Q]|Q]; [exfalso; apply Q; exists iota; exact Iv|exact Q]. }
  intros inv (g & Hi & Ig).
  assert (Eg : feq r r g iota).
  { intros i j Hi' Hj. rewrite <- (fmul_id_r r g i j Hj). rewrite <- (fmul_ext_col r g (fmul r beta iota) delta i j) by (intros k Hk; apply Iv; assumption).
    rewrite <- fmul_assoc. rewrite (fmul_ext_row r (fmul r g beta) delta iota i j) by (intros k Hk; apply Ig; assumption). apply fmul_id_l. exact Hi'. }
  eapply gives_bind; [apply (block_ok _ inv r r g 0 0 n r Hi); lia|]. rewrite !Nat.sub_0_r. cbn [Nat.add]. intros sec Hs.
  eapply gives_bind; [apply (mul_run _ _ _ _ _ _ _ Hs HB)|]. intros cr Hcr. apply gives_ok. cbn [p_roots p_coroots p_prefer].
  exists (fun i j => beta j i), (fun i k => iota k i). eexists. eexists. split; [exact Hpr|]. split; [exact Hrt|]. split; [exact Hcr|]. split; [reflexivity|]. split; [|split].
  - intros i j Hi' Hj. unfold fmul. rewrite (zsum_ext r _ (fun k => iota j k * beta k i)) by (intros; lia). change (fmul r iota beta j i = delta i j). destruct Iv as [_ Iv]. rewrite (Iv j i) by lia. unfold delta. rewrite Nat.eqb_sym. reflexivity.
  - intros i j _ _. reflexivity.
  - intros i j Hi' Hj. transitivity (fmul r beta (fmul r iota B) i j).
    + rewrite <- fmul_assoc. rewrite (fmul_ext_row r (fmul r beta iota) delta B i j) by (intros k Hk; apply Iv; assumption). symmetry. apply fmul_id_l. exact Hi'.
    + unfold fmul at 1. rewrite (split_sum n r) by first [exact Ln|intros k Hk; rewrite Z0 by assumption; lia]. unfold fmul at 2. apply zsum_ext. intros k Hk. f_equal. apply zsum_ext. intros x Hx. rewrite (Eg k x) by lia. reflexivity.
Qed.
Lemma coderived_run : independent r n A -> gives (p_coderived fits as_int p) (fun '(inj, p') => exists q t A' B',
    is_mx inj r n q /\ is_mx (p_roots p') n n A' /\ is_mx (p_coroots p') n n B' /\ p_prefer p' = p_prefer p /\
    feq n n (fmul r t q) delta /\ feq r n A (fmul n q A') /\ feq n n B' (fmul r (fun k i => q i k) B)) E.
Proof.
  intros I. unfold p_coderived, p_rank, p_ssrank. rewrite (proj1 HA), (proj1 (proj2 HA)). eapply gives_bind; [apply (adapted_run _ r n A HA I)|].
  intros [M dg] (beta & iota & HM & Iv & Ln & Z0). cbn [fst] in *.
  eapply gives_bind; [apply (block_ok _ M r r beta 0 0 r n HM); lia|]. rewrite !Nat.sub_0_r. cbn [Nat.add]. intros inj Hinj.
  eapply gives_bind; [apply (transposed_ok _ inj r n _ Hinj)|]. intros tr Htr.
  eapply gives_bind; [apply (mul_run _ _ _ _ _ _ _ Htr HB)|]. intros cr Hcr.
  eapply gives_bind.
  { eapply gives_weaken; [apply (C48_inverse_Z fits as_int int_id M r beta HM)|intros x Hx; exact Hx|]. intros e [[_ Q]|Q]; [exfalso; apply Q; exists iota; exact Iv|exact Q]. }
  intros inv (g & Hi & Ig).
  assert (Eg : feq r r g iota).
  { intros i j Hi' Hj. rewrite <- (fmul_id_r r g i j Hj). rewrite <- (fmul_ext_col r g (fmul r beta iota) delta i j) by (intros k Hk; apply Iv; assumption).
    rewrite <- fmul_assoc. rewrite (fmul_ext_row r (fmul r g beta) delta iota i j) by (intros k Hk; apply Ig; assumption). apply fmul_id_l. exact Hi'. }
  eapply gives_bind; [apply (block_ok _ inv r r g 0 0 n r Hi); lia|]. rewrite !Nat.sub_0_r. cbn [Nat.add]. intros sec Hs.
  eapply gives_bind; [apply (mul_run _ _ _ _ _ _ _ Hs HA)|]. intros rt Hrt. apply gives_ok. cbn [p_roots p_coroots p_prefer].
  exists beta, iota. eexists. eexists. split; [exact Hinj|]. split; [exact Hrt|]. split; [exact Hcr|]. split; [reflexivity|]. split; [|split].
  - intros i j Hi' Hj. destruct Iv as [_ Iv]. apply Iv; lia.
  - intros i j Hi' Hj. transitivity (fmul r beta (fmul r iota A) i j).
    + rewrite <- fmul_assoc. rewrite (fmul_ext_row r (fmul r beta iota) delta A i j) by (intros k Hk; apply Iv; assumption). symmetry. apply fmul_id_l. exact Hi'.
    + unfold fmul at 1. rewrite (split_sum n r) by first [exact Ln|intros k Hk; rewrite Z0 by assumption; lia]. unfold fmul at 2. apply zsum_ext. intros k Hk. f_equal. apply zsum_ext. intros x Hx. rewrite (Eg k x) by lia. reflexivity.
  - intros i j _ _. reflexivity.
Qed.
(** ** the quotient by a subgroup of the centre: a lattice of weights that contains the roots *)
Lemma quotient_run L m k g : is_mx L m k g ->
  gives (p_quotient fits as_int p L) (fun p' => m = r /\ k = r /\ det r g <> 0 /\ exists A' B', is_mx (p_roots p') r n A' /\ is_mx (p_coroots p') r n B' /\ p_prefer p' = p_prefer p /\
      feq r n A (fmul r g A') /\ feq r n B' (fmul r (fun i k => g k i) B))
    (fun e => e = Thrown /\ (m <> r \/ k <> r \/ det r g = 0 \/ (exists d, least_denominator r g d /\ 2147483648 <= d) \/
      (exists j, (j < n)%nat /\ ~ solvable r r g (fun i => A i j))) \/ E e).
Proof.
  intros HL. unfold p_quotient, p_rank, p_ssrank. rewrite (proj1 HA), (proj1 (proj2 HA)), (proj1 HL), (proj1 (proj2 HL)).
  destruct (Nat.eqb_spec m r) as [Em|Nm]; cbn [andb negb]; [|left; auto]. destruct (Nat.eqb_spec k r) as [Ek|Nk]; cbn [andb negb]; [|left; auto]. subst m k.
  eapply gives_bind.
  { eapply gives_weaken; [apply (C48_inverse fits as_int int_id L r g HL)|intros x Hx; exact Hx|]. intros e [[Q1 Q2]|Q]; [left; split; [exact Q1|]; right; right; right; left; exact Q2|right; exact Q]. }
  intros [inv d] (h & Hinv & Cs).
  destruct Cs as [[-> D0]|(D0 & Ld & Iv)]; [cbn [Z.eqb]; left; auto|]. destruct (Z.eqb_spec d 0) as [Z0|N0]; [destruct Ld; lia|].
  unfold int_val at 1. destruct ((-2147483648 <=? d) && (d <? 2147483648)) eqn:Er; cbn [bind].
  2:{ left. split; [reflexivity|]. right. right. right. left. exists d. split; [exact Ld|]. apply andb_false_iff in Er. destruct Ld as [P _]. destruct Er as [Q|Q]; [apply Z.leb_gt in Q; lia|apply Z.ltb_ge in Q; exact Q]. }
  set (Inv := fun t p' => p_prefer p' = p_prefer p /\ exists A' B', is_mx (p_roots p') r n A' /\ is_mx (p_coroots p') r n B' /\
    (forall i j, (i < r)%nat -> (j < t)%nat -> A i j = fmul r g A' i j /\ B' i j = fmul r (fun i k => g k i) B i j) /\
    (forall i j, (i < r)%nat -> (t <= j < n)%nat -> A' i j = A i j /\ B' i j = B i j)).
  apply (gives_upto0 Inv).
  - split; [reflexivity|]. exists A, B. split; [exact HA|]. split; [exact HB|]. split; [intros; lia|auto].
  - intros j p1 Hj (Pf & A' & B' & HA' & HB' & Dn & Un). unfold p_root, p_coroot. rewrite (column_run _ _ _ _ j HA' Hj). cbn [bind].
    assert (Va : is_vec (fcol r A' j) r (fun i => A i j)).
    { split; [apply fcol_length|]. intros i Hi. rewrite (get_co (fcol r A' j) i) by (rewrite fcol_length; exact Hi). f_equal. rewrite co_fcol by exact Hi. apply Un; lia. }
    eapply gives_bind.
    { eapply gives_weaken; [apply (proj1 (proj2 (C58_products R _ _ _ _ (C58_integers fits) inv inv r r r h h Hinv Hinv)) _ _ Va)|intros x Hx; exact Hx|]. intros e Q. right. exact Q. }
    intros v Hv. cbn beta in Hv.
    eapply gives_bind.
    { eapply gives_weaken; [apply (C59_exact_division fits v r _ d Hv)|intros x Hx; exact Hx|]. intros e [[Q1 Q2]|Q]; [|right; exact Q]. left. split; [exact Q1|]. right. right. right. right. exists j. split; [exact Hj|].
      intros [y Hy]. destruct Q2 as [Q2|(i & Hi & Q2)]; [lia|]. apply Q2. exists (y i).
      change (fapply r h (fun j' => A j' j) i = y i * d). rewrite (fapply_ext r h h _ (fapply r g y) i) by first [reflexivity|intros x Hx; symmetry; apply Hy; exact Hx]. rewrite fapply_fmul.
      rewrite (fapply_ext r _ (fun i j => d * delta i j) y y i) by first [reflexivity|intros x Hx; apply Iv; assumption].
      unfold fapply. rewrite (zsum_ext r _ (fun x => d * (delta i x * y x))) by (intros; lia). rewrite zsum_mul_l. change (d * fapply r delta y i = y i * d). rewrite fapply_delta by exact Hi. lia. }
    intros v1 (_ & y & Hv1 & Ey).
    eapply gives_bind; [apply (set_column_ok _ r n A' j v1 y HA' Hj Hv1)|]. intros M1 HM1. rewrite (column_run _ _ _ _ j HB' Hj). cbn [bind].
    assert (Vb : is_vec (fcol r B' j) r (fun i => B i j)).
    { split; [apply fcol_length|]. intros i Hi. rewrite (get_co (fcol r B' j) i) by (rewrite fcol_length; exact Hi). f_equal. rewrite co_fcol by exact Hi. apply Un; lia. }
    eapply gives_bind.
    { eapply gives_weaken; [apply (proj2 (proj2 (C58_products R _ _ _ _ (C58_integers fits) L L r r r g g HL HL)) _ _ Vb)|intros x Hx; exact Hx|]. intros e Q. right. exact Q. }
    intros w Hw. cbn beta in Hw.
    eapply gives_bind; [apply (set_column_ok _ r n B' j w _ HB' Hj Hw)|]. intros K1 HK1. apply gives_ok. split; [exact Pf|]. eexists. eexists. cbn [p_roots p_coroots]. split; [exact HM1|]. split; [exact HK1|].
    assert (Sol : forall i, (i < r)%nat -> fapply r g y i = A i j).
    { intros i Hi. assert (Q : d * fapply r g y i = d * A i j).
      { rewrite <- fapply_scale. rewrite (fapply_ext r g g _ (fapply r h (fun j' => A j' j)) i) by first [reflexivity|intros x Hx; rewrite <- (Ey x Hx); reflexivity]. rewrite fapply_fmul.
        rewrite (fapply_ext r _ (fun i j => d * delta i j) _ (fun j' => A j' j) i) by first [reflexivity|intros x Hx; apply Iv; assumption].
        unfold fapply. rewrite (zsum_ext r _ (fun x => d * (delta i x * A x j))) by (intros; lia). rewrite zsum_mul_l. f_equal. change (fmul r delta A i j = A i j). apply fmul_id_l. exact Hi. }
      nia. }
    split.
    + intros i x Hi Hx. unfold fmul at 1. cbv beta. destruct (Nat.eqb_spec x j) as [->|Nx].
      * split; [symmetry; apply Sol; exact Hi|]. unfold fmul. apply zsum_ext. intros; lia.
      * destruct (Dn i x Hi ltac:(lia)) as [Q1 Q2]. split; [exact Q1|exact Q2].
    + intros i x Hi Hx. destruct (Nat.eqb_spec x j) as [->|Nx]; [lia|]. apply Un; lia.
  - intros p' (Pf & A' & B' & HA' & HB' & Dn & _). split; [reflexivity|]. split; [reflexivity|]. split; [exact D0|]. exists A', B'. split; [exact HA'|]. split; [exact HB'|]. split; [exact Pf|].
    split; intros i j Hi Hj; apply Dn; assumption.
Qed.
End Derived.

(** ** independence of the simple roots, and of the rows and columns of the Cartan matrix *)
Lemma independent_roots r n A B C : (forall i j, (i < n)%nat -> (j < n)%nat -> dot r (fcol r A i) (fcol r B j) = C i j) -> good n C -> independent r n A.
Proof.
  intros HC g c Z0 j Hj.
  pose proof (DatMath.independent r n (fcol r A) (fcol r B) C HC g (map c (seq 0 n))) as I.
  assert (Ec : forall i, (i < n)%nat -> co (map c (seq 0 n)) i = c i) by (intros i Hi; unfold co; rewrite (nth_indep _ 0 (c 0%nat)) by (rewrite map_length, seq_length; exact Hi); rewrite map_nth, seq_nth by exact Hi; reflexivity).
  rewrite <- (Ec j Hj). apply I; [rewrite map_length, seq_length; reflexivity| |exact Hj]. intros k Hk. rewrite co_comb by exact Hk. rewrite <- (Z0 k Hk). unfold fapply. apply zsum_ext. intros i Hi. rewrite Ec, co_fcol by assumption. lia.
Qed.
Lemma Cartan_det n C : good n C -> det n C <> 0.
Proof.
  intros g.
  assert (I : independent n n (fun k i => C i k)).
  { apply (independent_roots n n _ delta C); [|exact g].
    intros i j Hi Hj. unfold dot. rewrite (zsum_ext n _ (fun k => C i k * delta k j)) by (intros k Hk; rewrite !co_fcol by exact Hk; reflexivity). apply (fmul_id_r n C i j Hj). }
  apply independent_det in I. rewrite det_transpose in I. exact I.
Qed.
