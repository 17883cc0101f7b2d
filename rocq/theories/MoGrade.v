(** The roots selected by max_orth for a grading of a closed subsystem. *)

From Coq Require Import List Arith ZArith Bool Lia.
From Verif Require Import VecModel RunModel RunProofs MatModel MatSpec MatRing MatLin MatProofs SizeModel LieTypeSpec RootModel RootSpec RootMath RootForm RootGen RootPerm RootMake RootSys RootAcc RootLook RootOrder RootBasis RootBase RootTop RsfSteps RootProps MoModel MoSpec MoBase MoLong MoMax.
Import ListNotations.
Local Open Scope Z_scope.

Section Grade.
Variables (n : nat) (f : nat -> nat -> Z) (c : matrix Z) (pc : bool) (s : rootsys).
Hypothesis K : built n f c pc s.
Notation nr := (num_roots s).
Notation np := (num_pos s).
Notation R := (root_at s).
Notation W := (coroot_at s).
Notation V a b := (value n f (root_at s a) (coroot_at s b)).
Notation mn := (minus_nr (num_pos s)).
Notation add := (addable n f (root_at s)).
Notation Lg := (Long n f s).
Notation adb := (adb s).

Lemma g_heights a : (np <= a < nr)%nat -> 0 < height (R a) /\ 0 < height (W a).
Proof.
  intros Ha. destruct K as (L & F & H & E). destruct (top_system n f c pc s L F H E) as (Y & _). destruct (top_good n f F) as [gd gd'].
  rewrite (proj2 (at_rt n f c pc s L F H E a (proj2 Ha))), (proj2 (at_crt n f c pc s L F H E a (proj2 Ha))).
  apply (rt_height n f s (top_some n f c pc s L H E ltac:(lia)) gd Y a). unfold num_roots in Ha. lia.
Qed.
(** the difference of two orthogonal positive roots comes before the larger one *)
Lemma g_order x y d : (np <= x < nr)%nat -> (np <= y < nr)%nat -> (np <= d < nr)%nat -> V x y = 0 -> R y = plus n (R x) (R d) -> (d < y)%nat /\ (x < y)%nat.
Proof.
  intros Hx Hy Hd O E. destruct (b_mn n f c pc s K x (proj2 Hx)) as (M1 & M2 & M3). destruct (b_len n f c pc s K x (proj2 Hx)) as [Lx Lx'], (b_len n f c pc s K y (proj2 Hy)) as [Ly Ly'], (b_len n f c pc s K d (proj2 Hd)) as [Ld Ld'].
  destruct (half n f c pc s K y (mn x) d (proj2 Hy) M1 (proj2 Hd)) as (D1 & _ & D3 & _).
  { rewrite M3, value_opp_r. rewrite (proj1 (proj2 (b_sign n f c pc s K x y (proj2 Hx) (proj2 Hy))) O). reflexivity. }
  { apply vec_ext; [rewrite plus_len; exact Ld|]. intros k _. rewrite co_plus by (rewrite ?M2, ?opp_length; assumption). rewrite M2, co_opp, E, co_plus by assumption. lia. }
  assert (Er : R x = reflect n f (R d) (W d) (R y)).
  { unfold reflect. rewrite D3, E. apply vec_ext; [rewrite away_length; exact Lx|]. intros k _. rewrite co_away, co_plus by (try apply plus_len; assumption). lia. }
  assert (H1 : height (R y) = height (R x) + height (R d)) by (rewrite E; apply height_plus; assumption).
  assert (H2 : height (W x) = height (W y) - 2 * height (W d)).
  { destruct K as (L & F & H & E0). destruct (top_system n f c pc s L F H E0) as (Y & _). destruct (top_good n f F) as [gd gd']. 
    pose proof (reflected_height n f s gd Y d y x (proj2 Hd) (proj2 Hy) (proj2 Hx)) as Q.
    rewrite <- (proj2 (at_rt n f c pc s L F H E0 d (proj2 Hd))), <- (proj2 (at_rt n f c pc s L F H E0 y (proj2 Hy))), <- (proj2 (at_rt n f c pc s L F H E0 x (proj2 Hx))), <- (proj2 (at_crt n f c pc s L F H E0 d (proj2 Hd))), <- (proj2 (at_crt n f c pc s L F H E0 y (proj2 Hy))), <- (proj2 (at_crt n f c pc s L F H E0 x (proj2 Hx))) in Q.
    destruct (Q Er) as [_ Q2]. rewrite D1 in Q2. exact Q2. }
  pose proof (g_heights x Hx). pose proof (g_heights y Hy). pose proof (g_heights d Hd).
  split; [apply (C95_order n f c pc s d y K Hd Hy)|apply (C95_order n f c pc s x y K Hx Hy)]; destruct pc; left; lia.
Qed.

Variables (N Sub : bset).
Hypothesis LN : length N = nr.
Hypothesis LS : length Sub = nr.
Hypothesis NS : forall x, bmem N x = true -> bmem Sub x = true.
Hypothesis G : graded n s N Sub.
Notation isN := (isN N).
Notation isS := (isS s Sub).
Notation after := (noncompact_after n f (root_at s) isN).
Notation cand := (candidate n f (root_at s) (coroot_at s) isN isS).
Notation sel := (selection n f (root_at s) (coroot_at s) isN isS).
Notation afterb := (afterb s N).

(** two addable roots orthogonal to the list change together *)
Lemma g_together l x y : (forall a, In a l -> (a < nr)%nat) -> (x < nr)%nat -> (y < nr)%nat -> V x y = 0 -> (forall a, In a l -> V x a = 0) -> (forall a, In a l -> V y a = 0) -> add x y ->
  xorb (afterb l x) (afterb l y) = xorb (bmem N x) (bmem N y).
Proof.
  intros B Hx Hy O Ox Oy A. unfold MoMax.afterb. replace (lsum (fun a => if adb a y then 1 else 0) l) with (lsum (fun a => if adb a x then 1 else 0) l).
  - destruct (bmem N x), (bmem N y), (Z.odd _); reflexivity.
  - apply lsum_ext. intros a Ha. pose proof (B a Ha) as La. assert (Q : adb a x = adb a y); [|rewrite Q; reflexivity]. apply eq_true_iff_eq. rewrite (proj2 (adb_ok n f c pc s K a x La Hx)), (proj2 (adb_ok n f c pc s K a y La Hy)).
    pose proof (proj1 (proj2 (b_sign n f c pc s K x a Hx La)) (Ox a Ha)) as Oax. pose proof (proj1 (proj2 (b_sign n f c pc s K y a Hy La)) (Oy a Ha)) as Oay.
    split; intros Q; [apply (add_trans n f c pc s K a x y La Hx Hy Oax O Oay Q A)|]. apply (add_trans n f c pc s K a y x La Hy Hx Oay); [apply (b_sign n f c pc s K x y Hx Hy); exact O|exact Oax|exact Q|apply addable_sym; exact A].
Qed.
(** a long root orthogonal to the list does not change *)
Lemma g_long l d : (forall a, In a l -> (a < nr)%nat) -> (d < nr)%nat -> Lg d -> (forall a, In a l -> V d a = 0) -> afterb l d = bmem N d.
Proof.
  intros B Hd L O. unfold MoMax.afterb. replace (lsum (fun a => if adb a d then 1 else 0) l) with 0; [destruct (bmem N d); reflexivity|]. symmetry. induction l as [|a l IH]; [reflexivity|]. rewrite lsum_cons, IH.
  - destruct (adb a d) eqn:D; [|reflexivity]. exfalso. pose proof (B a (or_introl eq_refl)) as La. apply (adb_ok n f c pc s K a d La Hd) in D. apply (long_alone n f c pc s K d a Hd La L (O a (or_introl eq_refl))). apply addable_sym. exact D.
  - intros b Hb. apply B. right. exact Hb.
  - intros b Hb. apply O. right. exact Hb.
Qed.
(** an addable root selected later is larger *)
Lemma g_ascending l y x : (forall a, In a l -> (a < nr)%nat) -> cand l y -> (forall z, cand l z -> (y <= z)%nat) ->
  isS x -> (forall a, In a l -> V x a = 0) -> V x y = 0 -> add x y -> (y < x)%nat.
Proof.
  intros B Cy Min Sx Ox O A. destruct Cy as (Sy & Oy & Ay). assert (Hx : (x < nr)%nat) by (apply (mem_lt s Sub x LS); apply Sx). assert (Hy : (y < nr)%nat) by (apply (mem_lt s Sub y LS); apply Sy).
  destruct (Nat.lt_ge_cases y x) as [Q|Q]; [exact Q|]. exfalso.
  assert (Oyx : V y x = 0) by (apply (b_sign n f c pc s K x y Hx Hy); exact O). assert (Nxy : x <> y) by (intros <-; rewrite (b_self n f c pc s K x Hx) in O; lia).
  assert (Nx : afterb l x = false).
  { destruct (afterb l x) eqn:D; [|reflexivity]. exfalso. apply (after_ok n f c pc s K N l x B Hx) in D. assert (Cx : cand l x) by (split; [exact Sx|]; split; assumption). specialize (Min x Cx). lia. }
  assert (Ny : afterb l y = true) by (apply (after_ok n f c pc s K N l y B Hy); exact Ay).
  pose proof (g_together l x y B Hx Hy O Ox Oy A) as T. rewrite Nx, Ny in T. cbn in T.
  destruct (b_get n f c pc s K _ A) as (g & Hg & Eg). destruct (pair_new n f c pc s K x y g Hx Hy Hg O Eg) as (d & _ & Td & _ & Ld & _). destruct (Td []) as (_ & Hd & _ & Cd & _).
  (* d = y - x *)
  destruct (b_len n f c pc s K x Hx) as [Lx Lx'], (b_len n f c pc s K y Hy) as [Ly Ly'], (b_len n f c pc s K d Hd) as [Ldd Ldd'].
  destruct (b_mn n f c pc s K x Hx) as (X1 & X2 & X3). destruct (b_mn n f c pc s K d Hd) as (D1 & D2 & D3). destruct G as [Gm Ga].
  assert (Ed : R y = plus n (R x) (R d)) by (apply vec_ext; [rewrite plus_len; exact Ly|]; intros k _; rewrite co_plus by assumption; rewrite Cd; lia).
  assert (Ux : bmem Sub (mn x) = true /\ bmem N (mn x) = bmem N x) by (apply Gm; [exact Hx|apply Sx]).
  assert (Ud : bmem Sub d = true /\ bmem N d = true).
  { destruct (Ga y (mn x) d Hy X1 Hd (proj1 Sy) (proj1 Ux)) as [Q1 Q2].
    - apply vec_ext; [rewrite plus_len; exact Ldd|]. intros k _. rewrite co_plus by (rewrite ?X2, ?opp_length; assumption). rewrite Cd, X2, co_opp. lia.
    - split; [exact Q1|]. rewrite Q2, (proj2 Ux). destruct (bmem N x), (bmem N y); cbn in *; congruence. }
  assert (Od : forall a, In a l -> V d a = 0).
  { intros a Ha. pose proof (Oy a Ha) as Q1. rewrite Ed, value_plus_l, (Ox a Ha) in Q1 by assumption. lia. }
  destruct (le_lt_dec np d) as [Pd|Pd].
  - destruct (g_order x y d) as [Q1 _]; [split; [apply Sx|exact Hx]|split; [apply Sy|exact Hy]|lia|exact O|exact Ed|].
    assert (Cdd : cand l d). { split; [split; [apply Ud|exact Pd]|]. split; [exact Od|]. apply (after_ok n f c pc s K N l d B Hd). rewrite (g_long l d B Hd Ld Od). apply Ud. }
    specialize (Min d Cdd). lia.
  - destruct (g_order y x (mn d)) as [_ Q1]; [split; [apply Sy|exact Hy]|split; [apply Sx|exact Hx]|unfold minus_nr, num_roots in *; lia|exact Oyx| |lia].
    apply vec_ext; [rewrite plus_len; exact Lx|]. intros k _. rewrite co_plus by (rewrite ?D2, ?opp_length; assumption). rewrite D2, co_opp, Cd. lia.
Qed.
(** the order of selection among addable roots *)
Lemma sel_split l2 x l1 : sel (l2 ++ x :: l1) -> sel l1 /\ cand l1 x /\ (forall z, cand l1 z -> (x <= z)%nat).
Proof. induction l2 as [|a l2 IH]; cbn [app]; intros H; [|apply IH]; inversion H; subst; auto. Qed.
Lemma g_later l2 y l1 x : sel (l2 ++ y :: l1) -> In x l2 -> add x y -> (y < x)%nat.
Proof.
  intros H Hx A. destruct (sel_split _ _ _ H) as (H1 & C1 & M1). destruct (sel_orth n f c pc s K N Sub LN LS _ H) as [ND O].
  assert (B : forall a, In a (l2 ++ y :: l1) -> (a < nr)%nat /\ isS a) by (apply (sel_lt n f s N Sub LS); exact H).
  assert (Ix : In x (l2 ++ y :: l1)) by (apply in_or_app; left; exact Hx).
  assert (Nx : forall a, In a (y :: l1) -> x <> a). { intros a Ha <-. apply in_split in Hx. destruct Hx as (p & q & ->). rewrite <- app_assoc in ND. apply NoDup_remove_2 in ND. apply ND. apply in_or_app. right. apply in_or_app. right. exact Ha. }
  assert (V1 : forall a, In a (y :: l1) -> V x a = 0) by (intros a Ha; apply O; [exact Ix|apply in_or_app; right; exact Ha|apply Nx; exact Ha]).
  apply (g_ascending l1 y x); [intros a Ha; apply B; apply in_or_app; right; right; exact Ha|exact C1|exact M1|apply B; exact Ix| | |exact A].
  - intros a Ha. apply V1. right. exact Ha.
  - apply V1. left. reflexivity.
Qed.
Lemma g_alternating l (T : bset) : sel l -> length T = nr -> (forall x, bmem T x = true <-> In x l) -> alternating n s T N Sub.
Proof.
  intros H LT BT. split; [exact G|]. intros x Tx. apply BT in Tx. pose proof (sel_lt n f s N Sub LS l H) as B. destruct (B x Tx) as [Hx Sx]. split; [apply Sx|].
  apply in_split in Tx. destruct Tx as (l2 & l1 & ->). destruct (sel_split _ _ _ H) as (H1 & (_ & _ & A1) & _). destruct (sel_orth n f c pc s K N Sub LN LS _ H) as [ND O].
  assert (B1 : forall a, In a l1 -> (a < nr)%nat) by (intros a Ha; apply B; apply in_or_app; right; right; exact Ha).
  apply (after_ok n f c pc s K N l1 x B1 Hx) in A1. unfold MoMax.afterb in A1.
  assert (ND1 : NoDup l1) by (apply (sel_orth n f c pc s K N Sub LN LS l1 H1)).
  set (t := fun a => if adb a x then 1 else 0) in *.
  assert (Q : count s x T x = lsum t l1).
  { set (p := fun y => existsb (Nat.eqb y) l1). assert (P : forall y, p y = true <-> In y l1). { intros y. unfold p. rewrite existsb_exists. split; [intros (z & Hz & E); apply Nat.eqb_eq in E; subst; exact Hz|intros Hy; exists y; split; [exact Hy|apply Nat.eqb_refl]]. }
    rewrite (lsum_zsum nr t p l1 ND1 B1 (fun a _ => P a)). unfold count, total. replace nr with (x + (nr - x))%nat by lia. rewrite zsum_split. rewrite (zsum_zero (nr - x)).
    - rewrite Z.add_0_r. apply zsum_ext. intros y Ly. assert (Hy : (y < nr)%nat) by lia. unfold t. rewrite (adb_sym n f c pc s K y x Hy Hx).
      destruct (adb x y) eqn:D; [|destruct (bmem T y), (p y); reflexivity]. apply (adb_ok n f c pc s K x y Hx Hy) in D.
      assert (E : bmem T y = p y); [|rewrite E; reflexivity]. apply eq_true_iff_eq. rewrite BT, P. split; [|intros Hy1; apply in_or_app; right; right; exact Hy1].
      intros Iy. apply in_app_or in Iy. destruct Iy as [Iy|[<-|Iy]]; [|lia|exact Iy]. pose proof (g_later l2 x l1 y H Iy (proj1 (addable_sym n f s x y) D)). lia.
    - intros i Hi. destruct (p (x + i)%nat) eqn:E; [|reflexivity]. apply P in E. unfold t. destruct (adb (x + i) x) eqn:D; [|reflexivity]. exfalso.
      apply (adb_ok n f c pc s K (x + i) x (B1 _ E) Hx) in D. apply in_split in E. destruct E as (m2 & m1 & ->).
      pose proof (g_later (l2 ++ x :: m2) (x + i) m1 x) as Q. rewrite <- app_assoc in Q. cbn [app] in Q. specialize (Q H ltac:(apply in_or_app; right; left; reflexivity) (proj1 (addable_sym n f s _ _) D)). lia. }
  rewrite Q, <- Z.negb_odd. destruct (bmem N x), (Z.odd (lsum t l1)); cbn in *; congruence.
Qed.
(** nothing noncompact is strongly orthogonal to the result *)
Lemma g_maximal l (S0 T : bset) b : sel l -> (forall x, ~ cand l x) -> length S0 = nr -> (forall x, bmem S0 x = true <-> In x l) -> inv n f s S0 N Sub nr T ->
  (np <= b < nr)%nat -> bmem Sub b = true -> (forall x, bmem T x = true -> V b x = 0 /\ ~ add b x) -> bmem N b = false.
Proof.
  intros H NC L0 B0 (LT & OT & _ & _ & _ & _ & ZT & ET & _) Hb Sb P.
  assert (Ob : forall y, bmem S0 y = true -> V b y = 0) by (apply (ZT b (proj2 Hb)); intros y Hy; apply P; exact Hy).
  assert (Nb : bmem S0 b = false) by (destruct (bmem S0 b) eqn:Q; [|reflexivity]; pose proof (Ob b Q) as Z0; rewrite (b_self n f c pc s K b (proj2 Hb)) in Z0; lia).
  pose proof (ET b (proj2 Hb) (fun y Hy _ => Ob y Hy) (fun Q => ltac:(congruence))) as E.
  assert (C0 : count s nr T b = 0).
  { unfold count, total. apply zsum_zero. intros y Hy. destruct (bmem T y) eqn:Ty; [|reflexivity]. destruct (adb b y) eqn:D; [|reflexivity]. apply (adb_ok n f c pc s K b y (proj2 Hb) Hy) in D. destruct (proj2 (P y Ty) D). }
  assert (B : forall a, In a l -> (a < nr)%nat) by (intros a Ha; apply (sel_lt n f s N Sub LS l H a Ha)).
  assert (A : afterb l b = false).
  { destruct (afterb l b) eqn:Q; [|reflexivity]. exfalso. apply (after_ok n f c pc s K N l b B (proj2 Hb)) in Q. apply (NC b). split; [split; [exact Sb|apply Hb]|]. split; [|exact Q]. intros a Ha. apply Ob. apply B0. exact Ha. }
  unfold MoMax.afterb in A. assert (Q : lsum (fun a => if adb a b then 1 else 0) l = count s nr S0 b).
  { rewrite (lsum_zsum nr _ (bmem S0) l (proj1 (sel_orth n f c pc s K N Sub LN LS l H)) B (fun a _ => B0 a)). unfold count, total. apply zsum_ext. intros y Hy. rewrite (adb_sym n f c pc s K y b Hy (proj2 Hb)). reflexivity. }
  rewrite Q, <- Z.negb_even, <- E, C0 in A. cbn in A. rewrite xorb_false_r in A. exact A.
Qed.
End Grade.
