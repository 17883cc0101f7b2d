(** The result of long_orthogonalize. *)

From Coq Require Import List Arith ZArith Bool Lia.
From Verif Require Import VecModel RunModel RunProofs MatModel MatSpec MatRing MatLin MatProofs SizeModel LieTypeSpec RootModel RootSpec RootMath RootForm RootGen RootPerm RootMake RootSys RootAcc RootLook RootOrder RootBasis RootTop RsfSteps RootProps MoModel MoSpec MoBase.
Import ListNotations.
Local Open Scope Z_scope.

Definition total (m : nat) (p : nat -> bool) (t : nat -> Z) : Z := zsum m (fun x => if p x then t x else 0).
Lemma total_list m p t : fold_right (fun a z => t a + z) 0 (filter p (seq 0 m)) = total m p t.
Proof.
  unfold total. induction m as [|m IH]; [reflexivity|]. rewrite seq_S, filter_app, fold_right_app. rewrite zsum_S, <- IH. cbn [filter fold_right plus].
  assert (Q : forall l z, fold_right (fun a z => t a + z) z l = fold_right (fun a z => t a + z) 0 l + z) by (induction l as [|a l IHl]; intros z; cbn [fold_right]; [lia|rewrite IHl; lia]).
  rewrite Q. cbn [Nat.add]. destruct (p m); cbn [fold_right]; lia.
Qed.
Lemma length_sum {A} (l : list A) : Z.of_nat (length l) = fold_right (fun _ z => 1 + z) 0 l.
Proof. induction l as [|a l IH]; [reflexivity|]. cbn [length fold_right]. lia. Qed.
Lemma even_add1 x y : Z.even x = Z.even y -> forall b : bool, Z.even (x - (if b then 1 else 0)) = Z.even (y + (if b then 1 else 0)).
Proof. intros E [|]; [|rewrite Z.sub_0_r, Z.add_0_r; exact E]. rewrite Z.even_sub, Z.even_add, E. reflexivity. Qed.

Section Long.
Variables (n : nat) (f : nat -> nat -> Z) (c : matrix Z) (pc : bool) (s : rootsys).
Hypothesis K : built n f c pc s.
Notation nr := (num_roots s).
Notation np := (num_pos s).
Notation R := (root_at s).
Notation W := (coroot_at s).
Notation V a b := (value n f (root_at s a) (coroot_at s b)).
Notation mn := (minus_nr (num_pos s)).
Notation add := (addable n f (root_at s)).
Notation Lg := (Long n f s).

Definition adb (a b : nat) : bool := match sum_is_root s a b with Ok t => t | Fail _ => false end.
Lemma adb_ok a b : (a < nr)%nat -> (b < nr)%nat -> sum_is_root s a b = Ok (adb a b) /\ (adb a b = true <-> add a b).
Proof.
  intros Ha Hb. unfold adb. destruct (proj1 (C97_sum n f c pc s a b K Ha Hb)) as (t & -> & Q). split; [reflexivity|]. rewrite Q. unfold addable. rewrite plus_swap. reflexivity.
Qed.
Lemma adb_sym a b : (a < nr)%nat -> (b < nr)%nat -> adb a b = adb b a.
Proof. intros Ha Hb. apply eq_true_iff_eq. rewrite (proj2 (adb_ok a b Ha Hb)), (proj2 (adb_ok b a Hb Ha)). apply addable_sym. Qed.
Lemma mem_lt (T : bset) x : length T = nr -> bmem T x = true -> (x < nr)%nat.
Proof. intros L Q. destruct (le_lt_dec nr x) as [H|H]; [rewrite bmem_over in Q by lia; discriminate|exact H]. Qed.
Lemma in_members (T : bset) x : length T = nr -> (In x (members T) <-> bmem T x = true).
Proof.
  intros L. unfold members. rewrite filter_In, in_seq. split; [tauto|]. intros Q. pose proof (mem_lt T x L Q). split; [lia|exact Q].
Qed.
(** three orthogonal roots: sums with two of them give the third *)
Lemma add_trans a b d : (a < nr)%nat -> (b < nr)%nat -> (d < nr)%nat -> V a b = 0 -> V b d = 0 -> V a d = 0 -> add a b -> add b d -> add a d.
Proof.
  intros Ha Hb Hd Oab Obd Oad A1 A2. destruct (b_get n f c pc s K _ A1) as (g & Hg & Eg). destruct (b_get n f c pc s K _ A2) as (h & Hh & Eh).
  destruct (half n f c pc s K a b g Ha Hb Hg Oab Eg) as (_ & _ & _ & _ & G5). destruct (half n f c pc s K b d h Hb Hd Hh Obd Eh) as (_ & _ & _ & _ & H5).
  destruct (b_len n f c pc s K a Ha) as [La La'], (b_len n f c pc s K b Hb) as [Lb Lb'], (b_len n f c pc s K d Hd) as [Ld Ld'], (b_len n f c pc s K g Hg) as [Lgg Lgg'], (b_len n f c pc s K h Hh) as [Lh Lh'].
  assert (Vg : V g h = 1).
  { pose proof (H5 (R g)) as Q. rewrite Eg, !value_plus_l in Q by assumption. rewrite Oab, Oad, Obd, (b_self n f c pc s K b Hb) in Q. rewrite Eg, value_plus_l by assumption. lia. }
  destruct (C96_reflected n f c pc s h g K Hh Hg) as (y & _ & Hy & Y1 & _).
  apply (difference n f c pc s K a d Ha Hd Oad). replace (away n (R a) 1 (R d)) with (R y); [apply (b_is n f c pc s K y Hy)|].
  rewrite Y1. unfold reflect. rewrite Vg. apply vec_ext; [rewrite !away_length; reflexivity|]. intros k _. rewrite !co_away by assumption. rewrite Eg, Eh, !co_plus by assumption. lia.
Qed.

(** ** Replacing a pair *)
Lemma term_pos it a : (np <= it)%nat -> (np <= a < nr)%nat -> term s it a = Ok (R a).
Proof.
  intros Hi Ha. destruct K as (L & F & H & E). destruct (top_numbers n f c pc s L F H E a (proj2 Ha)) as (Q & _). rewrite <- Q. unfold term, root_any, any_vec, is_pos.
  rewrite (proj2 (Nat.leb_le np it) Hi), (proj2 (Nat.leb_le np a) (proj1 Ha)). reflexivity.
Qed.
Lemma replace_ok (T : bset) a b : length T = nr -> (np <= a < nr)%nat -> (np <= b < nr)%nat -> V a b = 0 -> add a b ->
  exists T' x y, replace s a b T = Ok T' /\ length T' = nr /\ (forall v, term_ok n f s v a b x y) /\ Lg x /\ Lg y /\ V x y = 0 /\
    (exists g, (g < nr)%nat /\ x = mn g /\ R g = plus n (R a) (R b)) /\
    forall z, bmem T' z = negb (Nat.eqb z b) && (negb (Nat.eqb z a) && (Nat.eqb z y || (Nat.eqb z x || bmem T z))).
Proof.
  intros L Ha Hb O A. destruct (b_get n f c pc s K _ A) as (g & Hg & Eg). destruct (pair_new n f c pc s K a b g (proj2 Ha) (proj2 Hb) Hg O Eg) as (y & Ry & T1 & L1 & L2 & L7).
  destruct (T1 []) as (Hx & Hy & _). destruct K as (L0 & F & H & E).
  assert (Lk : lookup_root s (add8 (R a) (R b)) = Ok (mn g)).
  { pose proof (proj1 (top_add n f c pc s L0 F H E a b g (proj2 Ha) (proj2 Hb) Hg) Eg) as Q. unfold root_add in Q.
    rewrite (proj1 (top_numbers n f c pc s L0 F H E a (proj2 Ha))), (proj1 (top_numbers n f c pc s L0 F H E b (proj2 Hb))) in Q. exact Q. }
  unfold replace. rewrite (term_pos a a (proj1 Ha) Ha), (term_pos a b (proj1 Ha) Hb). cbn [bind]. rewrite Lk. cbn [bind].
  destruct (bins_ok T (mn g)) as (T2 & -> & L3 & B1); [lia|]. cbn [bind]. rewrite Ry. cbn [bind].
  destruct (bins_ok T2 y) as (T3 & -> & L4 & B2); [lia|]. cbn [bind].
  destruct (brem_ok T3 a) as (T4 & -> & L5 & B3); [lia|]. cbn [bind].
  destruct (brem_ok T4 b) as (T5 & -> & L6 & B4); [lia|].
  exists T5, (mn g), y. split; [reflexivity|]. split; [lia|]. split; [exact T1|]. split; [exact L1|]. split; [exact L2|]. split; [exact L7|]. split; [exists g; auto|].
  intros z. rewrite B4, B3, B2, B1. reflexivity.
Qed.
Lemma partner_ok it l : (it < nr)%nat -> Forall (fun j => (j < nr)%nat) l -> exists p, partner s it l = Ok p /\
  match p with None => forall j, In j l -> ~ add it j | Some j => In j l /\ add it j end.
Proof.
  intros Hi. induction l as [|j l IH]; intros Fl; [exists None; split; [reflexivity|intros j []]|]. inversion Fl as [|? ? Hj Fl']; subst. cbn [partner]. destruct (adb_ok it j Hi Hj) as [-> Q]. cbn [bind].
  destruct (adb it j) eqn:D; [exists (Some j); split; [reflexivity|]; split; [left; reflexivity|apply Q; reflexivity]|].
  destruct (IH Fl') as (p & E & P). exists p. split; [exact E|]. destruct p as [j'|]; [split; [right; apply P|apply P]|]. intros j' [<-|I']; [intros X; apply Q in X; discriminate|apply P; exact I'].
Qed.

(** ** The loop *)
Variable S0 : bset.
Hypothesis LS : length S0 = nr.
Hypothesis SP : forall x, bmem S0 x = true -> (np <= x)%nat.
Hypothesis SO : forall x y, bmem S0 x = true -> bmem S0 y = true -> x <> y -> V x y = 0.
(** gradings *)
Variables (N Sub : bset).
Definition graded : Prop :=
  (forall a, (a < nr)%nat -> bmem Sub a = true -> bmem Sub (mn a) = true /\ bmem N (mn a) = bmem N a) /\
  (forall a b g, (a < nr)%nat -> (b < nr)%nat -> (g < nr)%nat -> bmem Sub a = true -> bmem Sub b = true -> R g = plus n (R a) (R b) ->
     bmem Sub g = true /\ bmem N g = xorb (bmem N a) (bmem N b)).
Definition count (m : nat) (T : bset) (z : nat) : Z := total m (bmem T) (fun y => if adb z y then 1 else 0).
Definition alternating : Prop := graded /\ forall x, bmem S0 x = true -> bmem Sub x = true /\ bmem N x = Z.even (count x S0 x).

Definition inv (k : nat) (T : bset) : Prop := length T = nr /\
  (forall x y, bmem T x = true -> bmem T y = true -> x <> y -> V x y = 0) /\
  (forall x, bmem T x = true -> bmem S0 x = true \/ Lg x) /\
  (forall x, bmem S0 x = true -> (k <= x)%nat -> bmem T x = true) /\
  (forall x y, bmem T x = true -> bmem T y = true -> (y < x < k)%nat -> ~ add x y) /\
  (total nr (bmem T) (fun _ => 1) = total nr (bmem S0) (fun _ => 1) /\
   forall v j, total nr (bmem T) (fun x => value n f v (W x) * co (R x) j) = total nr (bmem S0) (fun x => value n f v (W x) * co (R x) j)) /\
  (forall z, (z < nr)%nat -> (forall y, bmem T y = true -> V z y = 0) <-> (forall y, bmem S0 y = true -> V z y = 0)) /\
  (forall z, (z < nr)%nat -> (forall y, bmem S0 y = true -> y <> z -> V z y = 0) -> (bmem S0 z = true -> (k <= z)%nat) -> Z.even (count k T z) = Z.even (count k S0 z)) /\
  (alternating -> forall x, bmem T x = true -> bmem Sub x = true /\ (bmem S0 x = true -> (x < k)%nat -> bmem N x = true) /\ (bmem S0 x = false -> bmem N x = true)).
Lemma inv_start : inv 0 S0.
Proof.
  split; [exact LS|]. split; [exact SO|]. split; [auto|]. split; [auto|]. split; [intros; lia|]. split; [auto|]. split; [reflexivity|]. split; [reflexivity|].
  intros (_ & A) x Hx. split; [apply (A x Hx)|]. split; [intros; lia|congruence].
Qed.
Lemma even_if (b : bool) : Z.even (if b then 1 else 0) = negb b. Proof. destruct b; reflexivity. Qed.
Lemma inv_step k T : (k < nr)%nat -> inv k T -> exists T', (if bmem T k then run p <- partner s k (filter (bmem T) (seq 0 k)); match p with None => Ok T | Some jt => replace s k jt T end else Ok T) = Ok T' /\ inv (S k) T'.
Proof.
  intros Hk (LT & OT & MT & KT & DT & (C1 & C2) & ZT & ET & AT).
  assert (far : forall z, (z < nr)%nat -> (forall y, bmem S0 y = true -> y <> z -> V z y = 0) -> bmem S0 z = false -> forall y, bmem T y = true -> V z y = 0).
  { intros z Hz H Nz. apply ZT; [exact Hz|]. intros y Hy. apply H; [exact Hy|]. intros ->. congruence. }
  assert (Kc : forall T z, count (S k) T z = count k T z + (if bmem T k then if adb z k then 1 else 0 else 0)) by reflexivity.
  destruct (bmem T k) eqn:Bk; cycle 1.
  { (* not a member *)
    exists T. split; [reflexivity|]. assert (B0 : bmem S0 k = false) by (destruct (bmem S0 k) eqn:B0; [rewrite (KT k B0) in Bk by lia; discriminate|reflexivity]).
    split; [exact LT|]. split; [exact OT|]. split; [exact MT|]. split; [intros x Hx Lx; apply KT; [exact Hx|lia]|]. split.
    { intros x y Hx Hy L. apply DT; [exact Hx|exact Hy|]. assert (x <> k) by congruence. lia. }
    split; [split; assumption|]. split; [exact ZT|]. split.
    { intros z Hz H L. rewrite !Kc, Bk, B0, !Z.add_0_r. apply ET; [exact Hz|exact H|]. intros Q. specialize (L Q). lia. }
    intros A x Hx. destruct (AT A x Hx) as (A1 & A2 & A3). split; [exact A1|]. split; [|exact A3]. intros Sx Lx. apply A2; [exact Sx|]. assert (x <> k) by congruence. lia. }
  destruct (partner_ok k (filter (bmem T) (seq 0 k)) Hk) as (p & -> & P).
  { apply Forall_forall. intros j Hj. apply filter_In in Hj. destruct Hj as [Hj _]. apply in_seq in Hj. lia. }
  cbn [bind]. destruct p as [j|].
  - (* a pair *)
    destruct P as [Ij Aj]. apply filter_In in Ij. destruct Ij as [Ij Bj]. apply in_seq in Ij. assert (Hj : (j < nr)%nat) by lia. assert (Nkj : k <> j) by lia.
    assert (Okj : V k j = 0) by (apply OT; assumption). assert (Ojk : V j k = 0) by (apply OT; auto).
    assert (Sk : bmem S0 k = true). { destruct (MT k Bk) as [Q|Q]; [exact Q|]. destruct (long_alone n f c pc s K k j Hk Hj Q Okj Aj). }
    assert (Sj : bmem S0 j = true). { destruct (MT j Bj) as [Q|Q]; [exact Q|]. destruct (long_alone n f c pc s K j k Hj Hk Q Ojk). apply addable_sym. exact Aj. }
    destruct (replace_ok T k j LT (Logic.conj (SP k Sk) Hk) (Logic.conj (SP j Sj) Hj) Okj Aj) as (T' & x & y & E & LT' & TT & Lx & Ly & Oxy & (g & Hg & Exg & Eg) & B).
    exists T'. split; [exact E|]. destruct (TT (R k)) as (Hx & Hy & Cx & Cy & Kx & Ky). destruct (TT (R j)) as (_ & _ & _ & _ & Jx & Jy).
    rewrite (b_self n f c pc s K k Hk), Okj in Kx, Ky. rewrite (b_self n f c pc s K j Hj), Ojk in Jx, Jy.
    assert (Txf : bmem T x = false).
    { destruct (bmem T x) eqn:Q; [|reflexivity]. exfalso. destruct (Nat.eq_dec k x) as [<-|N1]; [rewrite (b_self n f c pc s K k Hk) in Kx; lia|]. rewrite (OT k x Bk Q N1) in Kx. lia. }
    assert (Tyf : bmem T y = false).
    { destruct (bmem T y) eqn:Q; [|reflexivity]. exfalso. destruct (Nat.eq_dec k y) as [<-|N1]; [rewrite (b_self n f c pc s K k Hk) in Ky; lia|]. rewrite (OT k y Bk Q N1) in Ky. lia. }
    assert (Nxy : x <> y) by (intros <-; lia). assert (Nxk : x <> k) by congruence. assert (Nxj : x <> j) by congruence. assert (Nyk : y <> k) by congruence. assert (Nyj : y <> j) by congruence.
    assert (new : forall z, V z k = 0 -> V z j = 0 -> V z x = 0 /\ V z y = 0) by (intros z Q1 Q2; destruct (TT (R z)) as (_ & _ & _ & _ & Q3 & Q4); lia).
    assert (mem : forall z, bmem T' z = true -> z <> k /\ z <> j /\ (z = x \/ z = y \/ bmem T z = true)).
    { intros z. rewrite B, !andb_true_iff, !negb_true_iff, !orb_true_iff, !Nat.eqb_neq, !Nat.eqb_eq. tauto. }
    assert (old : forall z, z <> k -> z <> j -> bmem T z = true -> bmem T' z = true).
    { intros z Q1 Q2 Q3. rewrite B, !andb_true_iff, !negb_true_iff, !orb_true_iff, !Nat.eqb_neq, !Nat.eqb_eq. tauto. }
    assert (in_x : bmem T' x = true) by (rewrite B, !andb_true_iff, !negb_true_iff, !orb_true_iff, !Nat.eqb_neq, !Nat.eqb_eq; tauto).
    assert (in_y : bmem T' y = true) by (rewrite B, !andb_true_iff, !negb_true_iff, !orb_true_iff, !Nat.eqb_neq, !Nat.eqb_eq; tauto).
    assert (lt' : forall z, bmem T' z = true -> (z < nr)%nat) by (intros z; apply mem_lt; exact LT').
    assert (OT' : forall a b, bmem T' a = true -> bmem T' b = true -> a <> b -> V a b = 0).
    { assert (Q : forall a b, bmem T a = true -> a <> k -> a <> j -> b = x \/ b = y -> V a b = 0) by (intros a b Ta N1 N2 [->| ->]; apply new; apply OT; assumption).
      assert (sym : forall a b, (a < nr)%nat -> (b < nr)%nat -> V a b = 0 -> V b a = 0) by (intros a b La Lb; apply (b_sign n f c pc s K a b La Lb)).
      intros a b Ha Hb Nab. pose proof (lt' a Ha) as La. pose proof (lt' b Hb) as Lb. destruct (mem a Ha) as (A1 & A2 & A3), (mem b Hb) as (B1 & B2 & B3).
      destruct A3 as [->|[->|A3]], B3 as [->|[->|B3]]; try congruence; try (apply sym; [assumption|assumption|]; apply Q; tauto); try (apply Q; tauto); [apply sym; assumption|apply OT; assumption]. }
    assert (tot : forall h, h x + h y = h k + h j -> total nr (bmem T') h = total nr (bmem T) h).
    { intros h Eh. unfold total. set (A := fun z => if bmem T z then h z else 0).
      set (A1 := fun z => A z + (if Nat.eqb z x then h x else 0)). set (A2 := fun z => A1 z + (if Nat.eqb z y then h y else 0)). set (A3 := fun z => A2 z + (if Nat.eqb z k then - h k else 0)).
      assert (Q1 : zsum nr A1 = zsum nr A + h x) by (apply (zsum_bump nr A1 A x); [exact Hx|reflexivity]). assert (Q2 : zsum nr A2 = zsum nr A1 + h y) by (apply (zsum_bump nr A2 A1 y); [exact Hy|reflexivity]).
      assert (Q3 : zsum nr A3 = zsum nr A2 + - h k) by (apply (zsum_bump nr A3 A2 k); [exact Hk|reflexivity]).
      rewrite (zsum_bump nr _ A3 j (- h j) Hj); [rewrite Q3, Q2, Q1; lia|]. intros z _. unfold A3, A2, A1, A. rewrite B.
      destruct (Nat.eqb_spec z j) as [->|N1]; [rewrite (proj2 (Nat.eqb_neq j k)), (proj2 (Nat.eqb_neq j y)), (proj2 (Nat.eqb_neq j x)), Bj by congruence; cbn [negb andb]; lia|].
      destruct (Nat.eqb_spec z k) as [->|N2]; [rewrite (proj2 (Nat.eqb_neq k y)), (proj2 (Nat.eqb_neq k x)), Bk by congruence; cbn [negb andb]; lia|].
      destruct (Nat.eqb_spec z y) as [->|N3]; [rewrite (proj2 (Nat.eqb_neq y x)), Tyf by congruence; cbn [negb andb orb]; lia|].
      destruct (Nat.eqb_spec z x) as [->|N4]; [rewrite Txf; cbn [negb andb orb]; lia|]. cbn [negb andb orb]. destruct (bmem T z); lia. }
    assert (alone : forall z, (z < nr)%nat -> V z k = 0 -> V z j = 0 -> adb z x = false /\ adb z y = false).
    { intros z Hz Q1 Q2. destruct (new z Q1 Q2) as [Q3 Q4]. apply (b_sign n f c pc s K z x Hz Hx) in Q3. apply (b_sign n f c pc s K z y Hz Hy) in Q4. split.
      - destruct (adb z x) eqn:D; [|reflexivity]. apply (adb_ok z x Hz Hx) in D. destruct (long_alone n f c pc s K x z Hx Hz Lx Q3). apply addable_sym. exact D.
      - destruct (adb z y) eqn:D; [|reflexivity]. apply (adb_ok z y Hz Hy) in D. destruct (long_alone n f c pc s K y z Hy Hz Ly Q4). apply addable_sym. exact D. }
    split; [exact LT'|]. split; [exact OT'|]. split; [|split; [|split; [|split; [|split; [|split]]]]].
    + intros z Hz. destruct (mem z Hz) as (_ & _ & [->|[->|Q]]); [right; exact Lx|right; exact Ly|apply MT; exact Q].
    + intros z Hz Lz. apply old; [lia|lia|]. apply KT; [exact Hz|lia].
    + intros a b Ha Hb Lab A. pose proof (lt' a Ha) as La. pose proof (lt' b Hb) as Lb. assert (Oab : V a b = 0) by (apply OT'; [exact Ha|exact Hb|lia]). assert (Oba : V b a = 0) by (apply OT'; [exact Hb|exact Ha|lia]).
      destruct (mem a Ha) as (A1 & A2 & A3), (mem b Hb) as (B1 & B2 & B3).
      assert (Na : ~ Lg a) by (intros Q; exact (long_alone n f c pc s K a b La Lb Q Oab A)). assert (Nb : ~ Lg b) by (intros Q; apply (long_alone n f c pc s K b a Lb La Q Oba); apply addable_sym; exact A).
      destruct A3 as [->|[->|A3]]; [tauto|tauto|]. destruct B3 as [->|[->|B3]]; [tauto|tauto|]. apply (DT a b A3 B3); [lia|exact A].
    + split; [rewrite <- C1; apply tot; reflexivity|]. intros v i. rewrite <- C2. apply tot. destruct (TT v) as (_ & _ & Q1 & Q2 & Q3 & Q4). rewrite Q1, Q2. nia.
    + intros z Hz. rewrite <- (ZT z Hz). split; intros H a Ha.
      * destruct (TT (R z)) as (_ & _ & _ & _ & Q3 & Q4). rewrite (H x in_x) in Q3. rewrite (H y in_y) in Q4.
        destruct (Nat.eq_dec a k) as [->|N1]; [lia|]. destruct (Nat.eq_dec a j) as [->|N2]; [lia|]. apply H. apply old; assumption.
      * destruct (mem a Ha) as (_ & _ & [->|[->|Q]]); [apply new; apply H; assumption|apply new; apply H; assumption|apply H; exact Q].
    + intros z Hz H L. assert (Nzk : k <> z) by (intros <-; specialize (L Sk); lia). assert (Nzj : j <> z) by (intros <-; specialize (L Sj); lia).
      pose proof (H k Sk Nzk) as Zk. pose proof (H j Sj Nzj) as Zj. destruct (alone z Hz Zk Zj) as [Ax Ay].
      assert (Ajk : adb z j = adb z k).
      { apply eq_true_iff_eq. rewrite (proj2 (adb_ok z j Hz Hj)), (proj2 (adb_ok z k Hz Hk)). split; intros Q.
        - apply (add_trans z j k Hz Hj Hk Zj Ojk Zk Q). apply addable_sym. exact Aj.
        - apply (add_trans z k j Hz Hk Hj Zk Okj Zj Q Aj). }
      assert (Q : count (S k) T' z = count k T z - (if adb z k then 1 else 0)).
      { unfold count, total. rewrite zsum_S, (B k), Nat.eqb_refl, andb_false_r, Z.add_0_r. rewrite (zsum_bump k _ (fun y0 => if bmem T y0 then if adb z y0 then 1 else 0 else 0) j (- (if adb z k then 1 else 0))); [lia|lia|].
        intros y0 Ly0. rewrite B. destruct (Nat.eqb_spec y0 j) as [->|N1]; [rewrite Bj, Ajk; cbn [negb andb]; lia|]. rewrite (proj2 (Nat.eqb_neq y0 k)) by lia. cbn [negb andb].
        destruct (Nat.eqb_spec y0 y) as [->|N2]; [rewrite Ay, Tyf; reflexivity|]. destruct (Nat.eqb_spec y0 x) as [->|N3]; [rewrite Ax, Txf; reflexivity|]. cbn [orb]. lia. }
      rewrite Q, Kc, Sk. apply even_add1. apply ET; [exact Hz|exact H|]. intros S. specialize (L S). lia.
    + intros A. destruct (AT A k Bk) as (Uk & _ & _). destruct (AT A j Bj) as (Uj & Vj & _). specialize (Vj Sj ltac:(lia)). destruct A as [(Gm & Ga) Al] eqn:EA.
      assert (Nk : bmem N k = false).
      { rewrite (proj2 (Al k Sk)). rewrite <- (ET k Hk (fun y0 H0 N0 => SO k y0 Sk H0 (fun Q => N0 (eq_sym Q))) (fun _ => le_n k)).
        replace (count k T k) with 1; [reflexivity|]. unfold count, total. symmetry. rewrite (zsum_one k j); [rewrite Bj, (proj2 (proj2 (adb_ok k j Hk Hj)) Aj); reflexivity|lia|].
        intros i Li Ni. destruct (bmem T i) eqn:Bi; [|reflexivity]. destruct (adb k i) eqn:D; [|reflexivity]. exfalso. assert (Hi : (i < nr)%nat) by lia. apply (adb_ok k i Hk Hi) in D.
        assert (Aji : add j i). { apply (add_trans j k i Hj Hk Hi Ojk); [apply OT; [exact Bk|exact Bi|lia]|apply OT; [exact Bj|exact Bi|lia]|apply addable_sym; exact Aj|exact D]. }
        destruct (Nat.lt_ge_cases i j) as [Q|Q]; [exact (DT j i Bj Bi ltac:(lia) Aji)|]. apply (DT i j Bi Bj ltac:(lia)). apply addable_sym. exact Aji. }
      assert (UNx : bmem Sub x = true /\ bmem N x = true).
      { destruct (Ga k j g Hk Hj Hg Uk Uj Eg) as [Q1 Q2]. destruct (Gm g Hg Q1) as [Q3 Q4]. rewrite Exg. split; [exact Q3|]. rewrite Q4, Q2, Nk, Vj. reflexivity. }
      assert (UNy : bmem Sub y = true /\ bmem N y = true).
      { destruct (Gm k Hk Uk) as [Q1 Q2]. destruct (b_mn n f c pc s K k Hk) as (M1 & M2 & M3). destruct (Ga j (mn k) y Hj M1 Hy Uj Q1) as [Q3 Q4]; [|rewrite Q4, Q2, Nk, Vj; auto].
        destruct (b_len n f c pc s K j Hj) as [Lj _], (b_len n f c pc s K _ M1) as [Lm _], (b_len n f c pc s K y Hy) as [Lyy _].
        apply vec_ext; [rewrite plus_len; exact Lyy|]. intros i _. rewrite co_plus by assumption. rewrite Cy, M2, co_opp. lia. }
      intros z Hz. destruct (mem z Hz) as (Z1 & Z2 & [->|[->|Q]]); [tauto|tauto|]. destruct (AT A z Q) as (A1 & A2 & A3). split; [exact A1|]. split; [|exact A3]. intros Sz Lz. apply A2; [exact Sz|lia].
  - (* alone *)
    exists T. split; [reflexivity|].
    assert (P' : forall j, bmem T j = true -> (j < k)%nat -> ~ add k j) by (intros j Bj Lj; apply P; apply filter_In; split; [apply in_seq; lia|exact Bj]). clear P.
    split; [exact LT|]. split; [exact OT|]. split; [exact MT|]. split; [intros x Hx Lx; apply KT; [exact Hx|lia]|]. split.
    { intros x y Hx Hy L. destruct (Nat.eq_dec x k) as [->|Nx]; [apply P'; [exact Hy|lia]|]. apply DT; [exact Hx|exact Hy|lia]. }
    split; [split; assumption|]. split; [exact ZT|]. split.
    { intros z Hz H L. rewrite !Kc, Bk. assert (Ee : Z.even (count k T z) = Z.even (count k S0 z)) by (apply ET; [exact Hz|exact H|intros Q; specialize (L Q); lia]).
      destruct (bmem S0 k) eqn:S0k; [rewrite !Z.even_add, Ee; reflexivity|]. destruct (MT k Bk) as [Q|Lk]; [congruence|].
      assert (Zk : V z k = 0). { destruct (bmem S0 z) eqn:Sz; [|apply (far z Hz H Sz k Bk)]. specialize (L eq_refl). apply OT; [apply KT; [exact Sz|lia]|exact Bk|lia]. }
      replace (adb z k) with false; [rewrite !Z.add_0_r; exact Ee|]. symmetry. destruct (adb z k) eqn:D; [|reflexivity]. exfalso. apply (adb_ok z k Hz Hk) in D.
      apply (long_alone n f c pc s K k z Hk Hz Lk); [apply (b_sign n f c pc s K z k Hz Hk); exact Zk|apply addable_sym; exact D]. }
    intros A x Hx. destruct (AT A x Hx) as (A1 & A2 & A3). split; [exact A1|]. split; [|exact A3]. intros Sx Lx. destruct (Nat.eq_dec x k) as [->|Nx]; [|apply A2; [exact Sx|lia]].
    rewrite (proj2 (proj2 A k Sx)). rewrite <- (ET k Hk (fun y0 H0 N0 => SO k y0 Sx H0 (fun Q => N0 (eq_sym Q))) (fun _ => le_n k)).
    replace (count k T k) with 0; [reflexivity|]. unfold count, total. symmetry. apply zsum_zero. intros i Li. destruct (bmem T i) eqn:Bi; [|reflexivity]. destruct (adb k i) eqn:D; [|reflexivity]. exfalso.
    apply (adb_ok k i Hk ltac:(lia)) in D. exact (P' i Bi Li D).
Qed.
Lemma long_run : exists T, long_orthogonalize s S0 = Ok T /\ inv nr T.
Proof.
  assert (G : gives (long_orthogonalize s S0) (inv nr) (fun _ => False)).
  { unfold long_orthogonalize. rewrite LS. apply (gives_upto0 inv); [exact inv_start| |auto]. intros k T Hk I0. destruct (inv_step k T Hk I0) as (T' & E & Q). rewrite E. exact Q. }
  destruct (long_orthogonalize s S0) as [T|]; [exists T; split; [reflexivity|exact G]|destruct G].
Qed.
End Long.
