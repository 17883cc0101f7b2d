(** The invariant form: coroots from roots, reflections in roots, the angles between roots, strings of roots. *)

From Coq Require Import List Arith ZArith Bool Lia.
From Verif Require Import MatSpec MatRing MatLin LieTypeSpec RootSpec RootMath.
Import ListNotations.
Local Open Scope Z_scope.

Lemma zsum_swap m n (x : nat -> nat -> Z) : zsum m (fun i => zsum n (x i)) = zsum n (fun j => zsum m (fun i => x i j)).
Proof. exact (zring (@fsum_swap) m n x). Qed.

(** exchanging roots and coroots *)
Lemma flip_flip C : flip (flip C) = C. Proof. reflexivity. Qed.
Lemma flip_Cartan n C : Cartan_like n C -> Cartan_like n (flip C).
Proof.
  intros (A & B & D). split; [exact A|]. split; [intros i j Hi Hj N; apply B; [exact Hj|exact Hi|congruence]|].
  intros i j Hi Hj Z0. apply D; assumption.
Qed.
Lemma rc_flip n C v w : root_coroot n C v w -> root_coroot n (flip C) w v.
Proof. induction 1 as [i H|i v w H R IH]; [apply rc_simple; exact H|]. exact (rc_reflect n (flip C) i w v H IH). Qed.
Lemma rc_sr n C i v w : (i < n)%nat -> root_coroot n C v w -> root_coroot n C (sreflect n C i v) (sreflect n (flip C) i w).
Proof. apply rc_reflect. Qed.

Section Lin.
Variables (n : nat) (C : nat -> nat -> Z).
Notation pair := (pairing n C).
Notation sr := (sreflect n C).
Lemma away_length v c r : length (away n v c r) = n. Proof. unfold away. rewrite map_length, seq_length. reflexivity. Qed.
Lemma co_away v c r k : length v = n -> length r = n -> co (away n v c r) k = co v k - c * co r k.
Proof.
  intros Lv Lr. destruct (le_lt_dec n k) as [H|H].
  - rewrite !co_over by (rewrite ?away_length; lia). lia.
  - unfold away. rewrite co_map by exact H. reflexivity.
Qed.
Lemma plus_length v w : length (plus n v w) = n. Proof. unfold plus. rewrite map_length, seq_length. reflexivity. Qed.
Lemma co_plus v w k : length v = n -> length w = n -> co (plus n v w) k = co v k + co w k.
Proof.
  intros Lv Lr. destruct (le_lt_dec n k) as [H|H].
  - rewrite !co_over by (rewrite ?plus_length; lia). lia.
  - unfold plus. rewrite co_map by exact H. reflexivity.
Qed.
Lemma pair_away v c r i : length v = n -> length r = n -> pair (away n v c r) i = pair v i - c * pair r i.
Proof.
  intros Lv Lr. unfold pairing. replace (_ - _) with (zsum n (fun j => co v j * C j i) + - c * zsum n (fun j => co r j * C j i)) by lia.
  rewrite <- zsum_mul_l, <- zsum_add. apply zsum_ext. intros j _. rewrite co_away by assumption. ring.
Qed.
Lemma sr_away i v c r : (i < n)%nat -> length v = n -> length r = n -> sr i (away n v c r) = away n (sr i v) c (sr i r).
Proof.
  intros Hi Lv Lr. apply vec_ext; [rewrite sr_length, !away_length; reflexivity|]. intros k _.
  rewrite co_away, !co_sr, pair_away, co_away by (rewrite ?sr_length, ?away_length; assumption || lia).
  destruct (Nat.eqb k i); ring.
Qed.
(** the value of a coroot *)
Lemma value_pair v w : value n C v w = zsum n (fun j => pair v j * co w j).
Proof.
  unfold value. rewrite zsum_swap. apply zsum_ext. intros j _. unfold pairing. rewrite <- zsum_mul_r. reflexivity.
Qed.
Lemma value_flip v w : value n (flip C) w v = value n C v w.
Proof. unfold value. rewrite zsum_swap. apply zsum_ext. intros i _. apply zsum_ext. intros j _. unfold flip. ring. Qed.
Lemma value_basis_r v i : (i < n)%nat -> value n C v (basis n i) = pair v i.
Proof.
  intros Hi. rewrite value_pair, (zsum_one n i); [rewrite co_basis, Nat.eqb_refl by exact Hi; lia|exact Hi|].
  intros k _ N. rewrite co_basis, (proj2 (Nat.eqb_neq _ _) N) by exact Hi. lia.
Qed.
Lemma value_bump_r v w i z : (i < n)%nat -> length w = n -> value n C v (bump w i z) = value n C v w + z * pair v i.
Proof.
  intros Hi L. rewrite !value_pair. apply (zsum_bump _ _ _ i); [exact Hi|]. intros k _. rewrite co_bump by lia.
  destruct (Nat.eqb_spec k i) as [->|N]; ring.
Qed.
End Lin.
Lemma value_bump_l n C v w i z : (i < n)%nat -> length v = n -> value n C (bump v i z) w = value n C v w + z * pairing n (flip C) w i.
Proof. intros Hi L. rewrite <- !(value_flip n C). apply value_bump_r; assumption. Qed.
Lemma value_opp_l n C v w : value n C (opp v) w = - value n C v w.
Proof.
  rewrite !value_pair. replace (- zsum n _) with (-1 * zsum n (fun j => pairing n C v j * co w j)) by lia. rewrite <- zsum_mul_l.
  apply zsum_ext. intros j _. rewrite pair_opp. ring.
Qed.
Lemma value_opp_r n C v w : value n C v (opp w) = - value n C v w.
Proof. rewrite <- !(value_flip n C). apply value_opp_l. Qed.
Lemma value_away_l n C v c r w : length v = n -> length r = n -> value n C (away n v c r) w = value n C v w - c * value n C r w.
Proof.
  intros Lv Lr. rewrite !value_pair. replace (_ - _) with (zsum n (fun j => pairing n C v j * co w j) + - c * zsum n (fun j => pairing n C r j * co w j)) by lia.
  rewrite <- zsum_mul_l, <- zsum_add. apply zsum_ext. intros j _. rewrite pair_away by assumption. ring.
Qed.
(** moving a simple reflection to the other side *)
Lemma value_sr n C i v w : (i < n)%nat -> length v = n -> length w = n ->
  value n C (sreflect n C i v) w = value n C v (sreflect n (flip C) i w).
Proof. intros Hi Lv Lw. unfold sreflect. rewrite value_bump_l, value_bump_r by assumption. ring. Qed.

Lemma reflect_length n C r c v : length (reflect n C r c v) = n. Proof. apply away_length. Qed.

Section Reflections.
Variables (n : nat) (C : nat -> nat -> Z).
Hypothesis cart : Cartan_like n C.
Notation sr := (sreflect n C).
Notation sr' := (sreflect n (flip C)).
Notation rc := (root_coroot n C).
Lemma rc_value v w : rc v w -> value n C v w = 2.
Proof.
  induction 1 as [i H|i v w H R IH].
  - rewrite value_basis_r, pair_basis by exact H. apply (proj1 cart); exact H.
  - destruct (root_coroot_length n C _ _ R) as [Lv Lw]. rewrite value_sr by (rewrite ?sr_length; assumption).
    rewrite (sr_sr n (flip C) (flip_Cartan n C cart)) by assumption. exact IH.
Qed.
Lemma reflect_simple i v : (i < n)%nat -> length v = n -> reflect n C (basis n i) (basis n i) v = sr i v.
Proof.
  intros Hi L. apply vec_ext; [rewrite reflect_length, sr_length; lia|]. intros k _. unfold reflect.
  rewrite co_away, value_basis_r, co_sr, co_basis by (rewrite ?basis_length; assumption || lia). destruct (Nat.eqb k i); ring.
Qed.
(** the reflection in a reflected root is a conjugate *)
Lemma reflect_conj i r c v : (i < n)%nat -> length r = n -> length c = n -> length v = n ->
  reflect n C (sr i r) (sr' i c) v = sr i (reflect n C r c (sr i v)).
Proof.
  intros Hi Lr Lc Lv. unfold reflect. rewrite sr_away by (rewrite ?sr_length; assumption). rewrite (sr_sr n C cart) by assumption.
  rewrite value_sr by assumption. reflexivity.
Qed.
Lemma reflect_root r c v w : rc r c -> rc v w -> rc (reflect n C r c v) (reflect n (flip C) c r w).
Proof.
  intros R. revert v w. induction R as [i H|i r c H R IH]; intros v w V; destruct (root_coroot_length n C _ _ V) as [Lv Lw].
  - rewrite reflect_simple by assumption. unfold reflect. rewrite value_basis_r by exact H.
    replace (away n w (pairing n (flip C) w i) (basis n i)) with (sr' i w); [apply rc_reflect; assumption|].
    apply vec_ext; [rewrite sr_length, away_length; exact Lw|]. intros k _.
    rewrite co_away, co_sr, co_basis by (rewrite ?basis_length; assumption || lia). destruct (Nat.eqb k i); ring.
  - destruct (root_coroot_length n C _ _ R) as [Lr Lc]. rewrite reflect_conj by assumption.
    replace (reflect n (flip C) (sr' i c) (sr i r) w) with (sr' i (reflect n (flip C) c r (sr' i w))).
    + apply rc_reflect; [exact H|]. apply IH. apply rc_reflect; assumption.
    + symmetry. unfold reflect. rewrite sr_away by (rewrite ?sr_length; assumption). rewrite (sr_sr n (flip C) (flip_Cartan n C cart)) by assumption.
      f_equal. rewrite !value_flip. apply value_sr; assumption.
Qed.
Lemma reflect_self r c : rc r c -> reflect n C r c r = opp r.
Proof.
  intros R. destruct (root_coroot_length n C _ _ R) as [Lr Lc]. apply vec_ext; [rewrite reflect_length, opp_length; lia|].
  intros k _. unfold reflect. rewrite co_away, co_opp, (rc_value r c R) by assumption. ring.
Qed.
Lemma rc_opp v w : rc v w -> rc (opp v) (opp w).
Proof.
  intros R. rewrite <- (reflect_self v w R).
  destruct (root_coroot_length n C _ _ R) as [Lr Lc].
  replace (opp w) with (reflect n (flip C) w v w).
  - apply reflect_root; exact R.
  - apply vec_ext; [rewrite reflect_length, opp_length; lia|]. intros k _. unfold reflect.
    rewrite co_away, co_opp, value_flip, (rc_value v w R) by assumption. ring.
Qed.
Lemma reflect_reflect r c v : rc r c -> length v = n -> reflect n C r c (reflect n C r c v) = v.
Proof.
  intros R Lv. destruct (root_coroot_length n C _ _ R) as [Lr Lc]. apply vec_ext; [rewrite reflect_length; lia|]. intros k _.
  unfold reflect. rewrite co_away, co_away, value_away_l, (rc_value r c R) by (rewrite ?away_length; assumption || reflexivity). ring.
Qed.
End Reflections.

(** ** With a positive definite form *)
Section Form.
Variables (n : nat) (C : nat -> nat -> Z) (d : nat -> Z).
Hypothesis cart : Cartan_like n C.
Hypothesis dpos : forall i, (i < n)%nat -> 0 < d i.
Hypothesis sym : forall i j, (i < n)%nat -> (j < n)%nat -> d i * C j i = d j * C i j.
Hypothesis pos : forall x, (exists i, (i < n)%nat /\ x i <> 0) -> 0 < qform n (fun i j => d i * C j i) x.
Notation rc := (root_coroot n C).
Notation pair := (pairing n C).

Definition fm (x y : nat -> Z) : Z := zsum n (fun i => zsum n (fun j => d i * C j i * x i * y j)).
Lemma fm_ext x x' y y' : (forall i, (i < n)%nat -> x i = x' i) -> (forall i, (i < n)%nat -> y i = y' i) -> fm x y = fm x' y'.
Proof. intros X Y. apply zsum_ext. intros i Hi. apply zsum_ext. intros j Hj. rewrite X, Y by assumption. reflexivity. Qed.
Lemma fm_sym x y : fm x y = fm y x.
Proof.
  unfold fm. rewrite zsum_swap. apply zsum_ext. intros i Hi. apply zsum_ext. intros j Hj. rewrite (sym j i) by assumption. ring.
Qed.
Lemma fm_lin_l a x b y z : fm (fun k => a * x k + b * y k) z = a * fm x z + b * fm y z.
Proof.
  unfold fm. rewrite <- !zsum_mul_l, <- zsum_add. apply zsum_ext. intros i _. rewrite <- !zsum_mul_l, <- zsum_add.
  apply zsum_ext. intros j _. ring.
Qed.
Lemma fm_lin_r a x b y z : fm z (fun k => a * x k + b * y k) = a * fm z x + b * fm z y.
Proof. rewrite fm_sym, fm_lin_l, (fm_sym x z), (fm_sym y z). reflexivity. Qed.
Lemma fm_pair u v : fm (co u) (co v) = zsum n (fun i => d i * pair v i * co u i).
Proof. unfold fm. apply zsum_ext. intros i _. unfold pairing. rewrite <- zsum_mul_l, <- zsum_mul_r. apply zsum_ext. intros j _. ring. Qed.
Lemma fm_pos x : (exists i, (i < n)%nat /\ x i <> 0) -> 0 < fm x x.
Proof.
  intros H. specialize (pos x H). unfold qform in pos. unfold fm. exact pos.
Qed.

Lemma dC2 i : (i < n)%nat -> d i * C i i = 2 * d i.
Proof. intros H. rewrite (proj1 cart i H). ring. Qed.
(** two simple roots *)
Lemma small_products i j : (i < n)%nat -> (j < n)%nat -> i <> j -> C i j * C j i <= 3.
Proof.
  intros Hi Hj N.
  assert (P : 0 < fm (co (bump (bump (basis n i) i 1) j (- C i j))) (co (bump (bump (basis n i) i 1) j (- C i j)))).
  { apply fm_pos. exists i. split; [exact Hi|]. rewrite !co_bump by (rewrite ?bump_length, basis_length; assumption).
    rewrite (proj2 (Nat.eqb_neq i j) N), Nat.eqb_refl, co_basis, Nat.eqb_refl by exact Hi. lia. }
  rewrite fm_pair in P. set (v := bump _ j _) in P.
  assert (K : forall k, (k < n)%nat -> k <> i -> k <> j -> d k * pair v k * co v k = 0).
  { intros k Hk N1 N2. unfold v. rewrite !co_bump by (rewrite ?bump_length, basis_length; assumption).
    rewrite (proj2 (Nat.eqb_neq k j) N2), (proj2 (Nat.eqb_neq k i) N1), co_basis, (proj2 (Nat.eqb_neq k i) N1) by exact Hi. ring. }
  assert (Vi : co v i = 2) by (unfold v; rewrite !co_bump by (rewrite ?bump_length, basis_length; assumption);
    rewrite (proj2 (Nat.eqb_neq i j) N), Nat.eqb_refl, co_basis, Nat.eqb_refl by exact Hi; reflexivity).
  assert (Vj : co v j = - C i j) by (unfold v; rewrite !co_bump by (rewrite ?bump_length, basis_length; assumption);
    rewrite Nat.eqb_refl, (proj2 (Nat.eqb_neq j i) ltac:(congruence)), co_basis, (proj2 (Nat.eqb_neq j i) ltac:(congruence)) by exact Hi; reflexivity).
  assert (Pk : forall k, pair v k = 2 * C i k - C i j * C j k).
  { intros k. unfold v. rewrite !pair_bump, pair_basis by (rewrite ?bump_length, ?basis_length; assumption || reflexivity). ring. }
  rewrite (zsum_ext n _ (fun k => (if Nat.eqb k i then d i * pair v i * 2 else 0) + (if Nat.eqb k j then d j * pair v j * - C i j else 0))) in P.
  2: { intros k Hk. destruct (Nat.eqb_spec k i) as [E1|N1]; destruct (Nat.eqb_spec k j) as [E2|N2]; [congruence|rewrite E1, Vi; ring|rewrite E2, Vj; ring|].
       rewrite K by assumption. ring. }
  rewrite zsum_add, (zsum_one n i), (zsum_one n j), !Nat.eqb_refl, !Pk in P; try assumption.
  2, 3: intros k _ Nk; rewrite (proj2 (Nat.eqb_neq _ _) Nk); reflexivity.
  pose proof (sym i j Hi Hj) as S. pose proof (proj1 cart i Hi) as Ci. pose proof (proj1 cart j Hj) as Cj. rewrite Ci, Cj in P.
  pose proof (dpos i Hi) as Di. pose proof (dpos j Hj) as Dj.
  (* d_i (4 - C i j C j i) * 2 + d_j (2 C i j - 2 C i j) * .. *)
  assert (Q : 0 < d i * (4 - C i j * C j i) * 2) by lia. nia.
Qed.
Notation up := (up n C).

(** the coroot in terms of the root: 2 d v / (v,v) *)
Lemma coroot_formula v w : rc v w -> exists q, 0 < q /\ fm (co v) (co v) = 2 * q /\ forall j, (j < n)%nat -> co w j * q = d j * co v j.
Proof.
  induction 1 as [i H|i v w H R (q & Q & F & E)].
  - exists (d i). split; [apply dpos; exact H|]. split.
    + rewrite fm_pair, (zsum_one n i); [|exact H|].
      * rewrite pair_basis, co_basis, Nat.eqb_refl, (proj1 cart) by exact H. ring.
      * intros k _ N. rewrite co_basis, (proj2 (Nat.eqb_neq _ _) N) by exact H. ring.
    + intros j _. rewrite co_basis by exact H. destruct (Nat.eqb_spec j i) as [->|N]; ring.
  - destruct (root_coroot_length n C _ _ R) as [Lv Lw]. exists q. split; [exact Q|].
    assert (X : pairing n (flip C) w i * q = d i * pair v i).
    { unfold pairing, flip. rewrite <- zsum_mul_r, <- zsum_mul_l. apply zsum_ext. intros j Hj.
      replace (co w j * C i j * q) with (co w j * q * C i j) by ring. rewrite E by exact Hj.
      pose proof (sym i j H Hj). replace (d i * (co v j * C j i)) with (co v j * (d i * C j i)) by ring. rewrite H0. ring. }
    split.
    + rewrite <- F. set (x := co (basis n i)).
      assert (S : forall k, (k < n)%nat -> co (sreflect n C i v) k = 1 * co v k + - pair v i * x k).
      { intros k _. rewrite co_sr by lia. unfold x. rewrite co_basis by exact H. destruct (Nat.eqb k i); ring. }
      rewrite (fm_ext _ _ _ _ S S), fm_lin_l, !fm_lin_r.
      assert (A : fm x (co v) = d i * pair v i).
      { unfold x. rewrite fm_pair, (zsum_one n i); [rewrite co_basis, Nat.eqb_refl by exact H; ring|exact H|].
        intros k _ N. rewrite co_basis, (proj2 (Nat.eqb_neq _ _) N) by exact H. ring. }
      assert (B : fm x x = 2 * d i).
      { unfold x. rewrite fm_pair, (zsum_one n i); [rewrite pair_basis, co_basis, Nat.eqb_refl, (proj1 cart) by exact H; ring|exact H|].
        intros k _ N. rewrite co_basis, (proj2 (Nat.eqb_neq _ _) N) by exact H. ring. }
      rewrite (fm_sym (co v) x), A, B. ring.
    + intros j Hj. rewrite !co_sr by lia. destruct (Nat.eqb_spec j i) as [->|N]; [|apply E; exact Hj].
      rewrite Z.mul_sub_distr_r, X, E by exact Hj. ring.
Qed.
(** a root is as long as some simple root *)
Lemma root_norm v w : rc v w -> exists i, (i < n)%nat /\ fm (co v) (co v) = 2 * d i.
Proof.
  induction 1 as [i H|i v w H R (i0 & H0 & F)].
  - exists i. split; [exact H|]. rewrite fm_pair, (zsum_one n i); [|exact H|].
    + rewrite pair_basis, co_basis, Nat.eqb_refl, (proj1 cart) by exact H. ring.
    + intros k _ N. rewrite co_basis, (proj2 (Nat.eqb_neq _ _) N) by exact H. ring.
  - exists i0. split; [exact H0|]. rewrite <- F. destruct (root_coroot_length n C _ _ R) as [Lv Lw].
    set (x := co (basis n i)).
    assert (S : forall k, (k < n)%nat -> co (sreflect n C i v) k = 1 * co v k + - pair v i * x k).
    { intros k _. rewrite co_sr by lia. unfold x. rewrite co_basis by exact H. destruct (Nat.eqb k i); ring. }
    rewrite (fm_ext _ _ _ _ S S), fm_lin_l, !fm_lin_r.
    assert (A : fm x (co v) = d i * pair v i).
    { unfold x. rewrite fm_pair, (zsum_one n i); [rewrite co_basis, Nat.eqb_refl by exact H; ring|exact H|].
      intros k _ N. rewrite co_basis, (proj2 (Nat.eqb_neq _ _) N) by exact H. ring. }
    assert (B : fm x x = 2 * d i).
    { unfold x. rewrite fm_pair, (zsum_one n i); [rewrite pair_basis, co_basis, Nat.eqb_refl, (proj1 cart) by exact H; ring|exact H|].
      intros k _ N. rewrite co_basis, (proj2 (Nat.eqb_neq _ _) N) by exact H. ring. }
    rewrite (fm_sym (co v) x), A, B. ring.
Qed.
Lemma coroot_unique v w w' : rc v w -> rc v w' -> w = w'.
Proof.
  intros R R'. destruct (coroot_formula v w R) as (q & Q & F & E), (coroot_formula v w' R') as (q' & Q' & F' & E').
  assert (q' = q) by lia. subst q'. destruct (root_coroot_length n C _ _ R) as [_ L], (root_coroot_length n C _ _ R') as [_ L'].
  apply vec_ext; [lia|]. intros k Hk. rewrite L in Hk. specialize (E k Hk). specialize (E' k Hk). nia.
Qed.
Lemma value_form u v w : rc v w -> exists q, 0 < q /\ fm (co v) (co v) = 2 * q /\ value n C u w * q = fm (co v) (co u).
Proof.
  intros R. destruct (coroot_formula v w R) as (q & Q & F & E). exists q. split; [exact Q|]. split; [exact F|].
  rewrite value_pair, fm_pair, <- zsum_mul_r. apply zsum_ext. intros j Hj.
  replace (pair u j * co w j * q) with (co w j * q * pair u j) by ring. rewrite E by exact Hj. ring.
Qed.
(** the values of coroots on roots *)
Lemma values_sign u v wu wv : rc u wu -> rc v wv -> (0 < value n C u wv <-> 0 < value n C v wu) /\ (value n C u wv = 0 <-> value n C v wu = 0).
Proof.
  intros R S. destruct (value_form v u wu R) as (q & Q & F & E), (value_form u v wv S) as (q' & Q' & F' & E').
  rewrite fm_sym, <- E' in E. split; split; nia.
Qed.
Lemma values_product u v wu wv : rc u wu -> rc v wv -> (exists a k, (k < n)%nat /\ co u a * co v k <> co u k * co v a) ->
  value n C u wv * value n C v wu <= 3.
Proof.
  intros R S (a & k & Hk & NE). destruct (value_form v u wu R) as (q & Q & F & E), (value_form u v wv S) as (q' & Q' & F' & E').
  destruct (root_coroot_length n C _ _ R) as [Lu _], (root_coroot_length n C _ _ S) as [Lv _].
  assert (Ha : (a < n)%nat) by (destruct (le_lt_dec n a) as [L|L]; [exfalso; apply NE; rewrite (co_over u a), (co_over v a) by lia; ring|exact L]).
  set (c := fm (co u) (co v)) in *.
  assert (P : 0 < fm (fun k => (2 * q') * co u k + - c * co v k) (fun k => (2 * q') * co u k + - c * co v k)).
  { apply fm_pos. destruct (Z.eq_dec (2 * q' * co u k + - c * co v k) 0) as [Z1|Z1]; [|exists k; split; assumption].
    destruct (Z.eq_dec (2 * q' * co u a + - c * co v a) 0) as [Z2|Z2]; [|exists a; split; assumption]. exfalso. apply NE.
    apply (Z.mul_reg_l _ _ (2 * q')); [lia|]. replace (2 * q' * (co u a * co v k)) with (2 * q' * co u a * co v k) by ring.
    replace (2 * q' * (co u k * co v a)) with (2 * q' * co u k * co v a) by ring.
    replace (2 * q' * co u a) with (c * co v a) by lia. replace (2 * q' * co u k) with (c * co v k) by lia. ring. }
  rewrite fm_lin_l, !fm_lin_r, F, F', (fm_sym (co v) (co u)) in P. fold c in P. rewrite fm_sym in E'. fold c in E'.
  set (x := value n C u wv) in *. set (y := value n C v wu) in *.
  assert (P2 : 0 < 2 * q' * (4 * q * q' - c * c)) by lia. assert (P3 : 0 < 4 * q * q' - c * c) by nia.
  assert (E2 : c * c = x * y * (q * q')) by (rewrite <- E at 1; rewrite <- E'; ring). assert (0 < q * q') by nia. nia.
Qed.

Lemma root_nonzero v w : rc v w -> exists k, (k < n)%nat /\ co v k <> 0.
Proof.
  intros R. destruct (coroot_formula v w R) as (q & Q & F & _).
  destruct (existsb (fun k => negb (co v k =? 0)) (seq 0 n)) eqn:E.
  - apply existsb_exists in E. destruct E as (k & I & T). apply in_seq in I. exists k. split; [lia|]. apply Z.eqb_neq. apply negb_true_iff. exact T.
  - exfalso. assert (Z0 : fm (co v) (co v) = 0); [|lia]. unfold fm. apply zsum_zero. intros i Hi. apply zsum_zero. intros j Hj.
    assert (co v i = 0) as ->; [|ring]. destruct (Z.eqb_spec (co v i) 0) as [Q0|Q0]; [exact Q0|]. exfalso.
    assert (X : existsb (fun k => negb (co v k =? 0)) (seq 0 n) = true); [|congruence].
    apply existsb_exists. exists i. split; [apply in_seq; lia|]. rewrite (proj2 (Z.eqb_neq _ _) Q0). reflexivity.
Qed.
(** coroots of positive roots are positive *)
Lemma coroot_nonneg v w : rc v w -> nonneg v <-> nonneg w.
Proof.
  intros R. destruct (coroot_formula v w R) as (q & Q & F & E). destruct (root_coroot_length n C _ _ R) as [Lv Lw].
  split; intros P k; specialize (P k); (destruct (le_lt_dec n k) as [L|L]; [rewrite co_over by lia; lia|]);
  specialize (E k L); pose proof (dpos k L); nia.
Qed.
Lemma up_coroot v w : rc v w -> up v <-> RootMath.up n (flip C) w.
Proof.
  intros R. rewrite (up_iff n C cart small_products), (up_iff n (flip C) (flip_Cartan n C cart)).
  - split; intros [A B]; split; try (apply (coroot_nonneg v w R); exact B); [exists v; apply rc_flip; exact R|exists w; exact R].
  - intros i j Hi Hj N. unfold flip. rewrite Z.mul_comm. apply small_products; assumption.
Qed.

(** strings: subtracting a simple root with a positive value gives a root *)
Lemma string_down v j : up v -> (j < n)%nat -> v <> basis n j -> 0 < pair v j -> up (bump v j (-1)).
Proof.
  intros U Hj NE P. pose proof (up_length n C v U) as L. destruct (up_root n C v U) as [w R].
  assert (W : value n C (basis n j) w = 1 \/ pair v j = 1).
  { pose proof (rc_simple n C j Hj) as S. pose proof (values_sign v (basis n j) w _ R S) as [[G _] _].
    rewrite value_basis_r in G by exact Hj. specialize (G P).
    destruct (up_other n C cart small_products v j U Hj NE) as (k & Hk & Nk & Ck).
    assert (K : value n C v (basis n j) * value n C (basis n j) w <= 3).
    { apply (values_product v (basis n j) w (basis n j) R S). exists k, j. split; [exact Hj|].
      rewrite !co_basis, Nat.eqb_refl, (proj2 (Nat.eqb_neq _ _) Nk) by exact Hj. lia. }
    rewrite value_basis_r in K by exact Hj. nia. }
  assert (RB : is_root n C (bump v j (-1))).
  { destruct W as [W|W].
    - pose proof (reflect_root n C cart v w (basis n j) (basis n j) R (rc_simple n C j Hj)) as Q. apply (rc_opp n C cart) in Q.
      replace (bump v j (-1)) with (opp (reflect n C v w (basis n j))); [eexists; exact Q|].
      apply vec_ext; [rewrite opp_length, reflect_length, bump_length; lia|]. intros k _. unfold reflect.
      rewrite W, co_opp, co_away, co_bump, co_basis by (rewrite ?basis_length; assumption || lia). destruct (Nat.eqb k j); ring.
    - replace (bump v j (-1)) with (sreflect n C j v); [apply is_root_sr; [exact Hj|exists w; exact R]|].
      unfold sreflect. rewrite W. reflexivity. }
  apply (nonneg_up n C cart small_products _ RB). intros k. rewrite co_bump by lia.
  destruct (Nat.eqb_spec k j) as [->|N]; [|apply (up_nonneg n C); exact U].
  destruct (up_other n C cart small_products v j U Hj NE) as (k & Hk & Nk & Ck).
  destruct (Z.le_gt_cases 1 (co v j)) as [G|G]; [lia|]. exfalso.
  destruct (root_up n C cart small_products _ RB) as [V|V].
  - pose proof (up_nonneg n C _ V j) as X. rewrite co_bump, Nat.eqb_refl in X by lia. lia.
  - pose proof (up_nonneg n C _ V k) as X. rewrite co_opp, co_bump, (proj2 (Nat.eqb_neq _ _) Nk) in X by lia. lia.
Qed.
(** no gaps between the heights of roots *)
Lemma up_step v : up v -> 1 < height v -> exists j, (j < n)%nat /\ up (bump v j (-1)).
Proof.
  intros U H. destruct (up_cases n C cart v U) as [(i & Hi & ->)|(j & u & Hj & U' & Pu & E & Pv & Lt)].
  - rewrite height_basis in H by exact Hi. lia.
  - exists j. split; [exact Hj|]. apply string_down; try assumption; [|lia]. intros ->. rewrite height_basis in H by exact Hj. lia.
Qed.
Lemma up_gap m v : up v -> (Z.of_nat m < height v) -> (1 <= m)%nat -> exists u, up u /\ height u = Z.of_nat m.
Proof.
  remember (Z.to_nat (height v - Z.of_nat m)) as k eqn:Ek. revert v Ek. induction k as [|k IH]; intros v Ek U H Hm; [lia|].
  destruct (up_step v U ltac:(lia)) as (j & Hj & V). pose proof (up_length n C v U) as L.
  assert (HH : height (bump v j (-1)) = height v - 1) by (rewrite height_bump by lia; lia).
  destruct (Z.eq_dec (height v - 1) (Z.of_nat m)) as [E|E]; [exists (bump v j (-1)); split; [exact V|lia]|].
  apply (IH (bump v j (-1))); try assumption; lia.
Qed.
(** the values of simple coroots on positive roots that are not simple are between -3 and 3 *)
Lemma pair_bound v j : up v -> (j < n)%nat -> -3 <= pair v j <= 3.
Proof.
  intros U Hj. destruct (list_eq_dec Z.eq_dec v (basis n j)) as [->|NE].
  - rewrite pair_basis, (proj1 cart) by exact Hj. lia.
  - destruct (up_root n C v U) as [w R]. pose proof (rc_simple n C j Hj) as S.
    pose proof (values_sign v (basis n j) w _ R S) as [G1 G2].
    destruct (up_other n C cart small_products v j U Hj NE) as (k & Hk & Nk & Ck).
    assert (K : value n C v (basis n j) * value n C (basis n j) w <= 3).
    { apply (values_product v (basis n j) w (basis n j) R S). exists k, j. split; [exact Hj|].
      rewrite !co_basis, Nat.eqb_refl, (proj2 (Nat.eqb_neq _ _) Nk) by exact Hj. lia. }
    rewrite value_basis_r in * by exact Hj. nia.
Qed.
End Form.
