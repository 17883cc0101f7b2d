(** Properties of the distinguished involutions: they are involutions and automorphisms; duality. *)

From Coq Require Import List Arith ZArith Bool Lia Permutation.
From Verif Require Import VecModel VecProofs RunModel RunProofs MatModel MatSpec MatProofs MatLin LieTypeModel LieTypeSpec LieTypeProofs LieTypeInv.
Import ListNotations.
Local Open Scope nat_scope.

Definition swap_last (r i : nat) : nat := if i =? r - 2 then r - 1 else if i =? r - 1 then r - 2 else i.
Lemma swap_last_inv r i : 2 <= r -> swap_last r (swap_last r i) = i.
Proof. intros H. unfold swap_last. destruct (Nat.eqb_spec i (r - 2)); [|destruct (Nat.eqb_spec i (r - 1))]; split_tests. Qed.
Lemma swap_last_at r : 2 <= r -> swap_last r (r - 2) = r - 1 /\ swap_last r (r - 1) = r - 2 /\ forall k, k < r - 2 -> swap_last r k = k.
Proof. intros H. unfold swap_last. split; [|split; [|intros k Hk]]; split_tests. Qed.
Lemma opposition_inv X r i : valid_rank X r -> i < r -> opposition X r (opposition X r i) = i.
Proof.
  intros V Hi. destruct X; cbn [opposition valid_rank] in *; try reflexivity; try lia.
  - destruct (Nat.odd r); [|reflexivity]. apply swap_last_inv. lia.
  - destruct (Nat.eqb_spec r 6) as [->|]; [|reflexivity]. do 6 (destruct i as [|i]; [reflexivity|]). lia.
Qed.
Lemma head_inv x X r i : valid_rank X r -> x <> ie -> (x = iu -> X = tD /\ Nat.even r = true) -> i < head_size x r ->
  head_map x X r (fst (head_map x X r i)) = (i, snd (head_map x X r i)).
Proof.
  intros V N U Hi. destruct x; cbn [head_size head_map fst snd] in *; try congruence.
  - f_equal. destruct (Nat.ltb_spec i r); [rewrite (proj2 (Nat.ltb_ge (r + i) r)) by lia; lia|rewrite (proj2 (Nat.ltb_lt (i - r) r)) by lia; lia].
  - f_equal. apply opposition_inv; assumption.
  - f_equal. destruct (U eq_refl) as [-> _]. cbn in V. apply swap_last_inv. lia.
Qed.
Lemma head_sign x X r i : snd (head_map x X r i) = 1%Z \/ snd (head_map x X r i) = (-1)%Z.
Proof. destruct x; cbn; try (left; reflexivity). destruct X; auto. Qed.
(** the map is an involution and keeps the sign *)
Lemma inner_inv ict : forall lt i, valid_inner ict lt -> valid_type lt -> i < total lt ->
  fst (inner_map ict lt i) < total lt /\ inner_map ict lt (fst (inner_map ict lt i)) = (i, snd (inner_map ict lt i)) /\
  (snd (inner_map ict lt i) = 1%Z \/ snd (inner_map ict lt i) = (-1)%Z).
Proof.
  induction ict as [|x ict IH]; intros lt i VI V Hi.
  - destruct lt; [cbn in Hi; lia|destruct VI].
  - destruct (valid_inner_cons x ict lt VI V) as (X & r & lt' & -> & N & VR & T & VI' & V' & U & C).
    rewrite T in *. rewrite !inner_map_cons by exact N.
    destruct (Nat.ltb_spec i (head_size x r)) as [L|L].
    + pose proof (head_bound x X r i VR N U L) as HB. rewrite (proj2 (Nat.ltb_lt _ _) HB). split; [lia|]. split; [|apply head_sign].
      apply head_inv; assumption.
    + specialize (IH _ (i - head_size x r) VI' V' ltac:(lia)). destruct IH as (A & B & S). cbn [fst snd].
      split; [lia|]. split; [|exact S]. rewrite (proj2 (Nat.ltb_ge _ _)) by lia.
      replace (head_size x r + fst (inner_map ict (head_rest x lt') (i - head_size x r)) - head_size x r) with (fst (inner_map ict (head_rest x lt') (i - head_size x r))) by lia.
      rewrite B. cbn [fst snd]. f_equal. lia.
Qed.

(** ** Automorphisms *)
Lemma std_swap_last r i j : 4 <= r -> i < r -> j < r -> std tD r (swap_last r i) (swap_last r j) = std tD r i j.
Proof.
  intros V Hi Hj. destruct (swap_last_at r ltac:(lia)) as (S1 & S2 & S3).
  assert (Q : forall k, k < r -> k = r - 2 \/ k = r - 1 \/ k < r - 2) by (intros; lia).
  destruct (Q i Hi) as [->| [->|Li] ], (Q j Hj) as [->| [->|Lj] ]; rewrite ?S1, ?S2, ?S3 by assumption; unfold std, is_edge, is_pair, line; split_tests.
Qed.
Lemma std_opposition X r i j : X <> tT -> valid_rank X r -> i < r -> j < r -> std X r (opposition X r i) (opposition X r j) = std X r i j.
Proof.
  intros NT V Hi Hj. destruct X; cbn [opposition valid_rank] in *; try reflexivity.
  - unfold std, line. split_tests.
  - destruct (Nat.odd r); [|reflexivity]. apply std_swap_last; assumption.
  - destruct (Nat.eqb_spec r 6) as [->|]; [|reflexivity].
    do 6 (destruct i as [|i]; [do 6 (destruct j as [|j]; [reflexivity|]); lia|]). lia.
Qed.
Lemma head_auto x X r i j : valid_rank X r -> x <> ie -> x <> iC -> (x = iu -> X = tD /\ Nat.even r = true) -> i < r -> j < r ->
  simple_matrix (X, r) (fst (head_map x X r i)) (fst (head_map x X r j)) = simple_matrix (X, r) i j.
Proof.
  intros V N NC U Hi Hj. destruct x; cbn [head_map fst] in *; try congruence.
  - assert (Q : X = tT \/ X <> tT) by (destruct X; auto; right; discriminate). destruct Q as [->|NT]; [reflexivity|].
    pose proof (std_opposition X r i j NT V Hi Hj) as E. unfold simple_matrix. cbn [fst snd]. destruct X; try exact E. reflexivity.
  - destruct (U eq_refl) as [-> _]. cbn in V. unfold simple_matrix. cbn [fst snd]. apply (std_swap_last r i j); assumption.
Qed.
Lemma inner_auto ict : forall lt i j, valid_inner ict lt -> valid_type lt -> i < total lt -> j < total lt ->
  block_diagonal lt (fst (inner_map ict lt i)) (fst (inner_map ict lt j)) = block_diagonal lt i j.
Proof.
  induction ict as [|x ict IH]; intros lt i j VI V Hi Hj.
  - destruct lt; [cbn in Hi; lia|destruct VI].
  - destruct (valid_inner_cons x ict lt VI V) as (X & r & lt' & -> & N & VR & T & VI' & V' & U & C).
    rewrite T in *. rewrite !inner_map_cons by exact N.
    pose proof (head_bound x X r i VR N U) as Bi. pose proof (head_bound x X r j VR N U) as Bj.
    assert (D : x = iC \/ x <> iC) by (destruct x; auto; right; discriminate). destruct D as [->|NC].
    + destruct (C eq_refl) as (lt'' & ->). cbn [head_size head_rest tl head_map fst] in *.
      specialize (IH lt'' (i - (r + r)) (j - (r + r)) VI' V').
      destruct (Nat.ltb_spec i (r + r)) as [Li|Li], (Nat.ltb_spec j (r + r)) as [Lj|Lj]; cbn [fst snd]; cbn [block_diagonal fst snd].
      * destruct (Nat.ltb_spec i r), (Nat.ltb_spec j r); cbn [andb orb].
        -- rewrite !(proj2 (Nat.ltb_ge (r + _) r)) by lia. cbn [andb orb]. replace (r + i - r) with i by lia. replace (r + j - r) with j by lia.
           rewrite (proj2 (Nat.ltb_lt i r)), (proj2 (Nat.ltb_lt j r)) by lia. reflexivity.
        -- rewrite (proj2 (Nat.ltb_ge (r + i) r)), (proj2 (Nat.ltb_lt (j - r) r)) by lia. reflexivity.
        -- rewrite (proj2 (Nat.ltb_ge (r + j) r)), (proj2 (Nat.ltb_lt (i - r) r)) by lia. reflexivity.
        -- rewrite (proj2 (Nat.ltb_lt (i - r) r)), (proj2 (Nat.ltb_lt (j - r) r)) by lia. reflexivity.
      * set (b := fst (inner_map ict lt'' (j - (r + r)))) in *. rewrite (proj2 (Nat.ltb_ge (r + r + b) r)), (proj2 (Nat.ltb_ge j r)) by lia.
        rewrite (proj2 (Nat.ltb_ge (r + r + b - r) r)), (proj2 (Nat.ltb_ge (j - r) r)) by lia. rewrite !andb_false_r, !orb_false_r.
        destruct (Nat.ltb_spec i r); [rewrite (proj2 (Nat.ltb_ge (r + i) r)) by lia; replace (r + i - r) with i by lia; rewrite (proj2 (Nat.ltb_lt i r)) by lia; reflexivity|].
        rewrite (proj2 (Nat.ltb_lt (i - r) r)) by lia. reflexivity.
      * set (b := fst (inner_map ict lt'' (i - (r + r)))) in *. rewrite (proj2 (Nat.ltb_ge (r + r + b) r)), (proj2 (Nat.ltb_ge i r)) by lia.
        rewrite (proj2 (Nat.ltb_ge (r + r + b - r) r)), (proj2 (Nat.ltb_ge (i - r) r)) by lia. cbn [andb orb].
        destruct (Nat.ltb_spec j r); [rewrite (proj2 (Nat.ltb_ge (r + j) r)) by lia; replace (r + j - r) with j by lia; rewrite (proj2 (Nat.ltb_lt j r)) by lia; reflexivity|].
        rewrite (proj2 (Nat.ltb_lt (j - r) r)) by lia. reflexivity.
      * rewrite !(proj2 (Nat.ltb_ge (r + r + _) r)) by lia. rewrite !(proj2 (Nat.ltb_ge (r + r + _ - r) r)) by lia.
        rewrite (proj2 (Nat.ltb_ge i r)), (proj2 (Nat.ltb_ge j r)), (proj2 (Nat.ltb_ge (i - r) r)), (proj2 (Nat.ltb_ge (j - r) r)) by lia. cbn [andb orb].
        replace (i - r - r) with (i - (r + r)) by lia. replace (j - r - r) with (j - (r + r)) by lia. rewrite <- IH by lia. f_equal; lia.
    + assert (HS : head_size x r = r) by (destruct x; try reflexivity; congruence). assert (HR : head_rest x lt' = lt') by (destruct x; try reflexivity; congruence).
      rewrite HS, HR in *. specialize (IH lt' (i - r) (j - r) VI' V').
      destruct (Nat.ltb_spec i r) as [Li|Li], (Nat.ltb_spec j r) as [Lj|Lj]; cbn [block_diagonal fst snd].
      * rewrite (proj2 (Nat.ltb_lt _ _) (Bi Li)), (proj2 (Nat.ltb_lt _ _) (Bj Lj)), (proj2 (Nat.ltb_lt i r)), (proj2 (Nat.ltb_lt j r)) by lia. cbn [andb]. apply head_auto; assumption.
      * rewrite (proj2 (Nat.ltb_lt _ _) (Bi Li)). rewrite (proj2 (Nat.ltb_ge (r + _) r)), (proj2 (Nat.ltb_lt i r)), (proj2 (Nat.ltb_ge j r)) by lia. reflexivity.
      * rewrite (proj2 (Nat.ltb_lt _ _) (Bj Lj)). rewrite (proj2 (Nat.ltb_ge (r + _) r)), (proj2 (Nat.ltb_lt j r)), (proj2 (Nat.ltb_ge i r)) by lia. reflexivity.
      * rewrite !(proj2 (Nat.ltb_ge (r + _) r)) by lia. rewrite (proj2 (Nat.ltb_ge i r)), (proj2 (Nat.ltb_ge j r)) by lia. cbn [andb orb]. rewrite <- IH by lia. f_equal; lia.
Qed.
(** torus coordinates are the only ones with a sign *)
Lemma inner_sign ict : forall lt i, valid_inner ict lt -> valid_type lt -> i < total lt -> snd (inner_map ict lt i) = (-1)%Z -> block_diagonal lt i i = 0%Z.
Proof.
  induction ict as [|x ict IH]; intros lt i VI V Hi.
  - destruct lt; [cbn in Hi; lia|destruct VI].
  - destruct (valid_inner_cons x ict lt VI V) as (X & r & lt' & -> & N & VR & T & VI' & V' & U & C).
    rewrite T in *. rewrite !inner_map_cons by exact N. destruct (Nat.ltb_spec i (head_size x r)) as [L|L].
    + destruct x; cbn [head_map snd]; try discriminate. intros E. cbn [head_size] in L. cbn [block_diagonal fst snd]. rewrite (proj2 (Nat.ltb_lt i r)) by exact L. cbn [andb].
      destruct X; try discriminate. reflexivity.
    + cbn [snd]. intros E. specialize (IH _ (i - head_size x r) VI' V' ltac:(lia) E).
      assert (D : x = iC \/ x <> iC) by (destruct x; auto; right; discriminate). destruct D as [->|NC].
      * destruct (C eq_refl) as (lt'' & ->). cbn [head_size head_rest tl] in *. cbn [block_diagonal fst snd].
        rewrite (proj2 (Nat.ltb_ge i r)), (proj2 (Nat.ltb_ge (i - r) r)) by lia. cbn [andb orb]. replace (i - r - r) with (i - (r + r)) by lia. exact IH.
      * assert (HS : head_size x r = r) by (destruct x; try reflexivity; congruence). assert (HR : head_rest x lt' = lt') by (destruct x; try reflexivity; congruence).
        rewrite HS, HR in *. cbn [block_diagonal fst snd]. rewrite (proj2 (Nat.ltb_ge i r)) by lia. exact IH.
Qed.

(** rows and columns of torus coordinates are zero *)
Lemma torus_row lt a : valid_type lt -> a < total lt -> block_diagonal lt a a = 0%Z -> forall b, block_diagonal lt a b = 0%Z /\ block_diagonal lt b a = 0%Z.
Proof.
  revert a. induction lt as [|[X r] lt IH]; intros a V Ha H b; [split; reflexivity|]. inversion V as [|? ? V1 V2]. subst.
  cbn [block_diagonal total fst snd] in *. destruct (Nat.ltb_spec a r) as [L|L]; cbn [andb orb] in *.
  - assert (X = tT). { unfold simple_matrix, std in H. cbn [fst snd] in H. rewrite Nat.eqb_refl in H. destruct X; try discriminate. reflexivity. } subst X.
    destruct (b <? r); cbn [andb orb]; split; reflexivity.
  - destruct (Nat.ltb_spec b r) as [Lb|Lb]; cbn [andb orb]; [split; reflexivity|]. apply IH; [exact V2|lia|exact H].
Qed.

(** ** The matrix *)
(** a matrix that permutes the coordinates up to sign, in the numbering [pi] *)
Lemma perm_at n pi u : permutes n pi -> u < n -> exists a, a < n /\ nth a pi 0 = u.
Proof.
  intros P Hu. assert (I1 : In u pi) by (apply (Permutation_in _ (Permutation_sym P)), in_seq; lia).
  apply (In_nth _ _ 0) in I1. destruct I1 as (a & A & E). exists a. split; [|exact E]. rewrite (Permutation_length P), seq_length in A. exact A.
Qed.
Section Signed.
Variables (n : nat) (pi : list nat) (g : nat -> nat -> Z) (m : nat -> nat * Z).
Hypothesis P : permutes n pi.
Hypothesis G : forall a b, a < n -> b < n -> g (nth a pi 0) (nth b pi 0) = if a =? fst (m b) then snd (m b) else 0%Z.
Hypothesis MI : forall b, b < n -> fst (m b) < n /\ m (fst (m b)) = (b, snd (m b)) /\ (snd (m b) = 1%Z \/ snd (m b) = (-1)%Z).
(** multiplication picks out one coordinate *)
Lemma col_sum (h : nat -> Z) b : b < n -> zsum n (fun k => h k * g k (nth b pi 0%nat))%Z = (h (nth (fst (m b)) pi 0%nat) * snd (m b))%Z.
Proof.
  intros Hb. destruct (MI b Hb) as (B & _ & _). rewrite (zsum_one n (nth (fst (m b)) pi 0)).
  - rewrite G by assumption. rewrite Nat.eqb_refl. reflexivity.
  - apply (pi_bound n pi P), B.
  - intros k Hk Nk. destruct (perm_at n pi k P Hk) as (a & Ha & <-). rewrite G by assumption.
    destruct (Nat.eqb_spec a (fst (m b))) as [->|]; [congruence|]. apply Z.mul_0_r.
Qed.
Lemma signed_square : feq n n (fmul n g g) delta.
Proof.
  intros u v Hu Hv. destruct (perm_at n pi u P Hu) as (a & Ha & <-). destruct (perm_at n pi v P Hv) as (b & Hb & <-).
  unfold fmul. rewrite (col_sum (fun k => g (nth a pi 0) k) b Hb). destruct (MI b Hb) as (B & E & S). rewrite G by assumption. rewrite E. cbn [fst snd].
  unfold delta. destruct (Nat.eqb_spec a b) as [->|Nab].
  - rewrite Nat.eqb_refl. destruct S as [->| ->]; reflexivity.
  - destruct (Nat.eqb_spec (nth a pi 0) (nth b pi 0)) as [F|F]; [|reflexivity]. apply (pi_inj n pi P) in F; [contradiction|exact Ha|exact Hb].
Qed.
Lemma signed_auto f (A : nat -> nat -> Z) : (forall a b, a < n -> b < n -> f (nth a pi 0) (nth b pi 0) = A a b) ->
  (forall a b, a < n -> b < n -> A (fst (m a)) (fst (m b)) = A a b) ->
  (forall a b, a < n -> b < n -> snd (m a) = (-1)%Z \/ snd (m b) = (-1)%Z -> A a b = 0%Z) ->
  feq n n (fmul n (fun i j => g j i) (fmul n f g)) f.
Proof.
  intros F1 F2 F3 u v Hu Hv. destruct (perm_at n pi u P Hu) as (a & Ha & <-). destruct (perm_at n pi v P Hv) as (b & Hb & <-).
  unfold fmul. transitivity (zsum n (fun k => (f k (nth (fst (m b)) pi 0%nat) * snd (m b)) * g k (nth a pi 0%nat))%Z).
  - apply zsum_ext. intros k Hk. rewrite (col_sum (fun l => f k l) b Hb). ring.
  - rewrite (col_sum (fun k => f k (nth (fst (m b)) pi 0%nat) * snd (m b))%Z a Ha).
    destruct (MI a Ha) as (B1 & _ & S1). destruct (MI b Hb) as (B2 & _ & S2). rewrite !F1 by assumption. rewrite F2 by assumption.
    destruct S1 as [E1|E1]; [destruct S2 as [E2|E2]|].
    + rewrite E1, E2. ring.
    + rewrite F3 by (auto). ring.
    + rewrite F3 by (auto). ring.
Qed.
End Signed.
