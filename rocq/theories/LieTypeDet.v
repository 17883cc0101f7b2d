(** Determinants of Cartan matrices. *)

From Coq Require Import List Arith ZArith Bool Lia.
From Verif Require Import MatSpec MatLin MatDet LieTypeModel LieTypeSpec LieTypeProofs.
Import ListNotations.
Local Open Scope nat_scope.

(** development for a matrix whose first node is joined to the second one only *)
Lemma det_one f : det 1 f = f 0 0.
Proof. unfold det. rewrite (zsum_one 1 0) by lia. cbn [Nat.even]. ring. Qed.
Lemma det_chain n f : (forall j, 2 <= j -> j < n + 2 -> f 0 j = 0%Z) -> (forall i, 2 <= i -> i < n + 2 -> f i 0 = 0%Z) ->
  det (S (S n)) f = (f 0%nat 0%nat * det (S n) (fun i j => f (S i) (S j)) - f 0%nat 1%nat * f 1%nat 0%nat * det n (fun i j => f (S (S i)) (S (S j))))%Z.
Proof.
  intros H0 H1. change (det (S (S n)) f) with (zsum (2 + n) (fun j => ((if Nat.even j then 1 else -1) * f O j *
             det (S n) (fun i k => f (S i) (if Nat.ltb k j then k else S k)))%Z)).
  rewrite zsum_split. rewrite (zsum_zero n) by (intros i Hi; rewrite H0 by lia; lia).
  change (zsum 2 ?g) with (zsum (1 + 1) g). rewrite zsum_split.
  rewrite (zsum_one 1 0) by lia. rewrite (zsum_one 1 0) by lia.
  assert (E : det (S n) (fun i k => f (S i) (if k <? 1 then k else S k)) = (f 1%nat 0%nat * det n (fun i j => f (S (S i)) (S (S j))))%Z).
  { change (S n) with (1 + n). rewrite (@det_block 1 n (fun i k => f (S i) (if k <? 1 then k else S k))).
    2:{ intros i j Hi Hj. replace j with 0 by lia. cbn [Nat.ltb Nat.leb]. apply H1; lia. }
    rewrite det_one. reflexivity. }
  assert (E0 : det (S n) (fun i k => f (S i) (if k <? 0 then k else S k)) = det (S n) (fun i j => f (S i) (S j))).
  { apply det_ext. intros i j Hi Hj. reflexivity. }
  change (1 + 0) with 1. rewrite E, E0. cbn [Nat.even]. ring.
Qed.

(** a family with the same two first nodes *)
Lemma std_shift X n i j : X = tA /\ 1 <= n \/ (X = tB \/ X = tC) /\ 2 <= n \/ X = tD /\ 4 <= n ->
  i < n -> j < n -> std X (S n) (S i) (S j) = std X n i j.
Proof.
  intros H Hi Hj. unfold std.
  assert (L : line (S i) (S j) = line i j) by reflexivity.
  destruct H as [[-> H]|[[[->| ->] H]|[-> H]]]; rewrite L; cbn [Nat.eqb]; unfold is_pair, is_edge, is_pair; split_tests.
Qed.
Lemma std_first X n : X = tA /\ 2 <= n \/ (X = tB \/ X = tC) /\ 3 <= n \/ X = tD /\ 5 <= n ->
  std X n 0 0 = 2%Z /\ std X n 0 1 = (-1)%Z /\ std X n 1 0 = (-1)%Z /\
  (forall j, 2 <= j -> j < n -> std X n 0 j = 0%Z) /\ (forall j, 2 <= j -> j < n -> std X n j 0 = 0%Z).
Proof.
  intros H. unfold std, line.
  destruct H as [[-> H]|[[[->| ->] H]|[-> H]]];
    (split; [reflexivity|]; split; [|split; [|split; intros j J1 J2]]; unfold is_pair, is_edge, is_pair; split_tests).
Qed.
Lemma det_step X n : X = tA /\ 1 <= n \/ (X = tB \/ X = tC) /\ 2 <= n \/ X = tD /\ 4 <= n ->
  det (S (S n)) (std X (S (S n))) = (2 * det (S n) (std X (S n)) - det n (std X n))%Z.
Proof.
  intros H. assert (H1 : X = tA /\ 1 <= S n \/ (X = tB \/ X = tC) /\ 2 <= S n \/ X = tD /\ 4 <= S n).
  { destruct H as [[A B]|[[A B]|[A B]]]; [left|right; left|right; right]; (split; [exact A|lia]). }
  assert (H2 : X = tA /\ 2 <= S (S n) \/ (X = tB \/ X = tC) /\ 3 <= S (S n) \/ X = tD /\ 5 <= S (S n)).
  { destruct H as [[A B]|[[A B]|[A B]]]; [left|right; left|right; right]; (split; [exact A|lia]). }
  destruct (std_first X (S (S n)) H2) as (F0 & F1 & F2 & F3 & F4).
  rewrite det_chain by (intros k K1 K2; first [apply F3; lia|apply F4; lia]). rewrite F0, F1, F2.
  rewrite (@det_ext (S n) _ (std X (S n))) by (intros i j Hi Hj; apply (std_shift X (S n) i j H1 Hi Hj)).
  rewrite (@det_ext n _ (std X n)).
  2:{ intros i j Hi Hj. rewrite (std_shift X (S n) (S i) (S j) H1) by lia. apply (std_shift X n i j H Hi Hj). }
  lia.
Qed.
Lemma two_steps (P : nat -> Prop) b : P b -> P (S b) -> (forall n, b <= n -> P n -> P (S n) -> P (S (S n))) -> forall n, b <= n -> P n.
Proof.
  intros B0 B1 Step n L. assert (Q : P n /\ P (S n)).
  { induction n as [|n IH]; [replace 0 with b by lia; replace 1 with (S b) by lia; split; assumption|].
    destruct (Nat.eq_dec b (S n)) as [->|N]; [split; assumption|]. destruct IH as [A C]; [lia|]. split; [exact C|]. apply Step; [lia|exact A|exact C]. }
  apply Q.
Qed.
(** the determinant of a simple type *)
Definition det_of (s : simple) : Z :=
  match fst s with
  | tA => Z.of_nat (snd s) + 1
  | tB | tC => 2
  | tD => 4
  | tE => 9 - Z.of_nat (snd s)
  | _ => 1
  end%Z.
Lemma det_std X n : X <> tT -> valid_rank X n -> det n (std X n) = det_of (X, n).
Proof.
  intros NT V. unfold det_of. cbn [fst snd]. destruct X; cbn [valid_rank] in V; try congruence.
  - apply (two_steps (fun n => det n (std tA n) = Z.of_nat n + 1)%Z 1); [reflexivity|reflexivity| |exact V].
    intros m L A B. rewrite det_step by (left; split; [reflexivity|exact L]). lia.
  - apply (two_steps (fun n => det n (std tB n) = 2)%Z 2); [reflexivity|reflexivity| |exact V].
    intros m L A B. rewrite det_step by (right; left; split; [left; reflexivity|exact L]). lia.
  - apply (two_steps (fun n => det n (std tC n) = 2)%Z 2); [reflexivity|reflexivity| |exact V].
    intros m L A B. rewrite det_step by (right; left; split; [right; reflexivity|exact L]). lia.
  - apply (two_steps (fun n => det n (std tD n) = 4)%Z 4); [reflexivity|reflexivity| |exact V].
    intros m L A B. rewrite det_step by (right; right; split; [reflexivity|exact L]). lia.
  - assert (Q : n = 6 \/ n = 7 \/ n = 8) by lia. destruct Q as [->| [->| ->] ]; vm_compute; reflexivity.
  - subst n. vm_compute. reflexivity.
  - subst n. vm_compute. reflexivity.
  - subst n. vm_compute. reflexivity.
  - subst n. vm_compute. reflexivity.
Qed.
Lemma simple_det_ok X n : X <> tT -> valid_rank X n -> (Z.of_nat n < 4294967295)%Z -> simple_det (X, n) = det_of (X, n).
Proof.
  intros NT V B. unfold simple_det, det_of. cbn [fst snd]. destruct X; try reflexivity.
  - rewrite Z.mod_small by lia. reflexivity.
  - cbn [valid_rank] in V. rewrite sub32_le by lia. lia.
Qed.
Lemma simple_det_mod X n : valid_rank X n -> simple_det (X, n) = (det_of (X, n) mod 4294967296)%Z.
Proof.
  intros V. unfold simple_det, det_of. cbn [fst snd]. destruct X; reflexivity.
Qed.
Lemma block_det lt : valid_type lt -> semisimple lt ->
  det (total lt) (block_diagonal lt) = fold_right (fun s p => det_of s * p)%Z 1%Z lt.
Proof.
  induction lt as [|[X r] lt IH]; intros V SS; [reflexivity|]. inversion V as [|? ? V1 V2]. inversion SS as [|? ? S1 S2]. subst.
  cbn [total fold_right snd fst] in *. rewrite det_block.
  2:{ intros i j Hi Hj. cbn [block_diagonal fst snd]. rewrite (proj2 (Nat.ltb_ge (r + i) r)), (proj2 (Nat.ltb_lt j r)) by lia. reflexivity. }
  rewrite <- (IH V2 S2), <- (det_std X r S1 V1). f_equal; apply det_ext; intros i j Hi Hj; cbn [block_diagonal fst snd].
  - rewrite (proj2 (Nat.ltb_lt i r)), (proj2 (Nat.ltb_lt j r)) by lia. cbn [andb]. unfold simple_matrix. cbn [fst snd]. destruct X; try reflexivity. congruence.
  - rewrite (proj2 (Nat.ltb_ge (r + i) r)), (proj2 (Nat.ltb_ge (r + j) r)) by lia. cbn [andb orb]. f_equal; lia.
Qed.
Lemma lt_det_ok lt : valid_type lt ->
  lt_det lt = (det (total (derived lt)) (block_diagonal (derived lt)) mod 4294967296)%Z.
Proof.
  intros V. rewrite block_det by (apply derived_valid, V || apply derived_semisimple). unfold lt_det.
  assert (Q : forall a, (0 <= a < 4294967296)%Z -> fold_left (fun r s => (r * simple_det s) mod 4294967296)%Z lt a =
    ((a * fold_right (fun s p => det_of s * p)%Z 1%Z (derived lt)) mod 4294967296)%Z).
  { induction lt as [|[X r] lt IH]; intros a Ha.
    - cbn. rewrite Z.mul_1_r, Z.mod_small by exact Ha. reflexivity.
    - inversion V as [|? ? V1 V2]. subst. cbn [fold_left]. rewrite (IH V2) by (apply Z.mod_pos_bound; lia).
      rewrite simple_det_mod by exact V1. rewrite Z.mul_mod_idemp_l by lia.
      cbn [derived filter fst]. fold (derived lt). destruct X; cbn [negb leqb code Z.eqb fold_right Pos.eqb];
        try (rewrite <- Z.mul_mod_idemp_l by lia; rewrite Z.mul_mod_idemp_r by lia; rewrite Z.mul_mod_idemp_l by lia; f_equal; ring).
      unfold det_of at 1. cbn [fst]. rewrite (Z.mod_small 1) by lia. f_equal. ring. }
  rewrite Q by lia. rewrite Z.mul_1_l. reflexivity.
Qed.
(** the product is below 2^32 for a total rank of at most 31 *)
Lemma det_of_bound X r : X <> tT -> valid_rank X r -> (0 < det_of (X, r) <= 2 ^ Z.of_nat r)%Z.
Proof.
  intros NT V. unfold det_of. cbn [fst snd]. destruct X; cbn [valid_rank] in V; try congruence.
  - clear NT. induction r as [|r IH]; [lia|]. destruct (Nat.eq_dec r 0) as [->|N]; [cbn; lia|]. specialize (IH ltac:(lia)).
    rewrite Nat2Z.inj_succ, Z.pow_succ_r by lia. lia.
  - replace (Z.of_nat r) with (1 + Z.of_nat (r - 1))%Z by lia. rewrite Z.pow_add_r by lia. assert (0 < 2 ^ Z.of_nat (r - 1))%Z by (apply Z.pow_pos_nonneg; lia). lia.
  - replace (Z.of_nat r) with (1 + Z.of_nat (r - 1))%Z by lia. rewrite Z.pow_add_r by lia. assert (0 < 2 ^ Z.of_nat (r - 1))%Z by (apply Z.pow_pos_nonneg; lia). lia.
  - replace (Z.of_nat r) with (2 + Z.of_nat (r - 2))%Z by lia. rewrite Z.pow_add_r by lia. assert (0 < 2 ^ Z.of_nat (r - 2))%Z by (apply Z.pow_pos_nonneg; lia). lia.
  - assert (Q : r = 6 \/ r = 7 \/ r = 8) by lia. destruct Q as [->| [->| ->] ]; cbn; lia.
  - subst r. cbn. lia.
  - subst r. cbn. lia.
  - subst r. cbn. lia.
  - subst r. cbn. lia.
Qed.
Lemma det_bound lt : valid_type lt -> semisimple lt ->
  (0 < fold_right (fun s p => det_of s * p)%Z 1%Z lt <= 2 ^ Z.of_nat (total lt))%Z.
Proof.
  induction lt as [|[X r] lt IH]; intros V SS; [cbn; lia|]. inversion V as [|? ? V1 V2]. inversion SS as [|? ? S1 S2]. subst.
  cbn [fold_right total fst snd] in *. specialize (IH V2 S2). pose proof (det_of_bound X r S1 V1). rewrite Nat2Z.inj_add, Z.pow_add_r by lia.
  split; [nia|]. apply Z.mul_le_mono_nonneg; lia.
Qed.
Lemma lt_det_exact lt : valid_type lt -> total (derived lt) <= 31 ->
  lt_det lt = det (total (derived lt)) (block_diagonal (derived lt)).
Proof.
  intros V L. rewrite lt_det_ok by exact V. pose proof (derived_valid lt V) as V1. pose proof (derived_semisimple lt) as S1.
  apply Z.mod_small. rewrite block_det by assumption. pose proof (det_bound _ V1 S1) as B. destruct B as [B1 B2]. split; [lia|].
  eapply Z.le_lt_trans; [exact B2|]. eapply Z.le_lt_trans; [apply (Z.pow_le_mono_r 2 _ 31); lia|]. reflexivity.
Qed.
