(** Matrices of finite type: they have a positive definite form, and their roots have heights below four times the rank. *)

From Coq Require Import List Arith ZArith Bool Lia Permutation.
From Verif Require Import MatSpec MatRing MatLin LieTypeModel LieTypeSpec LieTypeProofs LieTypeDual RootSpec RootMath RootForm.
Import ListNotations.
Local Open Scope Z_scope.
Notation flip := RootSpec.flip.

Lemma zsum_le n f g : (forall k, (k < n)%nat -> f k <= g k) -> zsum n f <= zsum n g.
Proof.
  intros H. pose proof (zsum_nonneg n (fun k => g k - f k) ltac:(intros k Hk; specialize (H k Hk); lia)) as P.
  assert (E : zsum n (fun k => g k - f k) = zsum n g - zsum n f); [|lia].
  replace (zsum n g - zsum n f) with (zsum n g + -1 * zsum n f) by lia. rewrite <- zsum_mul_l, <- zsum_add. apply zsum_ext. intros. lia.
Qed.
Lemma zsum_abs n f : Z.abs (zsum n f) <= zsum n (fun k => Z.abs (f k)).
Proof. induction n as [|n IH]; [reflexivity|]. unfold zsum in *. cbn. lia. Qed.
Lemma zsum_const n c : zsum n (fun _ => c) = Z.of_nat n * c.
Proof. induction n as [|n IH]; [reflexivity|]. unfold zsum in *. cbn [fsum]. rewrite IH. lia. Qed.
Lemma zsum_pick m a g : zsum m (fun k => (if Nat.eqb k a then 1 else 0) * g k) = if Nat.ltb a m then g a else 0.
Proof.
  destruct (Nat.ltb_spec a m) as [H|H].
  - rewrite (zsum_one m a); [rewrite Nat.eqb_refl; lia|exact H|]. intros k _ N. rewrite (proj2 (Nat.eqb_neq _ _) N). lia.
  - apply zsum_zero. intros k Hk. rewrite (proj2 (Nat.eqb_neq k a)) by lia. lia.
Qed.

(** what is needed of a matrix *)
Definition formed (n : nat) (C : nat -> nat -> Z) (d : nat -> Z) : Prop :=
  (forall i, (i < n)%nat -> 0 < d i) /\ (forall i j, (i < n)%nat -> (j < n)%nat -> d i * C j i = d j * C i j) /\
  (forall x, (exists i, (i < n)%nat /\ x i <> 0) -> 0 < qform n (fun i j => d i * C j i) x).
Definition good (n : nat) (C : nat -> nat -> Z) : Prop :=
  Cartan_like n C /\ (exists d, formed n C d) /\ forall v, is_root n C v -> height v < 4 * Z.of_nat n - 1.

(** ** Coordinates in which the form is a sum of squares *)
Section Cert.
Variables (n : nat) (C : nat -> nat -> Z) (d : nat -> Z) (M : nat) (K : Z) (c : nat -> Z) (E F : nat -> nat -> Z) (mm : nat -> Z).
Hypothesis Kpos : 0 < K.
Hypothesis cpos : forall k, (k < M)%nat -> 0 < c k.
Hypothesis c1 : forall i j, (i < n)%nat -> (j < n)%nat -> zsum M (fun k => c k * E i k * E j k) = K * (d i * C j i).
Hypothesis c2 : forall i k, (i < n)%nat -> (k < n)%nat -> zsum M (fun j => E i j * F k j) = if Nat.eqb i k then mm k else 0.
Hypothesis mpos : forall k, (k < n)%nat -> 0 < mm k.
Definition coord (x : nat -> Z) (k : nat) : Z := zsum n (fun i => x i * E i k).
Lemma coord_form x : zsum M (fun k => c k * (coord x k * coord x k)) = K * qform n (fun i j => d i * C j i) x.
Proof.
  unfold qform. rewrite <- zsum_mul_l.
  rewrite (zsum_ext M _ (fun k => zsum n (fun i => zsum n (fun j => x i * x j * (c k * E i k * E j k))))).
  2: { intros k _. unfold coord. rewrite <- zsum_mul_r, <- zsum_mul_l. apply zsum_ext. intros i _.
       rewrite Z.mul_assoc, <- zsum_mul_l. apply zsum_ext. intros j _. ring. }
  rewrite zsum_swap. apply zsum_ext. intros i Hi. rewrite zsum_swap, <- zsum_mul_l. apply zsum_ext. intros j Hj.
  rewrite zsum_mul_l, c1 by assumption. ring.
Qed.
Lemma coord_back x k : (k < n)%nat -> zsum M (fun j => coord x j * F k j) = mm k * x k.
Proof.
  intros Hk. rewrite (zsum_ext M _ (fun j => zsum n (fun i => x i * (E i j * F k j)))).
  2: { intros j _. unfold coord. rewrite <- zsum_mul_r. apply zsum_ext. intros i _. ring. }
  rewrite zsum_swap, (zsum_one n k); [rewrite zsum_mul_l, c2, Nat.eqb_refl by assumption; ring|exact Hk|].
  intros i Hi N. rewrite zsum_mul_l, c2, (proj2 (Nat.eqb_neq _ _) N) by assumption. ring.
Qed.
Lemma cert_pos x : (exists i, (i < n)%nat /\ x i <> 0) -> 0 < qform n (fun i j => d i * C j i) x.
Proof.
  intros (i & Hi & N). pose proof (coord_form x) as Q.
  assert (P : forall k, (k < M)%nat -> 0 <= c k * (coord x k * coord x k)) by (intros k Hk; specialize (cpos k Hk); nia).
  destruct (existsb (fun k => negb (coord x k =? 0)) (seq 0 M)) eqn:X.
  - apply existsb_exists in X. destruct X as (k & I & T). apply in_seq in I. apply negb_true_iff, Z.eqb_neq in T.
    pose proof (zsum_ge M _ k ltac:(lia) P) as G. cbn beta in G. pose proof (cpos k ltac:(lia)). assert (0 < coord x k * coord x k) by nia. nia.
  - exfalso. pose proof (coord_back x i Hi) as B. rewrite zsum_zero in B; [specialize (mpos i Hi); nia|].
    intros j Hj. destruct (Z.eqb_spec (coord x j) 0) as [->|Nj]; [ring|]. exfalso.
    assert (Y : existsb (fun k => negb (coord x k =? 0)) (seq 0 M) = true); [|congruence].
    apply existsb_exists. exists j. split; [apply in_seq; lia|]. rewrite (proj2 (Z.eqb_neq _ _) Nj). reflexivity.
Qed.
(** when all entries of [F] are small *)
Lemma cert_bound x k c0 : (k < n)%nat -> 0 < c0 -> (forall j, (j < M)%nat -> c j = c0) -> (forall j, (j < M)%nat -> Z.abs (F k j) <= 1) ->
  c0 * (mm k * x k) <= K * qform n (fun i j => d i * C j i) x.
Proof.
  intros Hk H0 Hc HF. rewrite <- coord_form, <- (coord_back x k Hk).
  rewrite (zsum_ext M (fun j => c j * _) (fun j => c0 * (coord x j * coord x j))) by (intros j Hj; rewrite Hc by exact Hj; reflexivity).
  rewrite zsum_mul_l. apply Z.mul_le_mono_nonneg_l; [lia|]. apply zsum_le. intros j Hj. specialize (HF j Hj).
  set (a := coord x j) in *. set (b := F k j) in *. assert (b = -1 \/ b = 0 \/ b = 1) as [->|[->| ->]] by lia; nia.
Qed.
End Cert.

(** ** The simple types *)
Definition weight (X : letter) (n i : nat) : Z :=
  match X with
  | tB => if Nat.eqb (S i) n then 1 else 2
  | tC => if Nat.eqb (S i) n then 2 else 1
  | tF => if Nat.ltb i 2 then 2 else 1
  | tf => if Nat.ltb i 2 then 1 else 2
  | tG => if Nat.eqb i 0 then 1 else 3
  | tg => if Nat.eqb i 0 then 3 else 1
  | _ => 1
  end.
Definition tab (l : list (list Z)) (i k : nat) : Z := nth k (nth i l []) 0.
Definition delta1 (a k : nat) : Z := if Nat.eqb k a then 1 else 0.
Definition le1 (k a : nat) : Z := if Nat.leb k a then 1 else 0.
Definition E8tab : list (list Z) :=
  [[1; -1; -1; -1; -1; -1; -1; 1]; [2; 2; 0; 0; 0; 0; 0; 0]; [-2; 2; 0; 0; 0; 0; 0; 0]; [0; -2; 2; 0; 0; 0; 0; 0];
   [0; 0; -2; 2; 0; 0; 0; 0]; [0; 0; 0; -2; 2; 0; 0; 0]; [0; 0; 0; 0; -2; 2; 0; 0]; [0; 0; 0; 0; 0; -2; 2; 0]].
Definition F4tab : list (list Z) := [[0; 2; -2; 0]; [0; 0; 2; -2]; [0; 0; 0; 2]; [1; -1; -1; -1]].
Definition G2tab : list (list Z) := [[1; -1; 0]; [-2; 1; 1]].
Definition E6dual : list (list Z) :=
  [[0; 0; 0; 0; 0; -1; -1; 1]; [1; 1; 1; 1; 1; -1; -1; 1]; [-3; 3; 3; 3; 3; -5; -5; 5]; [0; 0; 1; 1; 1; -1; -1; 1];
   [0; 0; 0; 3; 3; -2; -2; 2]; [0; 0; 0; 0; 3; -1; -1; 1]].
Definition E7dual : list (list Z) :=
  [[0; 0; 0; 0; 0; 0; -1; 1]; [1; 1; 1; 1; 1; 1; -2; 2]; [-1; 1; 1; 1; 1; 1; -3; 3]; [0; 0; 1; 1; 1; 1; -2; 2];
   [0; 0; 0; 2; 2; 2; -3; 3]; [0; 0; 0; 0; 1; 1; -1; 1]; [0; 0; 0; 0; 0; 2; -1; 1]].
Definition E8dual : list (list Z) :=
  [[0; 0; 0; 0; 0; 0; 0; 1]; [1; 1; 1; 1; 1; 1; 1; 5]; [-1; 1; 1; 1; 1; 1; 1; 7]; [0; 0; 1; 1; 1; 1; 1; 5];
   [0; 0; 0; 1; 1; 1; 1; 4]; [0; 0; 0; 0; 1; 1; 1; 3]; [0; 0; 0; 0; 0; 1; 1; 2]; [0; 0; 0; 0; 0; 0; 1; 1]].
Definition F4dual : list (list Z) := [[1; 1; 0; 0]; [2; 1; 1; 0]; [3; 1; 1; 1]; [1; 0; 0; 0]].
Definition G2dual : list (list Z) := [[0; -1; 1]; [-1; -1; 2]].

(** a finite check of the certificate *)
Definition all_lt (n : nat) (p : nat -> bool) : bool := forallb p (seq 0 n).
Lemma all_lt_ok n p : all_lt n p = true -> forall i, (i < n)%nat -> p i = true.
Proof. intros H i Hi. unfold all_lt in H. rewrite forallb_forall in H. apply H. apply in_seq. lia. Qed.
Definition check_cert (n : nat) (C : nat -> nat -> Z) (d : nat -> Z) (M : nat) (K : Z) (E F : nat -> nat -> Z) (mm : list Z) : bool :=
  all_lt n (fun i => all_lt n (fun j => zsum M (fun k => 1 * E i k * E j k) =? K * (d i * C j i))) &&
  all_lt n (fun i => all_lt n (fun k => zsum M (fun j => E i j * F k j) =? if Nat.eqb i k then co mm k else 0)) &&
  all_lt n (fun k => 0 <? co mm k).
Definition check_sym (n : nat) (C : nat -> nat -> Z) (d : nat -> Z) : bool :=
  all_lt n (fun i => (0 <? d i) && all_lt n (fun j => d i * C j i =? d j * C i j)).
Lemma check_formed n C d M K E F mm : 0 < K -> check_cert n C d M K E F mm = true -> check_sym n C d = true -> formed n C d.
Proof.
  intros HK H S. unfold check_cert in H. apply andb_prop in H. destruct H as [H H3]. apply andb_prop in H. destruct H as [H1 H2].
  unfold check_sym in S. split; [|split].
  - intros i Hi. apply Z.ltb_lt. pose proof (all_lt_ok _ _ S i Hi) as T. apply andb_prop in T. apply T.
  - intros i j Hi Hj. apply Z.eqb_eq. pose proof (all_lt_ok _ _ S i Hi) as T. apply andb_prop in T. apply (all_lt_ok _ _ (proj2 T) j Hj).
  - apply (cert_pos n C d M K (fun _ => 1) E F (co mm) HK).
    + intros; lia.
    + intros i j Hi Hj. apply Z.eqb_eq. apply (all_lt_ok _ _ (all_lt_ok _ _ H1 i Hi) j Hj).
    + intros i j Hi Hj. apply Z.eqb_eq. apply (all_lt_ok _ _ (all_lt_ok _ _ H2 i Hi) j Hj).
    + intros k Hk. apply Z.ltb_lt. apply (all_lt_ok _ _ H3 k Hk).
Qed.
Definition check_cartan (n : nat) (C : nat -> nat -> Z) : bool :=
  all_lt n (fun i => (C i i =? 2) && all_lt n (fun j => (Nat.eqb i j || (C i j <=? 0)) && (negb (C i j =? 0) || (C j i =? 0)))).
Lemma check_cartan_ok n C : check_cartan n C = true -> Cartan_like n C.
Proof.
  intros H. split; [|split].
  - intros i Hi. pose proof (all_lt_ok _ _ H i Hi) as T. apply andb_prop in T. apply Z.eqb_eq, T.
  - intros i j Hi Hj N. pose proof (all_lt_ok _ _ H i Hi) as T. apply andb_prop in T. pose proof (all_lt_ok _ _ (proj2 T) j Hj) as U.
    apply andb_prop in U. destruct U as [U _]. rewrite (proj2 (Nat.eqb_neq _ _) N) in U. apply Z.leb_le. exact U.
  - intros i j Hi Hj Z0. pose proof (all_lt_ok _ _ H i Hi) as T. apply andb_prop in T. pose proof (all_lt_ok _ _ (proj2 T) j Hj) as U.
    apply andb_prop in U. destruct U as [_ U]. rewrite Z0 in U. apply Z.eqb_eq. exact U.
Qed.

(** ** All roots of a small system *)
Definition veq (v w : list Z) : bool := if list_eq_dec Z.eq_dec v w then true else false.
Definition elem (v : list Z) (l : list (list Z)) : bool := existsb (veq v) l.
Lemma elem_ok v l : elem v l = true <-> In v l.
Proof.
  unfold elem. rewrite existsb_exists. split; [intros (w & I & E)|intros I; exists v]; unfold veq in *.
  - destruct (list_eq_dec Z.eq_dec v w) as [->|]; [exact I|discriminate].
  - split; [exact I|]. destruct (list_eq_dec Z.eq_dec v v); congruence.
Qed.
Fixpoint closure (fuel n : nat) (C : nat -> nat -> Z) (new all : list (list Z)) : list (list Z) :=
  match fuel with
  | O => all
  | S k =>
    let next := fold_left (fun acc v => fold_left (fun acc2 i =>
      if pairing n C v i <? 0 then let w := sreflect n C i v in if elem w acc2 then acc2 else w :: acc2 else acc2) (seq 0 n) acc) new [] in
    closure k n C next (next ++ all)
  end.
Definition check_closed (n : nat) (C : nat -> nat -> Z) (l : list (list Z)) : bool :=
  all_lt n (fun i => elem (basis n i) l) &&
  forallb (fun v => (height v <? 4 * Z.of_nat n - 1) && all_lt n (fun i => negb (pairing n C v i <? 0) || elem (sreflect n C i v) l)) l.
Lemma check_closed_ok n C l : check_closed n C l = true -> forall v, up n C v -> height v < 4 * Z.of_nat n - 1.
Proof.
  intros H. apply andb_prop in H. destruct H as [H1 H2]. rewrite forallb_forall in H2.
  assert (K : forall v, up n C v -> In v l).
  { induction 1 as [i Hi|i v Hi U IH P]; [apply elem_ok; apply (all_lt_ok _ _ H1 i Hi)|].
    specialize (H2 v IH). apply andb_prop in H2. pose proof (all_lt_ok _ _ (proj2 H2) i Hi) as T. cbn beta in T. rewrite (proj2 (Z.ltb_lt _ _) P) in T.
    apply elem_ok. exact T. }
  intros v U. specialize (H2 v (K v U)). apply andb_prop in H2. apply Z.ltb_lt, H2.
Qed.
Lemma height_opp v : height (opp v) = - height v.
Proof. unfold height, opp. induction v as [|x v IH]; [reflexivity|]. cbn [map fold_right]. lia. Qed.
Lemma up_heights n C d b : Cartan_like n C -> formed n C d -> 0 < b -> (forall v, up n C v -> height v < b) -> forall v, is_root n C v -> height v < b.
Proof.
  intros Ca (D1 & D2 & D3) Hb H v R. pose proof (small_products n C d Ca D1 D2 D3) as Sm.
  destruct (root_up n C Ca Sm v R) as [U|U]; [apply H; exact U|]. pose proof (up_height n C _ U) as G. rewrite height_opp in G. lia.
Qed.
Lemma good_check n C d M K E F mm l : (1 <= n)%nat -> 0 < K -> check_cartan n C = true -> check_cert n C d M K E F mm = true -> check_sym n C d = true ->
  check_closed n C l = true -> good n C.
Proof.
  intros H0 HK H1 H2 H3 H4. pose proof (check_cartan_ok _ _ H1) as Ca. pose proof (check_formed _ _ _ _ _ _ _ _ HK H2 H3) as Fo.
  split; [exact Ca|]. split; [exists d; exact Fo|]. apply (up_heights n C d); [exact Ca|exact Fo|lia|]. apply (check_closed_ok n C l H4).
Qed.
Definition start (n : nat) : list (list Z) := map (basis n) (seq 0 n).
Definition all_checks (n : nat) (C : nat -> nat -> Z) (d : nat -> Z) (M : nat) (K : Z) (E F : nat -> nat -> Z) (mm : list Z) : bool :=
  Nat.leb 1 n && (0 <? K) && check_cartan n C && check_cert n C d M K E F mm && check_sym n C d && check_closed n C (closure 32 n C (start n) (start n)).
Lemma good_checks n C d M K E F mm : all_checks n C d M K E F mm = true -> good n C.
Proof.
  intros H. unfold all_checks in H. apply andb_prop in H. destruct H as [H H6]. apply andb_prop in H. destruct H as [H H5].
  apply andb_prop in H. destruct H as [H H4]. apply andb_prop in H. destruct H as [H H3]. apply andb_prop in H. destruct H as [H1 H2].
  apply (good_check n C d M K E F mm (closure 32 n C (start n) (start n))); try assumption; [apply Nat.leb_le; exact H1|apply Z.ltb_lt; exact H2].
Qed.
Ltac by_check d M K E F mm := apply (good_checks _ _ d M K E F mm); vm_compute; reflexivity.
Lemma good_E n : (6 <= n <= 8)%nat -> good n (std tE n).
Proof.
  intros H. assert (n = 6 \/ n = 7 \/ n = 8)%nat as [->|[->| ->]] by lia.
  - by_check (weight tE 6) 8%nat 4 (tab E8tab) (tab E6dual) [3; 4; 12; 2; 6; 6].
  - by_check (weight tE 7) 8%nat 4 (tab E8tab) (tab E7dual) [2; 4; 4; 2; 4; 2; 4].
  - by_check (weight tE 8) 8%nat 4 (tab E8tab) (tab E8dual) [1; 4; 4; 2; 2; 2; 2; 2].
Qed.
Lemma good_F : good 4 (std tF 4).
Proof. by_check (weight tF 4) 4%nat 2 (tab F4tab) (tab F4dual) [2; 2; 2; 1]. Qed.
Lemma good_f : good 4 (std tf 4).
Proof. by_check (weight tf 4) 4%nat 2 (tab (rev F4tab)) (tab (rev F4dual)) [1; 2; 2; 2]. Qed.
Lemma good_G : good 2 (std tG 2).
Proof. by_check (weight tG 2) 3%nat 1 (tab G2tab) (tab G2dual) [1; 3]. Qed.
Lemma good_g : good 2 (std tg 2).
Proof. by_check (weight tg 2) 3%nat 1 (tab (rev G2tab)) (tab (rev G2dual)) [3; 1]. Qed.

(** the classical types *)
Lemma zsum_two M c p a q b g :
  zsum M (fun k => c * (p * delta1 a k + q * delta1 b k) * g k) = c * (p * (if Nat.ltb a M then g a else 0) + q * (if Nat.ltb b M then g b else 0)).
Proof.
  rewrite <- !zsum_pick, <- !zsum_mul_l, <- zsum_add, <- zsum_mul_l. apply zsum_ext. intros k _. unfold delta1. ring.
Qed.
Definition ends (X : letter) (n i : nat) : Z * nat * Z * nat :=
  match X with
  | tC => if Nat.eqb (S i) n then (2, i, 0, n) else (1, i, -1, S i)
  | tD => if Nat.eqb (S i) n then (1, (n - 2)%nat, 1, (n - 1)%nat) else (1, i, -1, S i)
  | _ => (1, i, -1, S i)
  end.
Definition cE (X : letter) (n i k : nat) : Z := let '(p, a, q, b) := ends X n i in p * delta1 a k + q * delta1 b k.
Definition cF (X : letter) (n k j : nat) : Z :=
  match X with tD => if Nat.eqb (S (S k)) n then le1 j k - delta1 (n - 1) j else le1 j k | _ => le1 j k end.
Definition cm (X : letter) (n k : nat) : Z :=
  match X with tC => if Nat.eqb (S k) n then 2 else 1 | tD => if Nat.ltb (S (S k)) n then 1 else 2 | _ => 1 end.
Definition cM (X : letter) (n : nat) : nat := match X with tA => S n | _ => n end.
Definition cc (X : letter) : Z := match X with tB => 2 | _ => 1 end.
Definition classical (X : letter) : Prop := X = tA \/ X = tB \/ X = tC \/ X = tD.
Ltac crush := repeat (cbn [andb orb negb bond];
    match goal with
    | |- context [Nat.ltb ?a ?b] => flat a; flat b; destruct (Nat.ltb_spec a b); try (exfalso; lia)
    | |- context [Nat.leb ?a ?b] => flat a; flat b; destruct (Nat.leb_spec a b); try (exfalso; lia)
    | |- context [Nat.eqb ?a ?b] => flat a; flat b; destruct (Nat.eqb_spec a b); try (exfalso; lia)
    end); cbn [andb orb negb bond]; try lia; try reflexivity.
Lemma sum_E X n i c g : zsum (cM X n) (fun k => c * cE X n i k * g k) =
  let '(p, a, q, b) := ends X n i in c * (p * (if Nat.ltb a (cM X n) then g a else 0) + q * (if Nat.ltb b (cM X n) then g b else 0)).
Proof. unfold cE. destruct (ends X n i) as [[[p a] q] b]. apply zsum_two. Qed.
Lemma c1_ok X n i j : classical X -> valid_rank X n -> (i < n)%nat -> (j < n)%nat ->
  zsum (cM X n) (fun k => cc X * cE X n i k * cE X n j k) = 1 * (weight X n i * std X n j i).
Proof.
  intros Cl V Hi Hj. rewrite sum_E. destruct Cl as [->|[->|[->| ->]]]; cbn [valid_rank] in V;
    unfold cE, ends, cM, weight, std, line, is_edge, is_pair, delta1, cc.
  - crush.
  - crush.
  - crush.
  - crush.
Qed.
Lemma c2_ok X n i k : classical X -> valid_rank X n -> (i < n)%nat -> (k < n)%nat ->
  zsum (cM X n) (fun j => cE X n i j * cF X n k j) = if Nat.eqb i k then cm X n k else 0.
Proof.
  intros Cl V Hi Hj. rewrite (zsum_ext _ _ (fun j => 1 * cE X n i j * cF X n k j)) by (intros; ring).
  rewrite sum_E. destruct Cl as [->|[->|[->| ->]]]; cbn [valid_rank] in V;
    unfold ends, cF, cm, cM, delta1, le1; crush.
Qed.
Lemma std_cartan X n : classical X -> valid_rank X n -> Cartan_like n (std X n).
Proof.
  intros Cl V. split; [intros i Hi; unfold std; rewrite Nat.eqb_refl; reflexivity|].
  split; intros i j Hi Hj; destruct Cl as [->|[->|[->| ->]]]; cbn [valid_rank] in V; unfold std, line, is_edge, is_pair; crush.
Qed.
Lemma good_classical X n : classical X -> valid_rank X n -> good n (std X n).
Proof.
  intros Cl V. pose proof (std_cartan X n Cl V) as Ca.
  assert (N1 : (1 <= n)%nat) by (destruct Cl as [->|[->|[->| ->]]]; cbn in V; lia).
  assert (W : forall i, (i < n)%nat -> 1 <= weight X n i <= 2).
  { intros i Hi. destruct Cl as [->|[->|[->| ->]]]; cbn [weight]; try lia; destruct (Nat.eqb (S i) n); lia. }
  assert (cpos : 0 < cc X) by (destruct X; cbn; lia).
  assert (mpos : forall k, (k < n)%nat -> 0 < cm X n k).
  { intros k Hk. destruct Cl as [->|[->|[->| ->]]]; cbn [cm]; try lia; [destruct (Nat.eqb (S k) n)|destruct (Nat.ltb (S (S k)) n)]; lia. }
  assert (Fo : formed n (std X n) (weight X n)).
  { split; [intros i Hi; specialize (W i Hi); lia|]. split.
    - intros i j Hi Hj. pose proof (c1_ok X n i j Cl V Hi Hj) as A. pose proof (c1_ok X n j i Cl V Hj Hi) as B.
      rewrite Z.mul_1_l in A, B. rewrite <- A, <- B. apply zsum_ext. intros k _. ring.
    - apply (cert_pos n _ _ (cM X n) 1 (fun _ => cc X) (cE X n) (cF X n) (cm X n)); [lia|intros; exact cpos| | |exact mpos].
      + intros i j Hi Hj. apply c1_ok; assumption.
      + intros i k Hi Hk. apply c2_ok; assumption. }
  split; [exact Ca|]. split; [exists (weight X n); exact Fo|].
  apply (up_heights n _ (weight X n)); [exact Ca|exact Fo|lia|]. intros v U.
  pose proof (up_length n _ v U) as L. pose proof (up_nonneg n _ v U) as Nn. destruct (up_root n _ v U) as [w R].
  destruct Fo as (D1 & D2 & D3). destruct (root_norm n _ _ Ca D2 v w R) as (i0 & Hi0 & Nr).
  assert (B : forall k, (k < n)%nat -> cc X * (cm X n k * co v k) <= 2 * weight X n i0).
  { intros k Hk. rewrite <- Nr.
    pose proof (cert_bound n (std X n) (weight X n) (cM X n) 1 (fun _ => cc X) (cE X n) (cF X n) (cm X n)
      ltac:(intros; apply c1_ok; assumption) ltac:(intros; apply c2_ok; assumption) (co v) k (cc X) Hk cpos ltac:(reflexivity)) as G.
    rewrite Z.mul_1_l in G. apply G. intros j _. destruct Cl as [->|[->|[->| ->]]]; unfold cF, le1, delta1;
      repeat match goal with |- context [if ?b then _ else _] => destruct b end; lia. }
  rewrite height_zsum, L. destruct n as [|m]; [lia|].
  assert (T : zsum (S m) (co v) = zsum m (co v) + co v m) by reflexivity. rewrite T.
  assert (Z1 : zsum m (co v) <= Z.of_nat m * 4).
  { rewrite <- zsum_const. apply zsum_le. intros k Hk. specialize (B k ltac:(lia)). specialize (mpos k ltac:(lia)). specialize (W i0 Hi0). specialize (Nn k). nia. }
  assert (Z2 : co v m <= 2); [|lia]. specialize (B m ltac:(lia)). specialize (Nn m). specialize (W i0 Hi0). clear -B Nn W Cl.
  destruct Cl as [->|[->|[->| ->]]]; cbn [cc cm weight] in *; try lia; rewrite ?Nat.eqb_refl, ?(proj2 (Nat.ltb_ge (S (S m)) (S m))) in B by lia; lia.
Qed.
Lemma good_std X n : valid_rank X n -> X <> tT -> good n (std X n).
Proof.
  intros V N. destruct X; cbn in V; try congruence; try (apply good_classical; [unfold classical; tauto|exact V]); try subst n.
  all: first [apply good_E; exact V|apply good_F|apply good_f|apply good_G|apply good_g].
Qed.

(** ** Sums *)
Section Sum.
Variables (m1 m2 : nat) (c1 c2 C : nat -> nat -> Z).
Hypothesis b11 : forall i j, (i < m1)%nat -> (j < m1)%nat -> C i j = c1 i j.
Hypothesis b22 : forall i j, (i < m2)%nat -> (j < m2)%nat -> C (m1 + i)%nat (m1 + j)%nat = c2 i j.
Hypothesis b12 : forall i j, (i < m1)%nat -> (j < m2)%nat -> C i (m1 + j)%nat = 0.
Hypothesis b21 : forall i j, (i < m2)%nat -> (j < m1)%nat -> C (m1 + i)%nat j = 0.
Lemma side i : (i < m1 + m2)%nat -> (i < m1)%nat \/ exists k, (k < m2)%nat /\ i = (m1 + k)%nat.
Proof. intros H. destruct (le_lt_dec m1 i) as [L|L]; [right; exists (i - m1)%nat; lia|left; exact L]. Qed.
Lemma sum_cartan : Cartan_like m1 c1 -> Cartan_like m2 c2 -> Cartan_like (m1 + m2) C.
Proof.
  intros (A1 & A2 & A3) (B1 & B2 & B3). split; [|split].
  - intros i Hi. destruct (side i Hi) as [L|(k & L & ->)]; [rewrite b11 by exact L; apply A1; exact L|rewrite b22 by exact L; apply B1; exact L].
  - intros i j Hi Hj N. destruct (side i Hi) as [L|(k & L & ->)]; destruct (side j Hj) as [L'|(k' & L' & ->)].
    + rewrite b11 by assumption. apply A2; assumption.
    + rewrite b12 by assumption. lia.
    + rewrite b21 by assumption. lia.
    + rewrite b22 by assumption. apply B2; [assumption|assumption|lia].
  - intros i j Hi Hj. destruct (side i Hi) as [L|(k & L & ->)]; destruct (side j Hj) as [L'|(k' & L' & ->)].
    + rewrite !b11 by assumption. apply A3; assumption.
    + rewrite b12, b21 by assumption. lia.
    + rewrite b21, b12 by assumption. lia.
    + rewrite !b22 by assumption. apply B3; assumption.
Qed.
Lemma qsum (d1 d2 d : nat -> Z) x : (forall i, (i < m1)%nat -> d i = d1 i) -> (forall i, (i < m2)%nat -> d (m1 + i)%nat = d2 i) ->
  qform (m1 + m2) (fun i j => d i * C j i) x = qform m1 (fun i j => d1 i * c1 j i) x + qform m2 (fun i j => d2 i * c2 j i) (fun i => x (m1 + i)%nat).
Proof.
  intros E1 E2. unfold qform. rewrite zsum_split. f_equal; apply zsum_ext; intros i Hi; rewrite zsum_split.
  - rewrite (zsum_zero m2), Z.add_0_r by (intros j Hj; rewrite b21 by assumption; ring).
    apply zsum_ext. intros j Hj. rewrite b11, E1 by assumption. reflexivity.
  - rewrite (zsum_zero m1), Z.add_0_l by (intros j Hj; rewrite b12 by assumption; ring).
    apply zsum_ext. intros j Hj. rewrite b22, E2 by assumption. reflexivity.
Qed.
Lemma sum_formed : (exists d, formed m1 c1 d) -> (exists d, formed m2 c2 d) -> exists d, formed (m1 + m2) C d.
Proof.
  intros (d1 & P1 & S1 & Q1) (d2 & P2 & S2 & Q2). exists (fun i => if Nat.ltb i m1 then d1 i else d2 (i - m1)%nat).
  set (d := fun i => if Nat.ltb i m1 then d1 i else d2 (i - m1)%nat).
  assert (E1 : forall i, (i < m1)%nat -> d i = d1 i) by (intros i Hi; unfold d; rewrite (proj2 (Nat.ltb_lt _ _) Hi); reflexivity).
  assert (E2 : forall i, (i < m2)%nat -> d (m1 + i)%nat = d2 i) by (intros i Hi; unfold d; rewrite (proj2 (Nat.ltb_ge (m1 + i) m1)) by lia; f_equal; lia).
  split; [|split].
  - intros i Hi. destruct (side i Hi) as [L|(k & L & ->)]; [rewrite E1 by exact L; apply P1; exact L|rewrite E2 by exact L; apply P2; exact L].
  - intros i j Hi Hj. destruct (side i Hi) as [L|(k & L & ->)]; destruct (side j Hj) as [L'|(k' & L' & ->)].
    + rewrite !b11, !E1 by assumption. apply S1; assumption.
    + rewrite b12, b21 by assumption. ring.
    + rewrite b12, b21 by assumption. ring.
    + rewrite !b22, !E2 by assumption. apply S2; assumption.
  - intros x (i & Hi & N). rewrite (qsum d1 d2 d x E1 E2).
    assert (G : forall m c d0 y, (forall x, (exists i, (i < m)%nat /\ x i <> 0) -> 0 < qform m (fun i j => d0 i * c j i) x) ->
      0 <= qform m (fun i j => d0 i * c j i) y).
    { intros m c d0 y Q. destruct (existsb (fun k => negb (y k =? 0)) (seq 0 m)) eqn:X.
      - apply existsb_exists in X. destruct X as (k & I & T). apply in_seq in I. apply negb_true_iff, Z.eqb_neq in T.
        specialize (Q y (ex_intro _ k (conj (proj2 I) T))). lia.
      - replace (qform m _ y) with 0; [lia|]. symmetry. apply zsum_zero. intros a Ha. apply zsum_zero. intros b Hb.
        destruct (Z.eqb_spec (y a) 0) as [->|Na]; [ring|]. exfalso.
        assert (Y : existsb (fun k => negb (y k =? 0)) (seq 0 m) = true); [|congruence].
        apply existsb_exists. exists a. split; [apply in_seq; lia|]. rewrite (proj2 (Z.eqb_neq _ _) Na). reflexivity. }
    pose proof (G m1 c1 d1 x Q1). pose proof (G m2 c2 d2 (fun i => x (m1 + i)%nat) Q2).
    destruct (side i Hi) as [L|(k & L & ->)].
    + pose proof (Q1 x (ex_intro _ i (conj L N))). lia.
    + pose proof (Q2 (fun i => x (m1 + i)%nat) (ex_intro _ k (conj L N))). lia.
Qed.
(** roots are in one of the summands *)
Definition vec (n : nat) (f : nat -> Z) : list Z := map f (seq 0 n).
Definition left_of (v : list Z) : list Z := vec m1 (co v).
Definition right_of (v : list Z) : list Z := vec m2 (fun k => co v (m1 + k)%nat).
Lemma vec_length n f : length (vec n f) = n. Proof. unfold vec. rewrite map_length, seq_length. reflexivity. Qed.
Lemma co_vec n f k : (k < n)%nat -> co (vec n f) k = f k. Proof. apply co_map. Qed.
Lemma pair_left v i : (forall k, (k < m2)%nat -> co v (m1 + k)%nat = 0) -> (i < m1)%nat -> pairing (m1 + m2) C v i = pairing m1 c1 (left_of v) i.
Proof.
  intros Z0 Hi. unfold pairing. rewrite zsum_split, (zsum_zero m2), Z.add_0_r by (intros k Hk; rewrite Z0 by exact Hk; ring).
  apply zsum_ext. intros j Hj. rewrite b11 by assumption. unfold left_of. rewrite co_vec by exact Hj. reflexivity.
Qed.
Lemma pair_right v i : (forall k, (k < m1)%nat -> co v k = 0) -> (i < m2)%nat -> pairing (m1 + m2) C v (m1 + i)%nat = pairing m2 c2 (right_of v) i.
Proof.
  intros Z0 Hi. unfold pairing. rewrite zsum_split, (zsum_zero m1), Z.add_0_l by (intros k Hk; rewrite Z0 by exact Hk; ring).
  apply zsum_ext. intros j Hj. rewrite b22 by assumption. unfold right_of. rewrite co_vec by exact Hj. reflexivity.
Qed.
Lemma sum_root v : is_root (m1 + m2) C v ->
  ((forall k, (k < m2)%nat -> co v (m1 + k)%nat = 0) /\ is_root m1 c1 (left_of v)) \/ ((forall k, (k < m1)%nat -> co v k = 0) /\ is_root m2 c2 (right_of v)).
Proof.
  intros [w R]. induction R as [i H|i v w H R IH].
  - destruct (side i H) as [L|(k & L & ->)]; [left|right]; split.
    + intros k Hk. rewrite co_basis, (proj2 (Nat.eqb_neq (m1 + k) i)) by lia. reflexivity.
    + replace (left_of (basis (m1 + m2) i)) with (basis m1 i); [exists (basis m1 i); apply rc_simple; exact L|].
      apply vec_ext; [rewrite basis_length; unfold left_of; rewrite vec_length; reflexivity|]. intros k Hk. rewrite basis_length in Hk.
      unfold left_of. rewrite co_vec, !co_basis by lia. reflexivity.
    + intros j Hj. rewrite co_basis, (proj2 (Nat.eqb_neq j (m1 + k))) by lia. reflexivity.
    + replace (right_of (basis (m1 + m2) (m1 + k))) with (basis m2 k); [exists (basis m2 k); apply rc_simple; exact L|].
      apply vec_ext; [rewrite basis_length; unfold right_of; rewrite vec_length; reflexivity|]. intros j Hj. rewrite basis_length in Hj.
      unfold right_of. rewrite co_vec, !co_basis by lia. destruct (Nat.eqb_spec j k), (Nat.eqb_spec (m1 + j) (m1 + k)); lia || reflexivity.
  - destruct (root_coroot_length _ _ _ _ R) as [Lv _]. destruct IH as [[Z0 Rt]|[Z0 Rt]]; destruct (side i H) as [L|(k & L & ->)].
    + left. split.
      * intros k Hk. rewrite co_sr, (proj2 (Nat.eqb_neq (m1 + k) i)) by lia. apply Z0; exact Hk.
      * replace (left_of (sreflect (m1 + m2) C i v)) with (sreflect m1 c1 i (left_of v)); [apply is_root_sr; assumption|].
        apply vec_ext; [rewrite sr_length; unfold left_of; rewrite !vec_length; reflexivity|]. intros k Hk.
        rewrite sr_length in Hk. unfold left_of in Hk. rewrite vec_length in Hk.
        rewrite co_sr by (unfold left_of; rewrite vec_length; exact L). unfold left_of at 1 3 4. rewrite !co_vec by exact Hk.
        rewrite co_sr by lia. rewrite pair_left by assumption. reflexivity.
    + left. assert (P : pairing (m1 + m2) C v (m1 + k) = 0).
      { unfold pairing. apply zsum_zero. intros j Hj. destruct (side j Hj) as [L'|(k' & L' & ->)]; [rewrite b12 by assumption|rewrite Z0 by exact L']; ring. }
      unfold sreflect. rewrite P. cbn. rewrite bump_0 by lia. split; assumption.
    + right. assert (P : pairing (m1 + m2) C v i = 0).
      { unfold pairing. apply zsum_zero. intros j Hj. destruct (side j Hj) as [L'|(k' & L' & ->)]; [rewrite Z0 by exact L'|rewrite b21 by assumption]; ring. }
      unfold sreflect. rewrite P. cbn. rewrite bump_0 by lia. split; assumption.
    + right. split.
      * intros j Hj. rewrite co_sr, (proj2 (Nat.eqb_neq j (m1 + k))) by lia. apply Z0; exact Hj.
      * replace (right_of (sreflect (m1 + m2) C (m1 + k) v)) with (sreflect m2 c2 k (right_of v)); [apply is_root_sr; assumption|].
        apply vec_ext; [rewrite sr_length; unfold right_of; rewrite !vec_length; reflexivity|]. intros j Hj.
        rewrite sr_length in Hj. unfold right_of in Hj. rewrite vec_length in Hj.
        rewrite co_sr by (unfold right_of; rewrite vec_length; exact L). unfold right_of at 1 3 4. rewrite !co_vec by exact Hj.
        rewrite co_sr by lia. rewrite pair_right by assumption.
        destruct (Nat.eqb_spec j k), (Nat.eqb_spec (m1 + j) (m1 + k)); lia || reflexivity.
Qed.
Lemma good_sum : good m1 c1 -> good m2 c2 -> good (m1 + m2) C.
Proof.
  intros (A1 & A2 & A3) (B1 & B2 & B3). split; [apply sum_cartan; assumption|]. split; [apply sum_formed; assumption|].
  intros v R. pose proof (root_length _ _ v R) as L. rewrite height_zsum, L, zsum_split.
  destruct (sum_root v R) as [[Z0 Rt]|[Z0 Rt]].
  - rewrite (zsum_zero m2) by exact Z0. specialize (A3 _ Rt). rewrite height_zsum in A3. unfold left_of in A3. rewrite vec_length in A3.
    rewrite (zsum_ext m1 _ (co v)) in A3 by (intros k Hk; rewrite co_vec by exact Hk; reflexivity). lia.
  - rewrite (zsum_zero m1) by exact Z0. specialize (B3 _ Rt). rewrite height_zsum in B3. unfold right_of in B3. rewrite vec_length in B3.
    rewrite (zsum_ext m2 _ (fun k => co v (m1 + k)%nat)) in B3 by (intros k Hk; rewrite co_vec by exact Hk; reflexivity). lia.
Qed.
End Sum.

(** ** Renumbering *)
Lemma zsum_fold n f : zsum n f = fold_right Z.add 0 (map f (seq 0 n)).
Proof.
  induction n as [|n IH]; [reflexivity|]. rewrite seq_S, map_app, fold_right_app. unfold zsum in *. cbn [fsum map fold_right].
  rewrite IH. generalize (map f (seq 0 n)). intros l. cbn. generalize (f n). intros z. induction l as [|a l IHl]; cbn [fold_right]; lia.
Qed.
Lemma sum_perm l l' : Permutation l l' -> fold_right Z.add 0 l = fold_right Z.add 0 l'.
Proof. induction 1; cbn [fold_right]; lia. Qed.
Lemma zsum_perm n pi f : permutes n pi -> zsum n (fun i => f (nth i pi 0%nat)) = zsum n f.
Proof.
  intros P. rewrite !zsum_fold. assert (L : length pi = n) by (rewrite (Permutation_length P), seq_length; reflexivity).
  replace (map (fun i => f (nth i pi 0%nat)) (seq 0 n)) with (map f pi); [apply sum_perm, Permutation_map; exact P|].
  rewrite <- (map_map (fun i => nth i pi 0%nat) f). f_equal. rewrite <- L. clear. apply nth_ext with (d := 0%nat) (d' := 0%nat); [rewrite map_length, seq_length; reflexivity|].
  intros k Hk. rewrite (nth_indep (map _ _) 0%nat (nth 0 pi 0%nat)) by (rewrite map_length, seq_length; exact Hk).
  rewrite (map_nth (fun i => nth i pi 0%nat)), seq_nth by exact Hk. reflexivity.
Qed.
Section Perm.
Variables (n : nat) (pi : list nat) (f B : nat -> nat -> Z).
Hypothesis perm : permutes n pi.
Notation p i := (nth i pi 0%nat).
Hypothesis fB : forall i j, (i < n)%nat -> (j < n)%nat -> f (p i) (p j) = B i j.
Lemma p_at k : (k < n)%nat -> exists i, (i < n)%nat /\ p i = k.
Proof.
  intros H. assert (I : In k pi) by (apply (Permutation_in k (Permutation_sym perm)); apply in_seq; lia).
  apply (In_nth _ _ 0%nat) in I. destruct I as (i & L & E). exists i. rewrite (Permutation_length perm), seq_length in L. split; assumption.
Qed.
Lemma p_lt i : (i < n)%nat -> (p i < n)%nat.
Proof.
  intros H. assert (L : length pi = n) by (rewrite (Permutation_length perm), seq_length; reflexivity).
  assert (I : In (p i) (seq 0 n)) by (apply (Permutation_in _ perm); apply nth_In; lia). apply in_seq in I. lia.
Qed.
Lemma p_inj i j : (i < n)%nat -> (j < n)%nat -> p i = p j -> i = j.
Proof.
  intros Hi Hj E. assert (L : length pi = n) by (rewrite (Permutation_length perm), seq_length; reflexivity).
  apply (proj1 (NoDup_nth pi 0%nat) (Permutation_NoDup (Permutation_sym perm) (seq_NoDup n 0))); lia || exact E.
Qed.
Definition back (k : nat) : nat := hd 0%nat (filter (fun i => Nat.eqb (p i) k) (seq 0 n)).
Lemma back_ok i : (i < n)%nat -> back (p i) = i.
Proof.
  intros H. unfold back. destruct (filter (fun a => Nat.eqb (p a) (p i)) (seq 0 n)) as [|a l] eqn:E.
  - exfalso. assert (I : In i (filter (fun a => Nat.eqb (p a) (p i)) (seq 0 n))) by (apply filter_In; split; [apply in_seq; lia|apply Nat.eqb_refl]).
    rewrite E in I. exact I.
  - assert (I : In a (filter (fun a => Nat.eqb (p a) (p i)) (seq 0 n))) by (rewrite E; left; reflexivity). apply filter_In in I. destruct I as [I T].
    apply in_seq in I. apply Nat.eqb_eq in T. cbn. apply p_inj; lia || exact T.
Qed.
Definition moved (v : list Z) : list Z := vec n (fun i => co v (p i)).
Lemma pair_moved v i : (i < n)%nat -> pairing n B (moved v) i = pairing n f v (p i).
Proof.
  intros Hi. unfold pairing. rewrite <- (zsum_perm n pi (fun j => co v j * f j (p i)) perm). apply zsum_ext. intros j Hj.
  unfold moved. rewrite co_vec, fB by assumption. reflexivity.
Qed.
Lemma moved_root v : is_root n f v -> is_root n B (moved v).
Proof.
  intros [w R]. induction R as [k H|k v w H R IH]; destruct (p_at k H) as (i & Hi & <-).
  - replace (moved (basis n (p i))) with (basis n i); [exists (basis n i); apply rc_simple; exact Hi|].
    apply vec_ext; [rewrite basis_length; unfold moved; rewrite vec_length; reflexivity|]. intros j Hj. rewrite basis_length in Hj.
    unfold moved. rewrite co_vec, !co_basis by assumption.
    destruct (Nat.eqb_spec j i) as [->|N]; [rewrite Nat.eqb_refl; reflexivity|]. rewrite (proj2 (Nat.eqb_neq _ _)); [reflexivity|].
    intros E. apply N. apply p_inj; assumption.
  - destruct (root_coroot_length _ _ _ _ R) as [Lv _].
    replace (moved (sreflect n f (p i) v)) with (sreflect n B i (moved v)); [apply is_root_sr; assumption|].
    apply vec_ext; [rewrite sr_length; unfold moved; rewrite !vec_length; reflexivity|]. intros j Hj.
    rewrite sr_length in Hj. unfold moved in Hj. rewrite vec_length in Hj.
    rewrite co_sr by (unfold moved; rewrite vec_length; exact Hi). rewrite pair_moved by exact Hi. unfold moved. rewrite !co_vec by exact Hj.
    rewrite co_sr by lia.
    destruct (Nat.eqb_spec j i) as [->|N]; [rewrite Nat.eqb_refl; reflexivity|]. rewrite (proj2 (Nat.eqb_neq _ _)); [reflexivity|].
    intros E. apply N. apply p_inj; assumption.
Qed.
Lemma good_perm : good n B -> good n f.
Proof.
  intros ((A1 & A2 & A3) & (d & P1 & P2 & P3) & H). split; [|split].
  - split; [|split].
    + intros k Hk. destruct (p_at k Hk) as (i & Hi & <-). rewrite fB by assumption. apply A1; exact Hi.
    + intros k l Hk Hl N. destruct (p_at k Hk) as (i & Hi & <-), (p_at l Hl) as (j & Hj & <-). rewrite fB by assumption. apply A2; [exact Hi|exact Hj|congruence].
    + intros k l Hk Hl. destruct (p_at k Hk) as (i & Hi & <-), (p_at l Hl) as (j & Hj & <-). rewrite !fB by assumption. apply A3; assumption.
  - exists (fun k => d (back k)). split; [|split].
    + intros k Hk. destruct (p_at k Hk) as (i & Hi & <-). rewrite back_ok by exact Hi. apply P1; exact Hi.
    + intros k l Hk Hl. destruct (p_at k Hk) as (i & Hi & <-), (p_at l Hl) as (j & Hj & <-). rewrite !back_ok, !fB by assumption. apply P2; assumption.
    + intros x (k & Hk & N). destruct (p_at k Hk) as (i & Hi & <-).
      replace (qform n (fun i j => d (back i) * f j i) x) with (qform n (fun i j => d i * B j i) (fun i => x (p i))).
      * apply P3. exists i. split; assumption.
      * unfold qform. etransitivity; [|apply (zsum_perm n pi (fun i => zsum n (fun j => d (back i) * f j i * x i * x j)) perm)].
        apply zsum_ext. intros a Ha. etransitivity; [|apply (zsum_perm n pi (fun j => d (back (p a)) * f j (p a) * x (p a) * x j) perm)].
        apply zsum_ext. intros b Hb.
        rewrite back_ok, fB by assumption. reflexivity.
  - intros v R. specialize (H _ (moved_root v R)). pose proof (root_length _ _ v R) as L. rewrite height_zsum in *. rewrite L.
    unfold moved in H. rewrite vec_length in H. rewrite (zsum_ext n _ (fun i => co v (p i))) in H by (intros k Hk; rewrite co_vec by exact Hk; reflexivity).
    rewrite zsum_perm in H by exact perm. exact H.
Qed.
End Perm.

Lemma good_block lt : valid_type lt -> semisimple lt -> good (total lt) (block_diagonal lt).
Proof.
  induction lt as [|[X r] lt IH]; intros V S.
  - cbn. split; [split; [|split]; intros; lia|]. split; [exists (fun _ => 1); split; [|split]; intros; try lia; destruct H as (i & Hi & _); lia|].
    intros v [w R]. inversion R; lia.
  - inversion V as [|? ? V1 V2]; subst. inversion S as [|? ? S1 S2]; subst. cbn [fst snd] in *. cbn [total snd].
    apply (good_sum r (total lt) (std X r) (block_diagonal lt)); [| | | |apply good_std; assumption|apply IH; assumption]; intros i j Hi Hj; cbn [block_diagonal snd].
    + rewrite (proj2 (Nat.ltb_lt _ _) Hi), (proj2 (Nat.ltb_lt _ _) Hj). cbn [andb]. unfold simple_matrix. cbn [fst snd]. destruct X; reflexivity || congruence.
    + rewrite (proj2 (Nat.ltb_ge (r + i) r)), (proj2 (Nat.ltb_ge (r + j) r)) by lia. cbn [andb orb]. f_equal; lia.
    + rewrite (proj2 (Nat.ltb_ge (r + j) r)), (proj2 (Nat.ltb_lt _ _) Hi) by lia. reflexivity.
    + rewrite (proj2 (Nat.ltb_ge (r + i) r)), (proj2 (Nat.ltb_lt _ _) Hj) by lia. reflexivity.
Qed.
Theorem finite_good n f : finite_type n f -> good n f.
Proof.
  intros (lt & pi & V & S & T & P & E). subst n. apply (good_perm (total lt) pi f (block_diagonal lt) P E). apply good_block; assumption.
Qed.
(** the transposed matrix has finite type too *)
Lemma block_dual lt i j : valid_type lt -> block_diagonal (dual_type lt) i j = block_diagonal lt j i.
Proof.
  intros V. revert i j. induction V as [|[X r] lt V1 V2 IH]; intros i j; [reflexivity|]. cbn [dual_type map block_diagonal fst snd] in *.
  rewrite (andb_comm (Nat.ltb j r)), (orb_comm (Nat.ltb j r)). destruct (Nat.ltb i r && Nat.ltb j r).
  - unfold simple_matrix. cbn [fst snd]. pose proof (std_dual X r i j V1) as D. destruct X; try exact D; reflexivity.
  - destruct (Nat.ltb i r || Nat.ltb j r); [reflexivity|]. apply IH.
Qed.
Theorem finite_flip n f : finite_type n f -> finite_type n (flip f).
Proof.
  intros (lt & pi & V & S & T & P & E). exists (dual_type lt), pi. split; [|split; [|split; [|split]]].
  - clear -V. induction V as [|[X r] lt V1 V2 IH]; constructor; [|exact IH]. cbn [fst snd] in *. destruct X; exact V1.
  - clear -S. induction S as [|[X r] lt V1 V2 IH]; constructor; [|exact IH]. cbn [fst snd] in *. destruct X; cbn; congruence.
  - rewrite <- T. clear. unfold dual_type. induction lt as [|[X r] lt IH]; [reflexivity|]. cbn [map total snd]. rewrite IH. reflexivity.
  - exact P.
  - intros i j Hi Hj. unfold flip. rewrite E by assumption. symmetry. apply block_dual; exact V.
Qed.
(** finite type matrices are positive definite *)
Theorem finite_definite n f : finite_type n f -> positive_definite n f.
Proof.
  intros H. destruct (finite_good n (flip f) (finite_flip n f H)) as (_ & (d & P & S & Q) & _). exists d. split; [exact P|]. split; [exact S|exact Q].
Qed.
