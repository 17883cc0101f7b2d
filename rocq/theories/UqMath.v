(** Factorizations of 1 minus an involution. *)

From Coq Require Import List Arith ZArith Bool Lia.
From Verif Require Import MatSpec MatLin ToriSpec ToriLat UqSpec.
Local Open Scope Z_scope.

Lemma fapply_sub n f x y i : fapply n f (fun j => x j - y j) i = fapply n f x i - fapply n f y i.
Proof. rewrite <- (Z.mul_1_l (fapply n f y i)). rewrite (fapply_ext n f _ (fun j => x j + (-1) * y j)) by (intros; ring). rewrite fapply_add, fapply_scale. ring. Qed.
Lemma anti_mat n th x i : (i < n)%nat -> fapply n (fun i j => delta i j - th i j) x i = anti n th x i.
Proof.
  intros Hi. unfold fapply, anti. rewrite (zsum_ext n _ (fun j => delta i j * x j + (-1) * (th i j * x j))) by (intros; ring).
  rewrite zsum_add, zsum_mul_l, zsum_delta_l by exact Hi. unfold fapply. ring.
Qed.
Section Factors.
Variables (n k : nat) (th m g : nat -> nat -> Z).
Hypothesis F : factors n k th m g.
Lemma fac_apply x i : (i < n)%nat -> fapply k g (fapply n m x) i = anti n th x i.
Proof. intros Hi. rewrite fapply_fapply, <- anti_mat by exact Hi. apply fapply_mat. intros j Hj. apply (proj1 F); assumption. Qed.
Lemma fac_inj x y : (forall i, (i < n)%nat -> fapply k g x i = fapply k g y i) -> forall j, (j < k)%nat -> x j = y j.
Proof.
  intros H j Hj. assert (E : x j - y j = 0); [|lia]. apply (proj1 (proj2 F) (fun j => x j - y j)); [|exact Hj].
  intros i Hi. rewrite fapply_sub, H by exact Hi. lia.
Qed.
(** the image of [g] is that of 1 minus the involution *)
Lemma fac_image v : (exists y, forall i, (i < n)%nat -> v i = fapply k g y i) <-> (exists z, forall i, (i < n)%nat -> v i = anti n th z i).
Proof.
  split.
  - intros (y & Y). destruct (proj2 (proj2 F) y) as (x & X). exists x. intros i Hi. rewrite Y, <- fac_apply by exact Hi. apply fapply_ext. intros j Hj. symmetry. apply X. exact Hj.
  - intros (z & Hz). exists (fapply n m z). intros i Hi. rewrite fac_apply by exact Hi. apply Hz. exact Hi.
Qed.
Hypothesis inv : is_involution n th.
Lemma anti_anti x i : (i < n)%nat -> anti n th (anti n th x) i = 2 * anti n th x i.
Proof.
  intros Hi. change (anti n th x i - fapply n th (fun j => x j - fapply n th x j) i = 2 * anti n th x i).
  rewrite fapply_sub. change (fun j : nat => fapply n th x j) with (fapply n th x). rewrite (fapply_fapply n n th th x i), (fapply_mat n (fmul n th th) delta) by (intros j Hj; apply inv; assumption).
  rewrite fapply_delta by exact Hi. unfold anti. ring.
Qed.
Lemma fac_two y j : (j < k)%nat -> fapply n m (fapply k g y) j = 2 * y j.
Proof.
  intros Hj. destruct (proj2 (proj2 F) y) as (x & X).
  apply (fac_inj (fapply n m (fapply k g y)) (fun j => 2 * y j)); [|exact Hj]. intros i Hi.
  rewrite fac_apply, fapply_scale by exact Hi.
  transitivity (anti n th (anti n th x) i).
  - unfold anti at 1 2. f_equal; [|apply fapply_ext; intros l Hl]; rewrite <- fac_apply by assumption; apply fapply_ext; intros; symmetry; apply X; assumption.
  - rewrite anti_anti, <- fac_apply by exact Hi. f_equal. apply fapply_ext. exact X.
Qed.
Lemma fac_anti z j : (j < k)%nat -> fapply n m (anti n th z) j = 2 * fapply n m z j.
Proof.
  intros Hj. rewrite <- fac_two by exact Hj. apply fapply_ext. intros i Hi. symmetry. apply fac_apply. exact Hi.
Qed.
(** the two reductions *)
Lemma unique_ok x : let x' i := x i - fapply k g (fun j => fapply n m x j / 2) i in
  anti_apart n th x' x /\ (forall j, (j < k)%nat -> fapply n m x' j = fapply n m x j mod 2).
Proof.
  cbv zeta. split.
  - destruct (proj1 (fac_image (fapply k g (fun j => - (fapply n m x j / 2))))) as (z & Hz); [eexists; intros; reflexivity|].
    exists z. intros i Hi. rewrite <- Hz by exact Hi. rewrite (fapply_ext k g (fun j => - _) (fun j => (-1) * (fapply n m x j / 2))) by (intros; ring). rewrite fapply_scale. ring.
  - intros j Hj. rewrite fapply_sub. change (fun j0 : nat => fapply k g (fun j1 : nat => fapply n m x j1 / 2) j0) with (fapply k g (fun j1 : nat => fapply n m x j1 / 2)).
    rewrite fac_two by exact Hj. rewrite (Z.mod_eq _ 2) by lia. ring.
Qed.
Lemma class_iff x y : anti_apart n th x y <-> exists w, (forall i, (i < n)%nat -> x i - y i = fapply k g w i) .
Proof. unfold anti_apart. symmetry. apply fac_image. Qed.
(** weights in the same class *)
Lemma unique_same x y : anti_apart n th x y ->
  forall i, (i < n)%nat -> x i - fapply k g (fun j => fapply n m x j / 2) i = y i - fapply k g (fun j => fapply n m y j / 2) i.
Proof.
  intros H. apply class_iff in H as (w & W). intros i Hi.
  assert (E : forall j, (j < k)%nat -> fapply n m x j / 2 = fapply n m y j / 2 + w j).
  { intros j Hj. assert (D : fapply n m x j = fapply n m y j + w j * 2).
    { pose proof (fac_two w j Hj) as T. rewrite (fapply_ext n m (fapply k g w) (fun i => x i - y i)) in T by (intros; symmetry; apply W; assumption). rewrite fapply_sub in T. lia. }
    rewrite D. apply Z.div_add. lia. }
  rewrite (fapply_ext k g _ _ i E), fapply_add. rewrite <- (W i Hi). ring.
Qed.
(** parities *)
Lemma pack_same x y : (forall j, (j < k)%nat -> Z.odd (fapply n m x j) = Z.odd (fapply n m y j)) <->
  exists z, forall i, (i < n)%nat -> anti n th x i - anti n th y i = 2 * anti n th z i.
Proof.
  split.
  - intros H. destruct (finite_choice k (fun j t => fapply n m x j - fapply n m y j = 2 * t) 0) as (t & T).
    { intros j Hj. specialize (H j Hj). exists ((fapply n m x j - fapply n m y j) / 2). assert (X : Z.odd (fapply n m x j - fapply n m y j) = false) by (rewrite Z.odd_sub, H; apply xorb_nilpotent).
      pose proof (Zmod_odd (fapply n m x j - fapply n m y j)) as M. rewrite X in M. rewrite (Z.div_mod (fapply n m x j - fapply n m y j) 2) at 1 by lia. lia. }
    destruct (proj2 (proj2 F) t) as (z & Hz). exists z. intros i Hi. rewrite <- !fac_apply by exact Hi. rewrite <- fapply_sub, <- fapply_scale. apply fapply_ext. intros j Hj. rewrite Hz by exact Hj. apply T. exact Hj.
  - intros (z & Hz) j Hj. assert (E : fapply n m x j - fapply n m y j = 2 * fapply n m z j).
    { apply (fac_inj (fun j => fapply n m x j - fapply n m y j) (fun j => 2 * fapply n m z j)); [|exact Hj]. intros i Hi. rewrite fapply_sub, fapply_scale, !fac_apply by exact Hi. apply Hz. exact Hi. }
    assert (X : fapply n m x j = fapply n m y j + 2 * fapply n m z j) by lia. rewrite X. rewrite Z.odd_add_mul_2. reflexivity.
Qed.
End Factors.
