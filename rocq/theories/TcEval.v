(** Roots evaluated at elements of order two of the torus. *)

From Coq Require Import List Arith NArith ZArith Bool Lia.
From Verif Require Import RunModel MatSpec MatLin F2Spec F2Basics F2Solve WeylSpec WeylExchange RootSpec RootMath TgModel TgSpec TgSem TgMath.
Import ListNotations.
Open Scope nat_scope.

Section Evaluate.
Variables (dim n : nat) (A : nat -> nat -> Z) (r : nat) (G : tits_group).
Hypothesis T : tits_of dim n A r G.
Notation refl := (reflect2 r (root2 G) (coroot2 G)).
Notation act := (act2 r (root2 G) (coroot2 G)).
(** combination with the coefficients of [v] modulo 2 *)
Definition comb2 (h : nat -> bool) (v : list Z) : bool := sum2 n (fun i => Z.odd (co v i) && h i).
Definition ev (x : N) (v : list Z) : bool := comb2 (fun i => scalar r (root2 G i) x) v.
Lemma comb2_xor h k v : comb2 (fun i => xorb (h i) (k i)) v = xorb (comb2 h v) (comb2 k v).
Proof. unfold comb2. rewrite <- sum2_xor. apply sum2_ext. intros i _. now destruct (Z.odd (co v i)), (h i), (k i). Qed.
Lemma comb2_ext h k v : (forall i, i < n -> h i = k i) -> comb2 h v = comb2 k v.
Proof. intros E. apply sum2_ext. intros i Hi. now rewrite E. Qed.
Lemma odd_sum (v : list Z) (z : nat -> Z) : Z.odd (zsum n (fun i => co v i * z i)%Z) = comb2 (fun i => Z.odd (z i)) v.
Proof.
  unfold comb2. assert (Q : forall m, Z.odd (zsum m (fun i => co v i * z i)%Z) = sum2 m (fun i => Z.odd (co v i) && Z.odd (z i))); [|apply Q].
  induction m as [|m IH]; [reflexivity|]. cbn [sum2]. rewrite <- IH. replace (zsum (S m) (fun i => co v i * z i)%Z) with (zsum (m + 1) (fun i => co v i * z i)%Z) by (f_equal; lia).
  rewrite zsum_split, (zsum_one 1 0) by lia. now rewrite Nat.add_0_r, Z.odd_add, Z.odd_mul.
Qed.
Lemma comb2_reflect h s v : s < n -> length v = n -> comb2 h (sreflect n A s v) = xorb (comb2 h v) (Z.odd (pairing n A v s) && h s).
Proof.
  intros Hs L. unfold comb2.
  transitivity (xorb (sum2 n (fun i => Z.odd (co v i) && h i)) (sum2 n (fun i => (i =? s) && (Z.odd (pairing n A v s) && h s)))).
  - rewrite <- sum2_xor. apply sum2_ext. intros i Hi. rewrite (co_sr n A s v i ltac:(lia)). destruct (Nat.eqb_spec i s) as [->|Ne]; [|now rewrite xorb_false_r].
    rewrite Z.odd_sub. cbn [andb]. now destruct (Z.odd (co v s)), (Z.odd (pairing n A v s)), (h s).
  - f_equal. rewrite (sum2_single n s _ Hs); [now rewrite Nat.eqb_refl|]. intros i _ Ne. now rewrite (proj2 (Nat.eqb_neq _ _) Ne).
Qed.
Lemma ev_xor x y v : ev (N.lxor x y) v = xorb (ev x v) (ev y v).
Proof. unfold ev. rewrite <- comb2_xor. apply comb2_ext. intros i _. apply scalar_xor_r. Qed.
Lemma ev_0 v : ev 0 v = false.
Proof. apply sum2_zero. intros i _. rewrite scalar_0_r. apply andb_false_r. Qed.
Lemma ev_if (b : bool) x v : ev (if b then x else 0%N) v = b && ev x v.
Proof. destruct b; [reflexivity|apply ev_0]. Qed.
Lemma ev_coroot s v : s < n -> ev (coroot2 G s) v = Z.odd (pairing n A v s).
Proof. intros Hs. unfold pairing. rewrite odd_sum. apply comb2_ext. intros i Hi. now apply (to_pairing _ _ _ _ _ T). Qed.
Lemma ev_reflect s x v : s < n -> length v = n -> ev (refl s x) v = ev x (sreflect n A s v).
Proof.
  intros Hs L. rewrite refl_eq, ev_xor, ev_if, ev_coroot by exact Hs. unfold ev at 2. rewrite comb2_reflect by assumption. f_equal. apply andb_comm.
Qed.
Lemma ev_act w x v : over n w -> length v = n -> ev (act w x) v = ev x (word_act n A (rev w) v) /\ length (word_act n A (rev w) v) = n.
Proof.
  revert v. induction w as [|s w IH]; intros v O L; [auto|]. apply over_cons in O. destruct O as [Hs O]. rewrite act_cons, ev_reflect by assumption.
  assert (L' : length (sreflect n A s v) = n) by (rewrite sr_length; exact L). destruct (IH (sreflect n A s v) O L') as [E E']. cbn [rev]. unfold word_act in *. rewrite fold_right_app. cbn [fold_right]. auto.
Qed.
End Evaluate.
