(** The action of reflections on elements of order two of the torus, in terms of coroots. *)

From Coq Require Import List Arith NArith ZArith Bool Lia.
From Verif Require Import RunModel MatSpec MatRing MatLin F2Spec F2Solve WeylSpec RootSpec RootMath TgModel TgSpec TgSem TgMath TnSpec.
Import ListNotations.
Open Scope nat_scope.

Lemma xsum_ext m h k : (forall i, i < m -> h i = k i) -> xsum m h = xsum m k.
Proof. intros E. induction m as [|m IH]; [reflexivity|]. cbn [xsum]. rewrite IH, E; auto. Qed.
Lemma xsum_at m h i y : i < m -> xsum m (fun k => if k =? i then N.lxor (h k) y else h k) = N.lxor (xsum m h) y.
Proof.
  intros L. induction m as [|m IH]; [lia|]. cbn [xsum]. destruct (Nat.eqb_spec m i) as [->|Ne].
  - rewrite (xsum_ext i _ h); [now rewrite N.lxor_assoc|]. intros k Hk. destruct (Nat.eqb_spec k i); [lia|reflexivity].
  - rewrite IH by lia. rewrite !N.lxor_assoc. f_equal. apply N.lxor_comm.
Qed.
Section Coroots.
Variables (dim n : nat) (A : nat -> nat -> Z) (r : nat) (G : tits_group).
Hypothesis T : tits_of dim n A r G.
Notation two := (order_two n G).
Lemma two_scalar j v : j < n -> scalar r (root2 G j) (two v) = Z.odd (zsum n (fun k => (co v k * A j k)%Z)).
Proof.
  intros Hj. unfold order_two. assert (Q : forall m, m <= n -> scalar r (root2 G j) (xsum m (fun k => if Z.odd (co v k) then coroot2 G k else 0%N)) = Z.odd (zsum m (fun k => (co v k * A j k)%Z))); [|apply Q; lia].
  induction m as [|m IH]; intros L; [apply scalar_0_r|]. cbn [xsum]. rewrite scalar_xor_r, IH by lia. replace (zsum (S m) (fun k => (co v k * A j k)%Z)) with (zsum (m + 1) (fun k => (co v k * A j k)%Z)) by (f_equal; lia). rewrite zsum_split. rewrite (zsum_one 1 0) by lia. rewrite Nat.add_0_r, Z.odd_add. f_equal. rewrite Z.odd_mul.
  destruct (Z.odd (co v m)); [apply (to_pairing _ _ _ _ _ T); lia|apply scalar_0_r].
Qed.
Lemma two_reflect j v : j < n -> length v = n -> reflect2 r (root2 G) (coroot2 G) j (two v) = two (sreflect n (flip A) j v).
Proof.
  intros Hj L. unfold reflect2. rewrite (two_scalar j v Hj). unfold sreflect, pairing.
  replace (zsum n (fun k => co v k * flip A k j)%Z) with (zsum n (fun k => (co v k * A j k)%Z)) by reflexivity. set (z := zsum n _). unfold order_two.
  transitivity (N.lxor (xsum n (fun k => if Z.odd (co v k) then coroot2 G k else 0%N)) (if Z.odd z then coroot2 G j else 0%N)); [destruct (Z.odd z); [reflexivity|now rewrite N.lxor_0_r]|].
  rewrite <- (xsum_at n _ j _ Hj). apply xsum_ext. intros k Hk. rewrite co_bump by lia. destruct (Nat.eqb_spec k j) as [->|]; [|reflexivity].
  rewrite Z.odd_add, Z.odd_opp. destruct (Z.odd (co v j)), (Z.odd z); cbn [xorb]; rewrite ?N.lxor_nilpotent, ?N.lxor_0_r, ?N.lxor_0_l; reflexivity.
Qed.
Lemma two_basis i : i < n -> two (basis n i) = coroot2 G i.
Proof.
  intros Hi. unfold order_two. rewrite (xsum_ext n _ (fun k => if k =? i then N.lxor ((fun _ => 0%N) k) (coroot2 G i) else (fun _ => 0%N) k)).
  - rewrite xsum_at by exact Hi. replace (xsum n (fun _ => 0%N)) with 0%N; [now rewrite N.lxor_0_l|]. clear. induction n as [|m IH]; [reflexivity|]. cbn [xsum]. now rewrite <- IH.
  - intros k Hk. rewrite co_basis by exact Hi. destruct (Nat.eqb_spec k i) as [->|]; [now rewrite N.lxor_0_l|reflexivity].
Qed.
Lemma two_act w i : over n w -> i < n -> act2 r (root2 G) (coroot2 G) w (coroot2 G i) = two (word_act n (flip A) w (basis n i)) /\ length (word_act n (flip A) w (basis n i)) = n.
Proof.
  intros O Hi. induction w as [|j w IH].
  - cbn. split; [now rewrite two_basis|]. unfold basis. now rewrite map_length, seq_length.
  - apply WeylExchange.over_cons in O. destruct O as [Hj O]. destruct (IH O) as [E L]. cbn [act2 word_act fold_right]. unfold act2, word_act in E, L. rewrite E. split; [now apply two_reflect|]. unfold sreflect. rewrite bump_length. exact L.
Qed.
End Coroots.
