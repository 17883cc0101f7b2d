(** Decision procedure for [normal] on concrete digit lists (for examples). *)

From Coq Require Import ZArith List Bool Lia.
From Verif Require Import BigIntModel BigIntSpec BigIntBase.
Import ListNotations.
Open Scope Z_scope.

Definition digit_b (x : Z) : bool := (0 <=? x) && (x <? B).
Definition redundant_b (y x : Z) : bool :=
  ((x =? 0) && (y <? neg_flag)) || ((x =? B - 1) && (neg_flag <=? y)).
Definition normal_b (d : list Z) : bool :=
  forallb digit_b d &&
  match rev d with
  | [] => false
  | [_] => true
  | x :: y :: _ => negb (redundant_b y x)
  end.

Lemma digit_b_ok x : digit_b x = true -> digit x.
Proof. unfold digit_b. rewrite andb_true_iff, Z.leb_le, Z.ltb_lt. ub. lia. Qed.

Lemma normal_check d : normal_b d = true -> normal d.
Proof.
  unfold normal_b. rewrite andb_true_iff. intros [F H].
  assert (Fd : Forall digit d).
  { apply Forall_forall. intros x Hx. apply digit_b_ok. rewrite forallb_forall in F. auto. }
  assert (E : d = rev (rev d)) by (symmetry; apply rev_involutive).
  destruct (rev d) as [|x [|y t]]; [discriminate| |].
  - cbn in E. subst d. apply normal_1. inversion Fd; assumption.
  - cbn [rev] in E. rewrite <- app_assoc in E. cbn [app] in E. rewrite E in Fd |- *.
    apply Forall_app in Fd as [F1 F2]. inversion F2 as [|? ? Hy F3]; inversion F3; subst.
    apply normal_top2; auto. unfold redundant. intros R.
    apply negb_true_iff in H. unfold redundant_b in H.
    apply orb_false_iff in H. rewrite !andb_false_iff, !Z.eqb_neq, Z.ltb_ge, Z.leb_gt in H. lia.
Qed.

Ltac norm := apply normal_check; vm_compute; reflexivity.
