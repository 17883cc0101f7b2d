(** The action on the parities of weights of a map between two involutions. *)

From Coq Require Import List Arith ZArith Bool Lia.
From Verif Require Import F2Model F2Spec F2Proofs.
From Verif Require Import VecModel RunModel RunProofs MatModel MatSpec MatLin MatRing MatProofs MatArith ToriSpec ToriLat ToriProofs UqModel UqSpec UqMath UqProofs.
Import ListNotations.
Local Open Scope Z_scope.

Section Act.
Variable dim : nat.
Variable fits : Z -> bool.
Variables (n k k' : nat) (th m g th' m' g' f : nat -> nat -> Z) (i0 i1 : irec) (delta : matrix Z).
Hypothesis H0 : record_at n k th m g i0.
Hypothesis H1 : record_at n k' th' m' g' i1.
Hypothesis Hd : is_mx delta n n f.
Hypothesis twine : feq n n (fmul n f th) (fmul n th' f).
Local Notation F := (proj2 (proj2 (proj2 (proj2 H0)))).
Local Notation inv := (proj1 (proj2 (proj2 (proj2 H0)))).
Local Notation F' := (proj2 (proj2 (proj2 (proj2 H1)))).
Local Notation inv' := (proj1 (proj2 (proj2 (proj2 H1)))).
Lemma twine_anti x i : (i < n)%nat -> fapply n f (anti n th x) i = anti n th' (fapply n f x) i.
Proof.
  intros Hi. unfold anti. rewrite (fapply_sub n f x (fapply n th x)). f_equal. rewrite !fapply_fapply. apply fapply_mat. intros j Hj. apply twine; assumption.
Qed.
Lemma y_act_run y x : (k <= dim)%nat -> (k' <= dim)%nat -> bsize y = k -> mod2 k (fapply n m x) (data y) ->
  gives (y_act dim fits i0 i1 y delta) (fun u => bsize u = k' /\ mod2 k' (fapply n m' (fapply n f x)) (data u)) (overflows fits).
Proof.
  intros Hk Hk' Sy Y. unfold y_act.
  destruct (proj2 (proj2 F) (bit (data y))) as (w & Hw).
  assert (G : forall i, (i < n)%nat -> fapply k g (bit (data y)) i = anti n th w i).
  { intros i Hi. rewrite <- (fac_apply n k th m g F w i Hi). apply fapply_ext. intros j Hj. symmetry. apply Hw; exact Hj. }
  eapply gives_bind; [apply (y_lift_run dim fits n k th m g i0 H0 y Hk Sy)|]. intros v Hv.
  eapply gives_bind; [apply (apply_run fits delta n n f v _ Hd Hv)|]. intros u Hu.
  assert (M : forall j, (j < k')%nat -> fapply n m' (fapply n f (fapply k g (bit (data y)))) j = 2 * fapply n m' (fapply n f w) j).
  { intros j Hj. rewrite <- (fac_anti n k' th' m' g' F' inv' (fapply n f w) j Hj). apply fapply_ext. intros i Hi. rewrite <- twine_anti by exact Hi. apply fapply_ext. exact G. }
  eapply RatVecProofs.gives_conv; [| |apply (y_unlift_run dim fits n k' th' m' g' i1 H1 u _ Hk' Hu)].
  - intros b (Sb & t & Ht & Hb). split; [exact Sb|]. apply (mod2_ext k' t); [|exact Hb]. intros j Hj.
    specialize (Ht j Hj). rewrite M in Ht by exact Hj. assert (Et : t j = fapply n m' (fapply n f w) j) by lia. rewrite Et.
    rewrite Z.even_sub, !even_odd.
    assert (P : Z.odd (fapply n m' (fapply n f w) j) = Z.odd (fapply n m' (fapply n f x) j)); [|rewrite P; apply eqb_reflx].
    revert j Hj Ht Et. intros j Hj _ _. revert j Hj. apply (pack_same n k' th' m' g' F').
    assert (Q : forall j, (j < k)%nat -> Z.odd (fapply n m w j) = Z.odd (fapply n m x j)).
    { intros j Hj. rewrite Hw by exact Hj. rewrite <- (proj2 Y j Hj). unfold bit. destruct (coord (data y) j); reflexivity. }
    apply (pack_same n k th m g F) in Q. destruct Q as (z & Hz). exists (fapply n f z). intros i Hi. rewrite <- !twine_anti by exact Hi. rewrite <- fapply_sub, <- fapply_scale.
    apply fapply_ext. exact Hz.
  - intros e [(_ & j & Hj & Nj)|B]; [|exact B]. exfalso. apply Nj. rewrite M by exact Hj. exists (fapply n m' (fapply n f w) j). ring.
Qed.
End Act.
