(** Column operations preserve the column span. *)

From Coq Require Import List Arith ZArith Lia Bool.
From Verif Require Import VecModel VecProofs MatModel MatSpec MatProofs MatRing MatDet RedSpec MatLin RedModel RedGcd RedEchelon RedSolve RedInverse RedDiag RedSystem.
Open Scope nat_scope.

Lemma span_ok m n f gamma r g : r <= n -> unimodular n gamma ->
  feq m n (fmul n f gamma) (fun a b => if b <? r then g a b else 0%Z) -> same_span m n f r g.
Proof.
  intros Hr (gamma' & G1 & G2) HF v.
  assert (X : forall z a, a < m -> fapply n f (fapply n gamma z) a = fapply r g z a).
  { intros z a Ha. rewrite fapply_fmul. unfold fapply. rewrite (zsum_range n 0 r) by (try lia; intros i Hi Ho; rewrite HF by assumption; nb; lia).
    apply zsum_ext. intros b Hb. cbn [Nat.add]. rewrite HF by lia. nb. }
  split; intros [y Hy].
  - exists (fapply n gamma' y). intros a Ha. rewrite <- X by exact Ha. rewrite <- Hy by exact Ha.
    apply fapply_ext; [reflexivity|]. intros b Hb. rewrite fapply_fmul.
    rewrite (fapply_ext n _ delta y y b) by (try reflexivity; intros; apply G1; assumption). apply fapply_delta. exact Hb.
  - exists (fapply n gamma y). intros a Ha. rewrite X by exact Ha. apply Hy. exact Ha.
Qed.
