(** Global Tits groups: construction. *)

From Coq Require Import List Arith ZArith QArith Lia Bool.
From Verif Require Import RunModel RunProofs MatModel MatSpec MatLin MatProofs MatOps RootSpec RootMath DatModel DatSpec DatMath DatProofs DatOps DatProps DfSpec
  WeylModel WeylSpec TwistSpec GtModel GtSpec.
Import ListNotations.
Open Scope nat_scope.

Theorem make_global_run r n A B p W f dl g : based r n A B p -> weyl_of n (pairings r A B) W -> twist_of n (pairings r A B) f -> is_mx dl r r g ->
  permutes_simple r n A B g (fun s => nth s f 0) -> involutive r g ->
  gives (make_global p W f dl) (fun G => gt_W G = W /\ global_of r n B A (pairings r A B) f (fun i j => g j i) G) (fun _ => False).
Proof.
  intros (HA & HB & _) HW TW HM PS IV. unfold make_global. eapply gives_bind; [eapply transposed_ok; exact HM|]. intros mt Hmt. cbn [gives gt_W]. split; [reflexivity|].
  split; [exact HW|]. split; [reflexivity|]. split; [exact HB|]. split; [exact HA|]. split; [exact Hmt|].
  assert (FL : forall s, s < n -> nth s f 0 < n /\ nth (nth s f 0) f 0 = s) by (destruct TW as (_ & X & _); exact X).
  split; [exact TW|]. split; [|split; [|split]].
  - intros s t Hs Ht. unfold pairings, dot. apply zsum_ext. intros k Hk. now rewrite !co_fcol.
  - intros i j Hi Hj. specialize (IV (basis r i) (basis_length r i)). apply (f_equal (fun v => co v j)) in IV. unfold image_by in IV at 2. rewrite comb_basis in IV by (auto using fcol_length). unfold image_by in IV. rewrite co_comb in IV by auto.
    rewrite co_basis in IV by auto. rewrite (Nat.eqb_sym i j), <- IV. apply zsum_ext. intros k Hk. now rewrite !co_fcol by auto.
  - intros s i Hs Hi. destruct (FL s Hs) as [Fs Fss]. destruct (PS (nth s f 0) Fs) as (_ & _ & Q0). specialize (Q0 (basis r i) (basis_length r i)). rewrite Fss in Q0.
    unfold image_by in Q0. rewrite comb_basis in Q0 by (auto using fcol_length).
    assert (E : dot r (basis r i) (fcol r B (nth s f 0)) = co (fcol r B (nth s f 0)) i) by (rewrite dot_comm; apply dot_basis; auto using fcol_length).
    rewrite E, co_fcol in Q0 by auto. rewrite <- Q0. unfold dot. apply zsum_ext. intros j Hj. now rewrite !co_fcol.
  - intros s j Hs Hj. destruct (FL s Hs) as [Fs Fss]. destruct (PS (nth s f 0) Fs) as (_ & Q0 & _). rewrite Fss in Q0. apply (f_equal (fun v => co v j)) in Q0. unfold image_by in Q0. rewrite co_comb, (co_fcol r A s j Hj) in Q0 by auto.
    rewrite <- Q0. apply zsum_ext. intros i Hi. now rewrite !co_fcol.
Qed.
