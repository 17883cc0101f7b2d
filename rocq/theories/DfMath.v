(** Automorphisms of root data that permute the simple roots. *)

From Coq Require Import List Arith ZArith Bool Lia.
From Verif Require Import MatSpec MatLin LieTypeSpec RootSpec RootMath RootForm RootFin RootCo RootAcc RootBasis DatSpec DatMath.
Import ListNotations.
Local Open Scope Z_scope.

Section Based.
Variables (r n : nat) (al be : nat -> list Z) (C : nat -> nat -> Z).
Hypothesis La : forall i, (i < n)%nat -> length (al i) = r.
Hypothesis Lb : forall i, (i < n)%nat -> length (be i) = r.
Hypothesis HC : forall i j, (i < n)%nat -> (j < n)%nat -> dot r (al i) (be j) = C i j.
Hypothesis gd : good n C.
Notation emb := (comb r n al).
Notation sv := (fun i => reflect_at r (al i) (be i)).
Notation act := (act_by r al be).
Notation letters := (Forall (fun i => (i < n)%nat)).
(** [T] is linear, permutes the simple roots by [pi] and keeps their pairings *)
Definition keeps_base (T : list Z -> list Z) (pi : nat -> nat) : Prop :=
  (forall v, length v = r -> length (T v) = r) /\
  (forall v c a, length v = r -> length a = r -> T (away r v c a) = away r (T v) c (T a)) /\
  (forall i, (i < n)%nat -> (pi i < n)%nat /\ T (al i) = al (pi i)) /\
  (forall v i, length v = r -> (i < n)%nat -> dot r (T v) (be (pi i)) = dot r v (be i)).
Lemma kb_comp T U pi rho : keeps_base T pi -> keeps_base U rho -> keeps_base (fun v => T (U v)) (fun i => pi (rho i)).
Proof.
  intros (T1 & T2 & T3 & T4) (U1 & U2 & U3 & U4). split; [auto|]. split; [intros v c a Hv Ha; rewrite U2, T2 by auto; reflexivity|]. split.
  - intros i Hi. destruct (U3 i Hi) as [Q E]. split; [apply (T3 _ Q)|]. rewrite E. apply (T3 _ Q).
  - intros v i Hv Hi. rewrite T4; [apply U4; assumption|auto|apply (U3 _ Hi)].
Qed.
Lemma kb_act T pi ww v : keeps_base T pi -> letters ww -> length v = r -> T (act ww v) = act (map pi ww) (T v).
Proof.
  intros (T1 & T2 & T3 & T4) L Hv. induction ww as [|i ww IH]; [reflexivity|]. pose proof (Forall_inv L) as Hi. cbn beta in Hi.
  cbn [act_by fold_right map]. change (fold_right (fun i0 : nat => reflect_at r (al i0) (be i0)) v ww) with (act ww v). change (fold_right (fun i0 : nat => reflect_at r (al i0) (be i0)) (T v) (map pi ww)) with (act (map pi ww) (T v)).
  assert (Lw : length (act ww v) = r) by (apply (act_length r al be); exact Hv).
  rewrite <- (IH (Forall_inv_tail L)). unfold reflect_at. rewrite T2 by auto. rewrite (proj2 (T3 i Hi)), (T4 _ i Lw Hi). reflexivity.
Qed.
Lemma kb_letters T pi ww : keeps_base T pi -> letters ww -> letters (map pi ww).
Proof. intros (_ & _ & T3 & _) L. apply Forall_forall. intros x Hx. apply in_map_iff in Hx. destruct Hx as (i & <- & Hi). rewrite Forall_forall in L. apply (T3 i (L i Hi)). Qed.
Lemma len_ext v w : length v = r -> length w = r -> (forall k, (k < r)%nat -> co v k = co w k) -> v = w.
Proof. intros H1 H2 H. apply vec_ext; [lia|]. rewrite H1. exact H. Qed.
(** in the Weyl group there is only the identity *)
Lemma kb_identity T pi ww v : keeps_base T pi -> letters ww -> (forall v, length v = r -> T v = act ww v) -> length v = r -> T v = v.
Proof.
  intros K L E Hv. rewrite E by exact Hv. pose proof K as (T1 & T2 & T3 & T4). apply (keeps_identity r n al be C La Lb HC gd); try assumption. intros j Hj.
  assert (Q : word_act n C ww (basis n j) = basis n (pi j)).
  { apply (emb_inj r n al be C HC gd); [apply word_act_length; apply basis_length|apply basis_length|].
    rewrite (emb_act r n al be C La HC) by (try assumption; apply basis_length). rewrite (comb_basis r n al j) by auto. rewrite (comb_basis r n al (pi j)) by (try apply La; apply (T3 j Hj)).
    rewrite <- E by auto. apply (T3 j Hj). }
  rewrite Q. apply up_simple. apply (T3 j Hj).
Qed.
(** if [T] and [U] keep the base, [T = w.U'] with [U'] of order 2 on all vectors ... *)
Lemma kb_involution T pi q ww : keeps_base T pi -> letters ww -> (forall v, length v = r -> length (q v) = r /\ q (q v) = v /\ T v = act ww (q v)) ->
  forall v, length v = r -> T (T v) = v.
Proof.
  intros K L E v Hv. pose proof K as (T1 & T2 & T3 & T4).
  assert (Q : forall v, length v = r -> q v = act (rev ww) (T v)).
  { intros x Hx. destruct (E x Hx) as (q1 & _ & ->). rewrite (rev_act r n al be C La HC gd); auto. }
  assert (Lr : letters (rev ww)) by (apply Forall_rev; exact L).
  apply (kb_identity (fun v => T (T v)) (fun i => pi (pi i)) (rev (rev ww ++ map pi (rev ww)))); try assumption.
  - apply kb_comp; assumption.
  - apply Forall_rev. apply Forall_app. split; [exact Lr|]. eapply kb_letters; eassumption.
  - intros x Hx. destruct (E x Hx) as (q1 & q2 & _).
    assert (Z0 : act (rev ww ++ map pi (rev ww)) (T (T x)) = x).
    { rewrite (act_app r al be). rewrite <- (kb_act T pi) by auto. rewrite <- (Q x Hx), <- (Q (q x) q1). exact q2. }
    rewrite <- (rev_act r n al be C La HC gd (rev ww ++ map pi (rev ww)) (T (T x))); [rewrite Z0; reflexivity| |auto]. apply Forall_app. split; [exact Lr|]. eapply kb_letters; eassumption.
Qed.
(** an involution has an involution of the simple roots *)
Lemma kb_perm T pi : keeps_base T pi -> (forall v, length v = r -> T (T v) = v) -> forall i, (i < n)%nat -> pi (pi i) = i.
Proof.
  intros (T1 & T2 & T3 & T4) E i Hi. destruct (T3 i Hi) as [Q1 Q2]. destruct (T3 _ Q1) as [Q3 Q4]. pose proof (E _ (La i Hi)) as Z0. rewrite Q2, Q4 in Z0.
  assert (W : basis n (pi (pi i)) = basis n i).
  { apply (emb_inj r n al be C HC gd); try apply basis_length. rewrite !comb_basis by auto. exact Z0. }
  destruct (Nat.eq_dec (pi (pi i)) i) as [Y|Y]; [exact Y|]. exfalso. assert (X : co (basis n (pi (pi i))) i = co (basis n i) i) by (rewrite W; reflexivity).
  rewrite !co_basis in X by assumption. rewrite Nat.eqb_refl in X. replace (pi (pi i) =? i)%nat with false in X by (symmetry; apply Nat.eqb_neq; exact Y). rewrite Nat.eqb_sym in X. apply Nat.eqb_neq in Y. try rewrite Y in X. lia.
Qed.
(** an involution keeping the base, times [-1] times a Weyl group element keeping the base *)
Lemma kb_central T pi q rho ww : keeps_base T pi -> keeps_base q rho -> letters ww ->
  (forall v, length v = r -> q (q v) = v) -> (forall v, length v = r -> T v = opp (act ww v)) ->
  forall v, length v = r -> q (T (q (T v))) = v.
Proof.
  intros K Kq L Q E v Hv. pose proof K as (T1 & T2 & T3 & T4). pose proof Kq as (q1 & q2 & q3 & q4).
  assert (Op : forall x, length x = r -> q (opp x) = opp (q x)).
  { intros x Hx. assert (X : opp x = away r x 2 x) by (apply len_ext; [rewrite opp_length; exact Hx|apply away_length|intros k Hk; rewrite co_away by assumption; rewrite co_opp; lia]).
    rewrite X. rewrite q2 by assumption. apply len_ext; [apply away_length|rewrite opp_length; auto|intros k Hk; rewrite co_away by auto; rewrite co_opp; lia]. }
  assert (Ao : forall w x, letters w -> length x = r -> act w (opp x) = opp (act w x)).
  { intros w x Lw Hx. induction w as [|i w IH]; [reflexivity|]. specialize (IH (Forall_inv_tail Lw)). pose proof (Forall_inv Lw) as Hi. cbn beta in Hi. cbn [act_by fold_right]. change (fold_right (fun i0 : nat => reflect_at r (al i0) (be i0)) (opp x) w) with (act w (opp x)). rewrite IH.
    change (fold_right (fun i0 : nat => reflect_at r (al i0) (be i0)) x w) with (act w x). set (y := act w x). unfold reflect_at. rewrite dot_opp.
    assert (Ly : length y = r) by (apply (act_length r al be); exact Hx).
    apply len_ext; [apply away_length|rewrite opp_length; apply away_length|]. intros k Hk. rewrite co_opp, !co_away by (try rewrite opp_length; auto). rewrite co_opp. lia. }
  apply (kb_identity (fun v => q (T (q (T v)))) (fun i => rho (pi (rho (pi i)))) (map rho ww ++ ww)); try assumption.
  - apply (kb_comp (fun v => q (T v)) (fun v => q (T v)) (fun i => rho (pi i)) (fun i => rho (pi i))); apply kb_comp; assumption.
  - apply Forall_app. split; [eapply kb_letters; eassumption|exact L].
  - intros x Hx. rewrite (act_app r al be). set (y := act ww x). assert (Ly : length y = r) by (apply (act_length r al be); exact Hx).
    rewrite (E x Hx). fold y. rewrite (Op y Ly). rewrite E by (rewrite opp_length; auto). rewrite (Ao ww) by auto. rewrite opp_opp.
    rewrite (kb_act q rho) by auto. rewrite Q by exact Ly. reflexivity.
Qed.
End Based.
