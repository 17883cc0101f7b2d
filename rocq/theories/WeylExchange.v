(** The exchange condition, and the longest element, for a group given by the relations of
    a Coxeter matrix in which equality can be decided *)

From Coq Require Import List Arith ZArith Lia Bool.
From Verif Require Import WeylSpec WeylTable.
Import ListNotations.
Open Scope nat_scope.

Lemma same_over n m u v : same n m u v -> (over n u <-> over n v).
Proof.
  assert (AL : forall k s t, s < n -> t < n -> over n (alt k s t)).
  { induction k as [|k IH]; intros s t Hs Ht x I; cbn in I; [destruct I|]. destruct I as [<-|I]; [auto|]. exact (IH t s Ht Hs x I). }
  induction 1 as [u|u v H IH|u v w H1 IH1 H2 IH2|u u' v v' H1 IH1 H2 IH2|s Hs|s t Hs Ht Hn].
  - reflexivity.
  - now symmetry.
  - now rewrite IH1.
  - rewrite !over_app. now rewrite IH1, IH2.
  - split; intros _ x I; [destruct I|]. destruct I as [<-|[<-|[]]]; auto.
  - split; intros _; apply AL; auto.
Qed.
Lemma same_parity n m u v : same n m u v -> Nat.even (length u) = Nat.even (length v).
Proof.
  induction 1 as [u|u v H IH|u v w H1 IH1 H2 IH2|u u' v v' H1 IH1 H2 IH2|s Hs|s t Hs Ht Hn]; auto.
  - congruence.
  - rewrite !app_length, !Nat.even_add. congruence.
  - now rewrite !alt_length.
Qed.
Lemma over_cons n s u : over n (s :: u) <-> s < n /\ over n u.
Proof.
  unfold over. split.
  - intros H. split; [apply H; now left|]. intros x I. apply H. now right.
  - intros [A B] x [<-|I]; auto.
Qed.
Lemma over_nil n : over n [].
Proof. intros x []. Qed.
Lemma over_one n s : s < n -> over n [s].
Proof. intros H x [<-|[]]. auto. Qed.

(** exclusive or of the first [k] values *)
Fixpoint xors (k : nat) (f : nat -> bool) : bool := match k with O => false | S k => xorb (f 0) (xors k (fun i => f (S i))) end.
Lemma xors_ext k : forall f g, (forall i, i < k -> f i = g i) -> xors k f = xors k g.
Proof. induction k as [|k IH]; intros f g H; cbn; [auto|]. rewrite H by lia. f_equal. apply IH. intros i Hi. apply H. lia. Qed.
Lemma xors_last k : forall f, xors (S k) f = xorb (xors k f) (f k).
Proof.
  induction k as [|k IH]; intros f; [cbn; destruct (f 0); auto|]. cbn [xors] in *. rewrite (IH (fun i => f (S i))). now rewrite xorb_assoc.
Qed.
Lemma xors_rev k : forall f, xors k f = xors k (fun i => f (k - 1 - i)).
Proof.
  induction k as [|k IH]; intros f; [auto|]. rewrite xors_last. rewrite (IH f), xorb_comm. cbn [xors]. f_equal.
  - f_equal. lia.
  - apply xors_ext. intros i Hi. f_equal. lia.
Qed.

Section Exchange.
Variables (n : nat) (m : nat -> nat -> nat).
Hypothesis SYM : forall s t, m s t = m t s.
Variable eqw : list nat -> list nat -> bool.
Hypothesis EQW : forall u v, over n u -> over n v -> (eqw u v = true <-> same n m u v).
Notation "u ~ v" := (same n m u v) (at level 70).

Lemma eqw_same a b c d : over n a -> over n b -> over n c -> over n d -> (a ~ b <-> c ~ d) -> eqw a b = eqw c d.
Proof.
  intros A B C D H. apply eq_true_iff_eq. rewrite (EQW a b A B), (EQW c d C D). exact H.
Qed.

(** parity of the number of letters [s] of [u], [u = a s b], with [a s a^-1] the same as [t] *)
Fixpoint eta (u t : list nat) : bool := match u with [] => false | s :: u => xorb (eqw t [s]) (eta u (s :: t ++ [s])) end.

Lemma over_conj s t : s < n -> over n t -> over n (s :: t ++ [s]).
Proof. intros A B. apply over_cons. split; [auto|]. apply over_app. split; [auto|now apply over_one]. Qed.
Lemma conj_move s a b : s < n -> s :: a ++ [s] ~ b <-> a ~ s :: b ++ [s].
Proof.
  intros Hs. assert (X : forall x, s :: (s :: x ++ [s]) ++ [s] ~ x).
  { intros x. change (s :: (s :: x ++ [s]) ++ [s]) with ([s; s] ++ (x ++ [s]) ++ [s]).
    apply (same_trans n m _ ([] ++ x)); [|apply same_refl]. apply same_app; [now apply same_square|]. rewrite <- app_assoc. now apply same_undo. }
  assert (Y : forall x y, x ~ y -> s :: x ++ [s] ~ s :: y ++ [s]) by (intros x y H; apply same_cons, same_snoc, H).
  split; intros H.
  - apply (same_trans n m _ (s :: (s :: a ++ [s]) ++ [s])); [apply same_sym, X|]. now apply Y.
  - apply (same_trans n m _ (s :: (s :: b ++ [s]) ++ [s])); [now apply Y|]. apply X.
Qed.
Lemma eta_ext u : forall t t', over n u -> over n t -> t ~ t' -> eta u t = eta u t'.
Proof.
  induction u as [|s u IH]; intros t t' O Ot H; cbn [eta]; [auto|]. apply over_cons in O. destruct O as [Os Ou].
  pose proof (proj1 (same_over n m _ _ H) Ot) as Ot'. f_equal.
  - apply eqw_same; auto using over_one. split; intros E; eapply same_trans; eauto using same_sym.
  - apply IH; auto using over_conj. apply same_cons, same_snoc, H.
Qed.
Lemma eta_app u : forall v t, over n u -> over n v -> over n t -> eta (u ++ v) t = xorb (eta u t) (eta v (rev u ++ t ++ u)).
Proof.
  induction u as [|s u IH]; intros v t O Ov Ot; cbn [eta app rev]; [rewrite app_nil_r; now destruct (eta v t)|].
  apply over_cons in O. destruct O as [Os Ou]. rewrite IH; auto using over_conj. rewrite xorb_assoc. f_equal. f_equal.
  f_equal. rewrite <- !app_assoc. cbn [app]. now rewrite <- !app_assoc.
Qed.
Lemma eta_alt k : forall s t r, s < n -> t < n -> over n r -> eta (alt k s t) r = xors k (fun i => eqw r (alt (2 * i + 1) s t)).
Proof.
  assert (AL : forall k s t, s < n -> t < n -> over n (alt k s t)).
  { clear k. induction k as [|k IH]; intros s t Hs Ht x I; cbn in I; [destruct I|]. destruct I as [<-|I]; [auto|]. exact (IH t s Ht Hs x I). }
  induction k as [|k IH]; intros s t r Hs Ht Or; cbn [eta alt xors]; [auto|]. f_equal. rewrite IH by auto using over_conj.
  apply xors_ext. intros i Hi. replace (2 * S i + 1) with (S (S (2 * i + 1))) by lia.
  apply eqw_same; auto using over_conj. rewrite conj_move by auto. cbn [alt].
  replace (s :: alt (2 * i + 1) t s ++ [s]) with (s :: t :: alt (2 * i + 1) s t); [reflexivity|]. f_equal.
  change (t :: alt (2 * i + 1) s t) with (alt (S (2 * i + 1)) t s). rewrite alt_snoc. f_equal.
  replace (2 * i + 1) with (S (2 * i)) by lia. rewrite Nat.even_succ, <- Nat.negb_even, Nat.even_mul. reflexivity.
Qed.
Lemma alt_flip s t : s < n -> t < n -> s <> t -> forall d, d <= m s t -> alt (m s t + d) s t ~ alt (m s t - d) t s.
Proof.
  intros Hs Ht Hn. induction d as [|d IH]; intros L.
  - rewrite Nat.add_0_r, Nat.sub_0_r. now apply same_braid.
  - rewrite Nat.add_succ_r, alt_snoc. set (x := if Nat.even (m s t + d) then s else t).
    apply (same_trans n m _ (alt (m s t - d) t s ++ [x])); [apply same_snoc, IH; lia|].
    replace (m s t - d) with (S (m s t - S d)) by lia. rewrite alt_snoc.
    replace (if Nat.even (m s t - S d) then t else s) with x; [rewrite <- app_assoc; apply same_undo; unfold x; destruct (Nat.even (m s t + d)); auto|].
    unfold x. replace (m s t + d) with (S ((m s t - S d) + 2 * d)) by lia. rewrite Nat.even_succ, <- Nat.negb_even, Nat.even_add_mul_2.
    destruct (Nat.even (m s t - S d)); auto.
Qed.
Lemma alt_mirror s t i : s < n -> t < n -> s <> t -> i < m s t -> alt (2 * i + 1) s t ~ alt (2 * (m s t - 1 - i) + 1) t s.
Proof.
  intros Hs Ht Hn Hi. destruct (Nat.le_gt_cases (m s t) (2 * i + 1)) as [L|L].
  - pose proof (alt_flip s t Hs Ht Hn (2 * i + 1 - m s t) ltac:(lia)) as F.
    replace (m s t + (2 * i + 1 - m s t)) with (2 * i + 1) in F by lia.
    replace (m s t - (2 * i + 1 - m s t)) with (2 * (m s t - 1 - i) + 1) in F by lia. exact F.
  - pose proof (alt_flip t s Ht Hs (not_eq_sym Hn) (m s t - (2 * i + 1)) ltac:(rewrite (SYM t s); lia)) as F. rewrite (SYM t s) in F.
    replace (m s t + (m s t - (2 * i + 1))) with (2 * (m s t - 1 - i) + 1) in F by lia.
    replace (m s t - (m s t - (2 * i + 1))) with (2 * i + 1) in F by lia. now apply same_sym.
Qed.
Lemma over_alt k : forall s t, s < n -> t < n -> over n (alt k s t).
Proof. induction k as [|k IH]; intros s t Hs Ht x I; cbn in I; [destruct I|]. destruct I as [<-|I]; [auto|]. exact (IH t s Ht Hs x I). Qed.

Theorem eta_same u v : u ~ v -> over n u -> forall t, over n t -> eta u t = eta v t.
Proof.
  induction 1 as [u|u v H IH|u v w H1 IH1 H2 IH2|u u' v v' H1 IH1 H2 IH2|s Hs|s t Hs Ht Hn]; intros O r Or.
  - auto.
  - symmetry. apply IH; auto. now apply (same_over n m _ _ H).
  - rewrite IH1 by auto. apply IH2; auto. now apply (same_over n m _ _ H1).
  - apply over_app in O. destruct O as [Ou Ov]. pose proof (proj1 (same_over n m _ _ H1) Ou) as Ou'. pose proof (proj1 (same_over n m _ _ H2) Ov) as Ov'.
    assert (OO : forall x, over n x -> over n (rev x ++ r ++ x)) by (intros x Ox; apply over_app; split; [now apply over_rev|]; apply over_app; auto).
    rewrite !eta_app by auto. rewrite IH1, IH2 by auto. f_equal. apply eta_ext; auto.
    apply same_app; [|apply same_app_l; auto]. apply same_rev; auto.
  - cbn [eta]. rewrite (eqw_same (s :: r ++ [s]) [s] r [s]); auto using over_one, over_conj.
    + rewrite xorb_false_r. apply xorb_nilpotent.
    + rewrite conj_move by auto. cbn. split; intros E; [apply (same_trans n m _ _ _ E)|apply (same_trans n m _ _ _ E); apply same_sym].
      * apply (same_undo n m [s]). auto.
      * apply (same_undo n m [s]). auto.
  - rewrite !eta_alt by auto. rewrite xors_rev. apply xors_ext. intros i Hi. apply eqw_same; auto using over_alt.
    pose proof (alt_mirror t s i Ht Hs (not_eq_sym Hn) ltac:(rewrite (SYM t s); lia)) as M. rewrite (SYM t s) in M.
    split; intros E; eapply same_trans; eauto using same_sym.
Qed.

(** the letter that [eta] finds *)
Lemma eta_letter u : forall t, over n u -> over n t -> eta u t = true -> exists a s b, u = a ++ s :: b /\ t ~ a ++ [s] ++ rev a.
Proof.
  induction u as [|s u IH]; intros t O Ot E; cbn [eta] in E; [discriminate|]. apply over_cons in O. destruct O as [Os Ou].
  destruct (eqw t [s]) eqn:Q.
  - exists [], s, u. split; [auto|]. cbn. apply EQW; auto using over_one.
  - cbn in E. destruct (IH (s :: t ++ [s]) Ou (over_conj s t Os Ot) ltac:(now destruct (eta u (s :: t ++ [s])))) as (a & x & b & -> & H).
    exists (s :: a), x, b. split; [auto|]. apply conj_move in H; [|auto]. cbn [rev app].
    replace (s :: a ++ x :: rev a ++ [s]) with (s :: (a ++ [x] ++ rev a) ++ [s]); [exact H|].
    f_equal. rewrite <- !app_assoc. reflexivity.
Qed.
Lemma eta_delete u t : over n u -> over n t -> eta u t = true -> exists a s b, u = a ++ s :: b /\ t ++ u ~ a ++ b.
Proof.
  intros O Ot E. destruct (eta_letter u t O Ot E) as (a & s & b & -> & H). exists a, s, b. split; [auto|].
  apply over_app in O. destruct O as [Oa O]. apply over_cons in O. destruct O as [Os Ob].
  apply (same_trans n m _ ((a ++ [s] ++ rev a) ++ a ++ s :: b)); [now apply same_app_r|].
  rewrite <- !app_assoc. apply same_app_l. cbn [app]. apply (same_trans n m _ (s :: [] ++ s :: b)).
  - apply same_cons. rewrite app_assoc. apply same_app_r. now apply same_inverse_l.
  - cbn. apply (same_app_r n m b [s; s] []). now apply same_square.
Qed.
(** a conjugate of a generator *)
Definition reflection (t : list nat) : Prop := exists a s, over n a /\ s < n /\ t ~ a ++ [s] ++ rev a.
Lemma reflection_over t : reflection t -> over n t.
Proof.
  intros (a & s & Oa & Hs & E). apply (same_over n m _ _ E). apply over_app. split; [auto|]. apply (over_cons n s (rev a)). split; [auto|now apply over_rev].
Qed.
Lemma over_conjug a t : over n a -> over n t -> over n (rev a ++ t ++ a).
Proof. intros A T. apply over_app. split; [now apply over_rev|]. apply over_app. auto. Qed.
Lemma eta_inverse a t : over n a -> over n t -> eta (rev a) (rev a ++ t ++ a) = eta a t.
Proof.
  intros A Ot. pose proof (eta_same (a ++ rev a) [] (same_inverse n m a A) ltac:(apply over_app; split; [auto|now apply over_rev]) t Ot) as E.
  rewrite eta_app in E by auto using over_rev. cbn [eta] in E. apply xorb_eq in E. auto.
Qed.
Lemma eta_reflection t : reflection t -> eta t t = true.
Proof.
  intros R. pose proof (reflection_over t R) as Ot. destruct R as (a & s & Oa & Hs & E).
  rewrite (eta_same _ _ E Ot) by auto. assert (Or : over n (rev a)) by now apply over_rev.
  assert (O1 : over n ([s] ++ rev a)) by (apply over_cons; auto).
  rewrite eta_app by auto. cbn [app eta]. set (t' := rev a ++ t ++ a).
  assert (Ot' : over n t') by now apply over_conjug.
  assert (X : t' ~ [s]).
  { unfold t'. apply (same_trans n m _ (rev a ++ (a ++ [s] ++ rev a) ++ a)); [apply same_app_l, same_app_r, E|].
    rewrite <- !app_assoc. rewrite (app_assoc (rev a) a). apply (same_trans n m _ ([] ++ [s] ++ [])); [|apply same_refl].
    apply same_app; [now apply same_inverse_l|]. apply same_app_l. now apply same_inverse_l. }
  assert (Y : s :: t' ++ [s] ~ t').
  { apply (same_trans n m _ [s]); [|now apply same_sym]. apply conj_move; [auto|]. cbn. apply (same_trans n m _ [s]); [auto|].
    apply same_sym. apply (same_undo n m [s] s). auto. }
  rewrite (proj2 (EQW t' [s] Ot' (over_one n s Hs)) X). rewrite (eta_ext (rev a) _ t') by auto using over_conj.
  unfold t'. rewrite eta_inverse by auto. destruct (eta a t); auto.
Qed.

(** *** lengths *)
Variable ell : list nat -> nat.
Hypothesis ELL : forall u, over n u -> shortest n m u (ell u).

Lemma ell_le u : over n u -> ell u <= length u.
Proof. intros O. destruct (ELL u O) as [_ H]. apply H; [auto|apply same_refl]. Qed.
Lemma ell_word u : over n u -> exists v, over n v /\ u ~ v /\ length v = ell u.
Proof. intros O. destruct (ELL u O) as [(v & A & B & C) _]. eauto. Qed.
Lemma ell_same u v : over n u -> u ~ v -> ell u = ell v.
Proof.
  intros O H. pose proof (proj1 (same_over n m _ _ H) O) as O'.
  destruct (ELL u O) as [(a & A1 & A2 & A3) A]. destruct (ELL v O') as [(b & B1 & B2 & B3) B].
  assert (ell u <= length b) by (apply A; [auto|]; eauto using same_trans). assert (ell v <= length a) by (apply B; [auto|]; eauto using same_trans, same_sym). lia.
Qed.
Lemma ell_nil : ell [] = 0.
Proof. pose proof (ell_le [] (over_nil n)). cbn in H. lia. Qed.
Lemma ell_zero u : over n u -> ell u = 0 -> u ~ [].
Proof. intros O E. destruct (ell_word u O) as (v & _ & H & L). rewrite E in L. destruct v; [auto|discriminate]. Qed.
Lemma ell_parity u : over n u -> Nat.even (ell u) = Nat.even (length u).
Proof. intros O. destruct (ell_word u O) as (v & _ & H & L). rewrite <- L. symmetry. now apply (same_parity n m). Qed.
Lemma ell_app u v : over n u -> over n v -> ell (u ++ v) <= ell u + ell v.
Proof.
  intros Ou Ov. destruct (ell_word u Ou) as (a & A1 & A2 & A3). destruct (ell_word v Ov) as (b & B1 & B2 & B3).
  rewrite (ell_same (u ++ v) (a ++ b)); [|now apply over_app|now apply same_app].
  rewrite <- A3, <- B3, <- app_length. apply ell_le. now apply over_app.
Qed.
Lemma ell_rev u : over n u -> ell (rev u) = ell u.
Proof.
  assert (X : forall u, over n u -> ell (rev u) <= ell u).
  { intros v O. destruct (ell_word v O) as (a & A1 & A2 & A3). rewrite (ell_same (rev v) (rev a)); [|now apply over_rev|apply same_rev; auto].
    rewrite <- A3, <- rev_length. apply ell_le. now apply over_rev. }
  intros O. pose proof (X u O). pose proof (X (rev u) (over_rev n u O)) as Y. rewrite rev_involutive in Y. lia.
Qed.
Lemma ell_cons s u : s < n -> over n u -> ell (s :: u) = S (ell u) \/ ell u = S (ell (s :: u)).
Proof.
  intros Hs O. assert (O1 : over n (s :: u)) by now apply over_cons.
  pose proof (ell_app [s] u (over_one n s Hs) O) as A. cbn [app] in A. pose proof (ell_le [s] (over_one n s Hs)) as B. cbn in B.
  pose proof (ell_app [s] (s :: u) (over_one n s Hs) O1) as C. cbn [app] in C.
  rewrite (ell_same (s :: s :: u) u) in C; [|apply over_cons; auto|apply (same_app_r n m u [s; s] []); now apply same_square].
  assert (P : ell (s :: u) <> ell u).
  { intros E. pose proof (ell_parity (s :: u) O1) as P1. pose proof (ell_parity u O) as P2. rewrite E, P2 in P1. cbn [length] in P1.
    rewrite Nat.even_succ, <- Nat.negb_even in P1. destruct (Nat.even (length u)); discriminate. }
  lia.
Qed.
Lemma ell_snoc s u : s < n -> over n u -> ell (u ++ [s]) = S (ell u) \/ ell u = S (ell (u ++ [s])).
Proof.
  intros Hs O. rewrite <- (ell_rev (u ++ [s])) by (apply over_app; split; [auto|now apply over_one]). rewrite rev_app_distr. cbn [rev app].
  rewrite <- (ell_rev u O). apply ell_cons; auto using over_rev.
Qed.

(** [eta u t] tells whether the reflection [t] makes [u] shorter *)
Theorem eta_descent u t : over n u -> reflection t -> (eta u t = true <-> ell (t ++ u) < ell u).
Proof.
  assert (X : forall v r, over n v -> over n r -> eta v r = true -> ell (r ++ v) < ell v).
  { intros v r Ov Or E. destruct (ell_word v Ov) as (a & A1 & A2 & A3). rewrite (eta_same v a A2 Ov r Or) in E.
    destruct (eta_delete a r A1 Or E) as (c & s & d & -> & H). rewrite (ell_same (r ++ v) (c ++ d)).
    - rewrite <- A3. rewrite app_length. cbn. apply over_app in A1. destruct A1 as [C1 C2]. apply over_cons in C2. destruct C2 as [_ C2].
      pose proof (ell_le (c ++ d) ltac:(now apply over_app)) as L. rewrite app_length in L. lia.
    - now apply over_app.
    - apply (same_trans n m _ (r ++ c ++ s :: d)); [now apply same_app_l|auto]. }
  intros Ou R. pose proof (reflection_over t R) as Ot. split; [now apply X|]. intros L.
  destruct (eta u t) eqn:E; [auto|exfalso].
  assert (Q : t ++ t ~ []).
  { destruct R as (a & s & Oa & Hs & H). apply (same_trans n m _ ((a ++ [s] ++ rev a) ++ a ++ [s] ++ rev a)); [now apply same_app|].
    rewrite <- !app_assoc. rewrite (app_assoc (rev a) a). apply (same_trans n m _ (a ++ [s] ++ [] ++ [s] ++ rev a)).
    - apply same_app_l, same_app_l, same_app_r. now apply same_inverse_l.
    - cbn [app]. apply (same_trans n m _ (a ++ [] ++ rev a)); [|now apply same_inverse]. apply same_app_l. apply (same_app_r n m (rev a) [s; s] []). now apply same_square. }
  assert (Otu : over n (t ++ u)) by now apply over_app.
  assert (E2 : eta (t ++ u) t = true).
  { rewrite eta_app by auto. rewrite (eta_reflection t R). rewrite (eta_ext u _ t); [now rewrite E|auto|now apply over_conjug|].
    assert (RT : rev t ~ t).
    { apply (same_cancel_r n m _ _ t Ot). apply (same_trans n m _ []); [now apply same_inverse_l|now apply same_sym]. }
    apply (same_trans n m _ (t ++ t ++ t)); [now apply same_app_r|]. rewrite app_assoc. apply (same_app_r n m t (t ++ t) []). auto. }
  pose proof (X (t ++ u) t Otu Ot E2) as Y. rewrite (ell_same (t ++ t ++ u) u) in Y; [lia| |].
  - apply over_app; auto.
  - rewrite app_assoc. apply (same_app_r n m u (t ++ t) []). auto.
Qed.
Lemma generator_reflection s : s < n -> reflection [s].
Proof. intros H. exists [], s. split; [apply over_nil|]. split; [auto|apply same_refl]. Qed.
(** the exchange condition, for any word *)
Theorem exchange u s : over n u -> s < n -> ell (s :: u) < ell u -> exists a x b, u = a ++ x :: b /\ s :: u ~ a ++ b.
Proof.
  intros O Hs L. apply (eta_delete u [s] O (over_one n s Hs)). apply eta_descent; auto using generator_reflection.
Qed.

(** *** an element of greatest length *)
Variable w0 : list nat.
Hypothesis W0 : over n w0.
Hypothesis MAX : forall u, over n u -> ell u <= ell w0.

Lemma w0_eta t : reflection t -> eta w0 t = true.
Proof.
  intros R. pose proof (reflection_over t R) as Ot. apply eta_descent; auto.
  pose proof (MAX (t ++ w0) ltac:(now apply over_app)) as L. destruct (Nat.eq_dec (ell (t ++ w0)) (ell w0)) as [E|]; [exfalso|lia].
  pose proof (ell_parity (t ++ w0) ltac:(now apply over_app)) as P. rewrite E, (ell_parity w0 W0), app_length, Nat.even_add in P.
  destruct R as (a & s & Oa & Hs & H). rewrite (same_parity n m _ _ H), !app_length, rev_length in P. cbn [length] in P.
  replace (length a + (1 + length a)) with (S (2 * length a)) in P by lia. rewrite Nat.even_succ, <- Nat.negb_even, Nat.even_mul in P. cbn in P.
  destruct (Nat.even (length w0)); discriminate.
Qed.
Theorem ell_w0 u : over n u -> ell (u ++ w0) + ell u = ell w0.
Proof.
  intros O. destruct (ell_word u O) as (v & A & B & C). rewrite (ell_same u v O B) in *. rewrite (ell_same (u ++ w0) (v ++ w0)); [|now apply over_app|now apply same_app_r].
  clear u O B. induction v as [|s v IH]; [cbn in *; lia|]. pose proof A as A'. apply over_cons in A. destruct A as [Hs A]. cbn [length] in C.
  assert (E : ell v = length v).
  { pose proof (ell_le v A). destruct (ell_cons s v Hs A); lia. }
  specialize (IH A). rewrite E in IH. specialize (IH eq_refl).
  assert (Ow : over n (v ++ w0)) by now apply over_app.
  assert (D : ell (s :: v ++ w0) < ell (v ++ w0)).
  { apply (eta_descent (v ++ w0) [s]); auto using generator_reflection. rewrite eta_app by auto using over_one.
    rewrite w0_eta.
    - destruct (eta v [s]) eqn:Q; [exfalso|auto]. apply eta_descent in Q; auto using generator_reflection. cbn [app] in Q. lia.
    - exists (rev v), s. split; [now apply over_rev|]. split; [auto|]. rewrite rev_involutive. apply same_refl. }
  cbn [app]. destruct (ell_cons s (v ++ w0) Hs Ow); lia.
Qed.
Theorem w0_square : w0 ++ w0 ~ [].
Proof. apply ell_zero; [now apply over_app|]. pose proof (ell_w0 w0 W0). lia. Qed.
Lemma w0_rev : rev w0 ~ w0.
Proof. apply (same_cancel_r n m _ _ w0 W0). apply (same_trans n m _ []); [now apply same_inverse_l|apply same_sym, w0_square]. Qed.
Theorem w0_conjugate s : s < n -> exists t, t < n /\ w0 ++ [s] ++ w0 ~ [t].
Proof.
  intros Hs. assert (O1 : over n (w0 ++ [s])) by (apply over_app; split; [auto|now apply over_one]).
  assert (L1 : ell [s] = 1).
  { destruct (ell_cons s [] Hs (over_nil n)) as [E|E]; rewrite ell_nil in E; [auto|lia]. }
  pose proof (ell_w0 (w0 ++ [s]) O1) as A. pose proof (ell_w0 [s] (over_one n s Hs)) as B.
  assert (C : ell (w0 ++ [s]) = ell ([s] ++ w0)).
  { rewrite <- (ell_rev (w0 ++ [s]) O1). rewrite rev_app_distr. apply ell_same; [apply over_app; split; [now apply over_one|now apply over_rev]|].
    cbn [rev app]. apply same_cons, w0_rev. }
  assert (O2 : over n (w0 ++ [s] ++ w0)) by (rewrite app_assoc; now apply over_app).
  destruct (ell_word (w0 ++ [s] ++ w0) O2) as (v & V1 & V2 & V3). rewrite app_assoc in V3. assert (V4 : length v = 1) by lia.
  destruct v as [|t [|]]; try discriminate. exists t. split; [apply V1; now left|auto].
Qed.
End Exchange.
