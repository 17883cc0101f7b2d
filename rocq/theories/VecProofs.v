(** Rules for checked vector access and counted loops. *)

From Coq Require Import List Arith Lia Bool Permutation.
From Verif Require Import VecModel.
Import ListNotations.

Section Vec.
Context {A : Type}.
Implicit Types (v w : list A) (i j : nat).

Lemma get_some v i : i < length v -> exists x, get v i = Some x.
Proof.
  intros H. unfold get. destruct (nth_error v i) eqn:E; [eauto|]. apply nth_error_None in E. lia.
Qed.
Lemma get_lt v i x : get v i = Some x -> i < length v.
Proof. intros H. apply nth_error_Some. unfold get in H. congruence. Qed.
Lemma get_ge v i : length v <= i -> get v i = None.
Proof. intros H. apply nth_error_None. exact H. Qed.
Lemma get_nth v i d : i < length v -> get v i = Some (nth i v d).
Proof. intros H. apply nth_error_nth'. exact H. Qed.
Lemma get_nth_eq v i d x : get v i = Some x -> nth i v d = x.
Proof. intros H. apply nth_error_nth. exact H. Qed.
Lemma vec_ext v w : length v = length w -> (forall i, i < length v -> get v i = get w i) -> v = w.
Proof.
  revert w. induction v as [|x v IH]; intros [|y w] L H; try discriminate; [reflexivity|].
  f_equal.
  - specialize (H 0 ltac:(cbn; lia)). cbn in H. congruence.
  - apply IH; [cbn in L; lia|]. intros i Hi. exact (H (S i) ltac:(cbn; lia)).
Qed.
Lemma vec_ext_all v w : (forall i, get v i = get w i) -> v = w.
Proof.
  intros H. apply vec_ext; [|intros; apply H].
  destruct (Nat.lt_trichotomy (length v) (length w)) as [L|[L|L]]; [|exact L|].
  - destruct (get_some _ _ L) as [x E]. rewrite <- H, get_ge in E by lia. discriminate.
  - destruct (get_some _ _ L) as [x E]. rewrite H, get_ge in E by lia. discriminate.
Qed.

Lemma put_spec v i x : i < length v -> exists w, put v i x = Some w /\ length w = length v /\
  forall j, get w j = if j =? i then Some x else get v j.
Proof.
  revert i. induction v as [|h t IH]; intros i H; [cbn in H; lia|]. destruct i as [|i].
  - exists (x :: t). split; [reflexivity|]. split; [reflexivity|]. intros [|j]; reflexivity.
  - destruct (IH i) as (w & E & L & G); [cbn in H; lia|]. exists (h :: w). cbn [put]. rewrite E.
    split; [reflexivity|]. split; [cbn; lia|]. intros [|j]; [reflexivity|]. exact (G j).
Qed.
Lemma put_inv v i x w : put v i x = Some w -> i < length v /\ length w = length v /\
  forall j, get w j = if j =? i then Some x else get v j.
Proof.
  intros H. destruct (Nat.lt_ge_cases i (length v)) as [L|L].
  - destruct (put_spec v i x L) as (w' & E & R). rewrite E in H. injection H as <-. auto.
  - exfalso. revert i w H L. induction v as [|h t IH]; intros i w H L; [discriminate|].
    destruct i as [|i]; [cbn in L; lia|]. cbn [put] in H. destruct (put t i x) eqn:E; [|discriminate].
    eapply IH; [exact E|cbn in L; lia].
Qed.
Lemma put_same v i x : get v i = Some x -> put v i x = Some v.
Proof.
  intros H. destruct (put_spec v i x (get_lt _ _ _ H)) as (w & E & L & G). rewrite E. f_equal.
  apply vec_ext_all. intros j. rewrite G. destruct (Nat.eqb_spec j i); congruence.
Qed.
Lemma put_app v x y w : put (v ++ x :: w) (length v) y = Some (v ++ y :: w).
Proof. induction v as [|h t IH]; [reflexivity|]. cbn [app length put]. rewrite IH. reflexivity. Qed.

Lemma vswap_spec v i j : i < length v -> j < length v -> exists w, vswap v i j = Some w /\ length w = length v /\
  forall k, get w k = if k =? j then get v i else if k =? i then get v j else get v k.
Proof.
  intros Hi Hj. unfold vswap. destruct (get_some _ _ Hi) as [x Ex], (get_some _ _ Hj) as [y Ey]. rewrite Ex, Ey.
  destruct (put_spec v i y Hi) as (w & E & L & G). rewrite E.
  destruct (put_spec w j x) as (w' & E' & L' & G'); [lia|]. rewrite E'. exists w'. split; [reflexivity|].
  split; [lia|]. intros k. rewrite G', G. reflexivity.
Qed.
End Vec.

Lemma for_up_rule {S} (I : nat -> S -> Prop) n from body s :
  I from s -> (forall i s, from <= i < from + n -> I i s -> exists s', body i s = Some s' /\ I (Datatypes.S i) s') ->
  exists s', for_up n from body s = Some s' /\ I (from + n) s'.
Proof.
  revert from s. induction n as [|n IH]; intros from s H0 H.
  - exists s. split; [reflexivity|]. rewrite Nat.add_0_r. exact H0.
  - destruct (H from s) as (s1 & E & H1); [lia|exact H0|]. cbn [for_up]. rewrite E.
    destruct (IH (Datatypes.S from) s1 H1) as (s' & E' & H'); [intros i t Hi; apply H; lia|].
    exists s'. split; [exact E'|]. replace (from + Datatypes.S n) with (Datatypes.S from + n) by lia. exact H'.
Qed.
Lemma for_up_S {S} n from (body : nat -> S -> option S) s :
  for_up (Datatypes.S n) from body s = match for_up n from body s with Some s' => body (from + n) s' | None => None end.
Proof.
  revert from s. induction n as [|n IH]; intros from s.
  - cbn [for_up]. rewrite Nat.add_0_r. destruct (body from s); reflexivity.
  - cbn [for_up]. destruct (body from s) as [s1|]; [|reflexivity].
    transitivity (for_up (Datatypes.S n) (Datatypes.S from) body s1); [reflexivity|]. rewrite IH.
    replace (Datatypes.S from + n) with (from + Datatypes.S n) by lia. reflexivity.
Qed.
Lemma for_down_rule {S} (I : nat -> S -> Prop) n body s :
  I n s -> (forall i s, i < n -> I (Datatypes.S i) s -> exists s', body i s = Some s' /\ I i s') ->
  exists s', for_down n body s = Some s' /\ I 0 s'.
Proof.
  revert s. induction n as [|n IH]; intros s H0 H.
  - exists s. auto.
  - destruct (H n s) as (s1 & E & H1); [lia|exact H0|]. cbn [for_down]. rewrite E.
    apply IH; [exact H1|]. intros i t Hi. apply H. lia.
Qed.
Lemma for_each_rule {A S} (I : list A -> S -> Prop) l body s :
  I [] s -> (forall p x q s, l = p ++ x :: q -> I p s -> exists s', body x s = Some s' /\ I (p ++ [x]) s') ->
  exists s', for_each l body s = Some s' /\ I l s'.
Proof.
  intros H0 H. cut (forall p q s, l = p ++ q -> I p s -> exists s', for_each q body s = Some s' /\ I l s').
  { intros C. exact (C [] l s eq_refl H0). }
  intros p q. revert p. induction q as [|x q IH]; intros p t E Hp.
  - exists t. rewrite app_nil_r in E. subst p. auto.
  - destruct (H p x q t E Hp) as (t1 & E1 & H1). cbn [for_each]. rewrite E1. apply (IH (p ++ [x])); [|exact H1].
    rewrite <- app_assoc. exact E.
Qed.
(** m is a measure that every round decreases *)
Lemma while_rule {S} (I : S -> Prop) (m : S -> nat) (c : S -> bool) fuel cond body s :
  I s -> m s <= fuel ->
  (forall s, I s -> cond s = Some (c s)) ->
  (forall s, I s -> c s = true -> exists s', body s = Some s' /\ I s' /\ m s' < m s) ->
  exists s', while fuel cond body s = Some s' /\ I s' /\ c s' = false.
Proof.
  intros H0 Hm Hc Hb. revert s H0 Hm. induction fuel as [|k IH]; intros s H0 Hm; cbn [while]; rewrite (Hc s H0).
  - destruct (c s) eqn:E; [|exists s; auto]. destruct (Hb s H0 E) as (s' & _ & _ & L). lia.
  - destruct (c s) eqn:E; [|exists s; auto]. destruct (Hb s H0 E) as (s' & E' & H' & L). rewrite E'. apply IH; [exact H'|lia].
Qed.
