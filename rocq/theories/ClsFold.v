(** The pairings of the folded roots and coroots form a Cartan matrix of finite type. *)

From Coq Require Import List Arith ZArith Bool Lia Permutation Sorted.
From Verif Require Import VecModel VecProofs RunModel RunProofs MatModel MatSpec MatProofs MatLin MatOps MatProps LatModel SizeModel LieTypeModel LieTypeSpec
  RootModel RootSpec RootBase RootMath RootForm RootFin RootCo RootAcc RootSys RootUniq RootTop RootProps DatModel DatSpec DatMath DatProofs DatOps DatProps DfModel DfSpec DfFold ClsMain.
Import ListNotations.
Local Open Scope Z_scope.

Section Fold.
Variable fits : Z -> bool.
Variables (r n : nat) (A B : nat -> nat -> Z) (p : predatum) (d : datum).
Hypothesis K : datum_ok r n A B p d.
Hypothesis n32 : (n <= 32)%nat.
Hypothesis ft : finite_type n (pairings r A B).
Variables (g : nat -> nat -> Z) (pi : nat -> nat) (l : list ext_gen).
Hypothesis Hp : permutes_simple r n A B g pi.
Hypothesis Inv : forall i, (i < n)%nat -> pi (pi i) = i.
Hypothesis Ol : orbits_of n pi (fun i j => pairings r A B i j = 0) l.
Hypothesis ND : NoDup l.
Notation al := (fcol r A).
Notation be := (fcol r B).
Notation at_ i := (nth i l (One 0)).
Notation k := (length l).
Definition P (i j : nat) : Z := dot r (orbit_root r al (at_ i)) (orbit_coroot r be (at_ j)).

Lemma at_in i : (i < k)%nat -> In (at_ i) l.
Proof. intros H. apply nth_In. exact H. Qed.
Lemma at_ne i j : (i < k)%nat -> (j < k)%nat -> i <> j -> at_ i <> at_ j.
Proof. intros Hi Hj N E. apply N. apply (proj1 (NoDup_nth l (One 0)) ND); assumption. Qed.
Definition lead (x : ext_gen) : nat := match x with One s => s | Two s _ => s | Three s _ => s end.
Lemma lead_in x : In (lead x) (gens_of x). Proof. destruct x; cbn; auto. Qed.
Lemma fold_count : (k <= n)%nat.
Proof.
  rewrite <- (map_length lead l), <- (seq_length n 0). apply NoDup_incl_length.
  - assert (Q : forall q, incl q l -> NoDup q -> NoDup (map lead q)).
    { induction q as [|x q IH]; intros I N; [constructor|]. inversion N as [|? ? N1 N2]. subst. cbn [map]. constructor; [|apply IH; [intros y Iy; apply I; right; exact Iy|exact N2]].
      intros Q. apply in_map_iff in Q as (y & E & Iy). apply (orbit_apart r n A B p d K g pi l Hp Inv Ol x y (lead x) (lead y)); auto using lead_in; [apply I; left; reflexivity|apply I; right; exact Iy|]. intros ->. contradiction. }
    apply Q; [apply incl_refl|exact ND].
  - intros t It. apply in_map_iff in It as (x & <- & Ix). apply in_seq. pose proof (orbit_gens r n A B g pi l Hp Ol x Ix) as Q. rewrite Forall_forall in Q. specialize (Q _ (lead_in x)). lia.
Qed.
(** the value of a simple coroot *)
Definition hits (x : ext_gen) (t : nat) : Z := if existsb (Nat.eqb t) (gens_of x) then 1 else 0.
Lemma root_value x j : In x l -> dot r (orbit_root r al x) (be j) = zsum n (fun t => hits x t * pairings r A B t j).
Proof.
  intros I. pose proof (orbit_gens r n A B g pi l Hp Ol x I) as Q. rewrite Forall_forall in Q. unfold hits.
  assert (One1 : forall s, (s < n)%nat -> zsum n (fun t => (if Nat.eqb t s then 1 else 0) * pairings r A B t j) = pairings r A B s j).
  { intros s Hs. rewrite (zsum_one n s); [rewrite Nat.eqb_refl; lia|exact Hs|]. intros t _ N. rewrite (proj2 (Nat.eqb_neq t s) N). lia. }
  assert (Two2 : forall s t, (s < n)%nat -> (t < n)%nat -> s <> t -> zsum n (fun i => (if existsb (Nat.eqb i) [s; t] then 1 else 0) * pairings r A B i j) = pairings r A B s j + pairings r A B t j).
  { intros s t Hs Ht N. rewrite <- (One1 s Hs), <- (One1 t Ht), <- zsum_add. apply zsum_ext. intros i Hi. cbn [existsb]. destruct (Nat.eqb_spec i s), (Nat.eqb_spec i t); cbn [orb]; lia. }
  destruct x as [s|s t|s t]; cbn [gens_of orbit_root] in *.
  - fold (pairings r A B s j). rewrite <- (One1 s) by (apply Q; left; reflexivity). apply zsum_ext. intros i Hi. cbn [existsb]. rewrite orb_false_r. reflexivity.
  - destruct (orbit_two r n A B p d K g pi l Hp Inv Ol s t I) as (Hs & Ht & N & _). rewrite dot_plus by apply fcol_length. rewrite Two2 by assumption. reflexivity.
  - destruct (orbit_three r n A B p d K g pi l Hp Inv Ol s t I) as (Hs & Ht & N & _). rewrite dot_plus by apply fcol_length. rewrite Two2 by assumption. reflexivity.
Qed.
Lemma value_moved x j : In x l -> (j < n)%nat -> dot r (orbit_root r al x) (be (pi j)) = dot r (orbit_root r al x) (be j).
Proof.
  intros I Hj. destruct (Hp j Hj) as (_ & _ & E). rewrite <- (E (orbit_root r al x)) by (destruct x; cbn; try apply plus_length; apply fcol_length).
  rewrite (orbit_fixed r n A B p d K g pi l Hp Inv Ol x I). reflexivity.
Qed.
Lemma fold_nb : nb P (seq 0 k).
Proof.
  intros x X0 (i0 & Ii0 & Xi0). apply in_seq in Ii0.
  destruct (existsb (fun j => 0 <? lsum (seq 0 k) (fun i => x i * P i j)) (seq 0 k)) eqn:E.
  { apply existsb_exists in E as (j & Ij & Ej). exists j. split; [exact Ij|]. apply Z.ltb_lt. exact Ej. }
  exfalso. assert (Y : forall j, (j < k)%nat -> zsum k (fun i => x i * P i j) <= 0).
  { intros j Hj. destruct (Z_le_gt_dec (zsum k (fun i => x i * P i j)) 0) as [|Gt]; [assumption|].
    assert (existsb (fun j => 0 <? lsum (seq 0 k) (fun i => x i * P i j)) (seq 0 k) = true); [|congruence].
    apply existsb_exists. exists j. split; [apply in_seq; lia|]. apply Z.ltb_lt. rewrite lsum_zsum. lia. }
  clear E. set (h := fun j => zsum k (fun i => x i * dot r (orbit_root r al (at_ i)) (be j))).
  assert (Hh : forall j, (j < n)%nat -> h (pi j) = h j).
  { intros j Hj. unfold h. apply zsum_ext. intros i Hi. rewrite (value_moved (at_ i) j (at_in i Hi) Hj). reflexivity. }
  assert (H0 : forall t, (t < n)%nat -> h t <= 0).
  { intros t Ht. assert (Q : exists j, (j < k)%nat /\ (lead (at_ j) = t \/ pi (lead (at_ j)) = t)).
    { assert (Q : exists y, In y l /\ (lead y = t \/ pi (lead y) = t)).
      { destruct Ol as (O1 & O2 & O3). pose proof (proj1 (Hp t Ht)) as Hpt. destruct (lt_eq_lt_dec t (pi t)) as [[Q|Q]|Q].
        - destruct (Z.eq_dec (pairings r A B t (pi t)) 0) as [Z0|Z0].
          + exists (Two t (pi t)). split; [apply O2; auto|left; reflexivity].
          + exists (Three t (pi t)). split; [apply O3; auto|left; reflexivity].
        - exists (One t). split; [apply O1; auto|left; reflexivity].
        - destruct (Z.eq_dec (pairings r A B (pi t) t) 0) as [Z0|Z0].
          + exists (Two (pi t) t). split; [apply O2; rewrite (Inv t Ht); auto|right; apply (Inv t Ht)].
          + exists (Three (pi t) t). split; [apply O3; rewrite (Inv t Ht); auto|right; apply (Inv t Ht)]. }
      destruct Q as (y & Iy & Q). destruct (In_nth _ _ (One 0) Iy) as (j & Hj & Ej). exists j. rewrite Ej. auto. }
    destruct Q as (j & Hj & Q). specialize (Y j Hj). unfold P in Y. pose proof (at_in j Hj) as Ij.
    pose proof (orbit_gens r n A B g pi l Hp Ol _ Ij) as Gj. rewrite Forall_forall in Gj. pose proof (Gj _ (lead_in (at_ j))) as Lj.
    assert (Hl : h (lead (at_ j)) <= 0).
    { destruct (at_ j) as [a|a b|a b] eqn:Ej; cbn [lead orbit_coroot] in *; [exact Y|exact Y|].
      destruct (orbit_three r n A B p d K g pi l Hp Inv Ol a b Ij) as (Ha & Hb & _ & Eab & _).
      assert (E2 : zsum k (fun i => x i * dot r (orbit_root r al (at_ i)) (plus r (be a) (be b))) = h a + h b).
      { unfold h. rewrite <- zsum_add. apply zsum_ext. intros i Hi. rewrite dot_plus_r by apply fcol_length. ring. }
      rewrite E2 in Y. rewrite <- Eab, (Hh a Ha) in Y. lia. }
    destruct Q as [<-|<-]; [exact Hl|]. rewrite (Hh _ Lj). exact Hl. }
  destruct (finite_nb n (pairings r A B) ft (fun t => zsum k (fun i => x i * hits (at_ i) t))) as (j & Ij & Sj).
  - intros t _. rewrite <- (zsum_zero k (fun _ => 0)) by reflexivity. rewrite <- !lsum_zsum.
    assert (M : forall q, (forall i, In i q -> In i (seq 0 k)) -> lsum q (fun _ => 0) <= lsum q (fun i => x i * hits (at_ i) t)).
    { induction q as [|i q IH]; intros I; [reflexivity|]. unfold lsum in *. cbn [map fold_right]. specialize (IH (fun y Iy => I y (or_intror Iy))). pose proof (X0 i (I i (or_introl eq_refl))). unfold hits at 1. destruct (existsb (Nat.eqb t) (gens_of (at_ i))); lia. }
    apply M. auto.
  - exists (lead (at_ i0)). pose proof (at_in i0 ltac:(lia)) as I0. pose proof (orbit_gens r n A B g pi l Hp Ol _ I0) as G0. rewrite Forall_forall in G0. pose proof (G0 _ (lead_in (at_ i0))) as L0. split; [apply in_seq; lia|].
    assert (Q : x i0 * hits (at_ i0) (lead (at_ i0)) <= zsum k (fun i => x i * hits (at_ i) (lead (at_ i0)))).
    { apply (zsum_ge k (fun i => x i * hits (at_ i) (lead (at_ i0))) i0); [lia|]. intros i Hi. pose proof (X0 i ltac:(apply in_seq; lia)). unfold hits. destruct (existsb _ _); lia. }
    assert (E : hits (at_ i0) (lead (at_ i0)) = 1).
    { unfold hits. rewrite (proj2 (existsb_exists _ _)); [reflexivity|]. exists (lead (at_ i0)). split; [apply lead_in|apply Nat.eqb_refl]. }
    rewrite E in Q. lia.
  - apply in_seq in Ij. specialize (H0 j ltac:(lia)). rewrite lsum_zsum in Sj.
    assert (E : zsum n (fun t => zsum k (fun i => x i * hits (at_ i) t) * pairings r A B t j) = h j); [|lia].
    unfold h. rewrite (zsum_ext n _ (fun t => zsum k (fun i => x i * (hits (at_ i) t * pairings r A B t j)))).
    + rewrite zsum_swap. apply zsum_ext. intros i Hi. rewrite zsum_mul_l, root_value by (apply at_in; exact Hi). reflexivity.
    + intros t Ht. rewrite Z.mul_comm, <- zsum_mul_l. apply zsum_ext. intros. lia.
Qed.
Theorem fold_finite : finite_type k (fun i j => dot r (orbit_root r al (at_ i)) (orbit_coroot r be (at_ j))).
Proof.
  pose proof fold_count. change (finite_type k P). apply class_finite; [lia| |exact fold_nb]. split; [|split].
  - intros i Hi. apply (orbit_diagonal r n A B p d K g pi l Hp Inv Ol _ (at_in i Hi)).
  - intros i j Hi Hj N. apply (orbit_away fits r n A B p d K g pi l Hp Inv Ol _ _ (at_in i Hi) (at_in j Hj) (at_ne i j Hi Hj N)).
  - intros i j Hi Hj. destruct (Nat.eq_dec i j) as [->|N]; [auto|]. apply (orbit_zero r n A B p d K g pi l Hp Inv Ol _ _ (at_in i Hi) (at_in j Hj) (at_ne i j Hi Hj N)).
Qed.
End Fold.
