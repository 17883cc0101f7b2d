(** Finite graphs with nodes below 32: connectedness, degrees, removal of end points. *)

From Coq Require Import List Arith ZArith Bool Lia Permutation.
From Verif Require Import BitsetSpec DynBits.
Import ListNotations.
Local Open Scope nat_scope.

Section Graph.
Variable adj : nat -> nat -> bool.
Hypothesis adj_sym : forall i j, adj i j = adj j i.
Hypothesis adj_irr : forall i, adj i i = false.

(** a set of nodes is connected: a property holding at one of its nodes, and passing
    along edges inside the set, holds at all of its nodes *)
Definition connected (R : nat -> bool) : Prop :=
  forall T : nat -> Prop, forall x, R x = true -> T x ->
  (forall a b, R a = true -> R b = true -> adj a b = true -> T a -> T b) ->
  forall y, R y = true -> T y.

Definition without (R : nat -> bool) (x i : nat) : bool := negb (i =? x) && R i.

(** at most one neighbour inside *)
Definition leaf (R : nat -> bool) (x : nat) : Prop :=
  forall u v, R u = true -> R v = true -> adj x u = true -> adj x v = true -> u = v.
(** at most two neighbours inside *)
Definition thin (R : nat -> bool) (x : nat) : Prop :=
  forall u v w, R u = true -> R v = true -> R w = true -> adj x u = true -> adj x v = true -> adj x w = true ->
  u = v \/ u = w \/ v = w.

Lemma connected_ext R R' : (forall i, R i = R' i) -> connected R -> connected R'.
Proof.
  intros E C T x Rx Tx St y Ry. apply (C T x); [rewrite E; exact Rx|exact Tx| |rewrite E; exact Ry].
  intros a b Ra Rb. rewrite E in Ra, Rb. apply St; auto.
Qed.
Lemma connected_without R x : connected R -> R x = true -> leaf R x -> connected (without R x).
Proof.
  intros C Rx L T y Ry Ty St z Rz. unfold without in *.
  apply andb_true_iff in Ry as [Ny Ry]. apply andb_true_iff in Rz as [Nz Rz].
  apply negb_true_iff, Nat.eqb_neq in Ny. apply negb_true_iff, Nat.eqb_neq in Nz.
  assert (G : (z <> x /\ T z) \/ (z = x /\ exists u, R u = true /\ adj x u = true /\ T u)).
  { apply (C (fun z => (z <> x /\ T z) \/ (z = x /\ exists u, R u = true /\ adj x u = true /\ T u)) y); auto.
    intros a b Ra Rb E [[Na Ta]|[-> (u & Ru & Eu & Tu)]].
    - destruct (Nat.eq_dec b x) as [->|Nb].
      + right. split; [auto|]. exists a. rewrite adj_sym. auto.
      + left. split; [auto|]. apply (St a b); auto; apply andb_true_iff; split; auto; apply negb_true_iff, Nat.eqb_neq; auto.
    - destruct (Nat.eq_dec b x) as [->|Nb]; [rewrite adj_irr in E; discriminate|].
      left. split; [auto|]. rewrite (L b u); auto. }
  destruct G as [[_ G]|[G _]]; [exact G|contradiction].
Qed.
Lemma connected_nbr R x y : connected R -> R x = true -> R y = true -> x <> y -> exists u, R u = true /\ adj x u = true.
Proof.
  intros C Rx Ry N.
  assert (G : x = y \/ exists u, R u = true /\ adj x u = true).
  { apply (C (fun z => x = z \/ exists u, R u = true /\ adj x u = true) x); auto.
    intros a b Ra Rb E [->|H]; [|auto]. right. exists b. auto. }
  destruct G; [contradiction|auto].
Qed.
(** a nonempty part with no edges to the rest is everything *)
Lemma connected_closed R (T : nat -> Prop) x : connected R -> R x = true -> T x ->
  (forall a b, R a = true -> R b = true -> adj a b = true -> T a -> T b) -> forall y, R y = true -> T y.
Proof. intros C. apply C. Qed.

(** ** degrees *)
Definition deg (L : list nat) (i : nat) : nat := length (filter (adj i) L).
Fixpoint degsum (L : list nat) (D : nat -> nat) : nat := match L with [] => 0 | x :: r => D x + degsum r D end.
Lemma degsum_add L D D' : degsum L (fun i => D i + D' i) = degsum L D + degsum L D'.
Proof. induction L as [|x L IH]; cbn; [reflexivity|]. rewrite IH. lia. Qed.
Lemma degsum_ext L D D' : (forall i, In i L -> D i = D' i) -> degsum L D = degsum L D'.
Proof.
  induction L as [|x L IH]; intros H; cbn; [reflexivity|]. rewrite (H x), IH; [reflexivity| |left; auto]. intros; apply H; right; auto.
Qed.
Lemma degsum_count L x : degsum L (fun i => if adj i x then 1 else 0) = deg L x.
Proof.
  unfold deg. induction L as [|y L IH]; cbn; [reflexivity|]. rewrite IH, adj_sym. destruct (adj x y); reflexivity.
Qed.
Lemma handshake L : exists h, degsum L (deg L) = 2 * h.
Proof.
  induction L as [|x L [h IH]]; [exists 0; reflexivity|]. cbn [degsum].
  rewrite (degsum_ext L (deg (x :: L)) (fun i => deg L i + if adj i x then 1 else 0)).
  2: { intros i _. unfold deg. cbn [filter]. destruct (adj i x); cbn [length]; lia. }
  rewrite degsum_add, IH, degsum_count. unfold deg at 1. cbn [filter]. rewrite adj_irr. fold (deg L x). exists (h + deg L x). lia.
Qed.
End Graph.
