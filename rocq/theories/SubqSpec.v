(** Subspaces and subquotients over the field with two elements. A subspace is a predicate
    on vectors (F2Spec.v: numbers whose binary digits are the coordinates). *)

From Coq Require Import List Arith NArith Bool.
From Verif Require Import F2Spec.
Import ListNotations.
Open Scope nat_scope.

Definition is_subspace (n : nat) (V : N -> Prop) : Prop :=
  V 0%N /\ (forall v w, V v -> V w -> V (N.lxor v w)) /\ forall v, V v -> within n v.
(** the list [b], whose leading positions are the bits of [t], is the canonical basis of [V] *)
Definition canonical_basis (n : nat) (V : N -> Prop) (b : list N) (t : N) : Prop :=
  within n t /\ (forall x, In x b -> within n x) /\ reduced_echelon b (positions_of n t) /\ forall v, V v <-> in_span b v.
(** the vectors orthogonal to [V] *)
Definition perp (n : nat) (V : N -> Prop) (x : N) : Prop := within n x /\ forall v, V v -> scalar n v x = false.
(** the image of [V] under the matrix with columns [A] *)
Definition direct_image (A : list N) (V : N -> Prop) (y : N) : Prop := exists x, V x /\ image_of A x = y.
(** the list [b] represents a basis of [V] modulo [W] *)
Definition basis_modulo (V W : N -> Prop) (b : list N) : Prop :=
  (forall x, In x b -> V x) /\
  (forall c, W (lincomb c b) -> forall i, i < length b -> c i = false) /\
  forall v, V v -> exists c, W (N.lxor v (lincomb c b)).
