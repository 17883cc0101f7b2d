(** Lattices with an involution. *)

From Coq Require Import List Arith ZArith Bool.
From Verif Require Import MatSpec F2Spec.
Open Scope nat_scope.

Definition is_involution (n : nat) (f : nat -> nat -> Z) : Prop := feq n n (fmul n f f) delta.
(** the vectors on which the involution acts as the scalar [s] *)
Definition eigen (n : nat) (f : nat -> nat -> Z) (s : Z) (x : nat -> Z) : Prop := forall i, i < n -> fapply n f x i = (s * x i)%Z.
(** the columns of [g] form a basis of the lattice; the involution fixes the first [a], changes the sign of the
    next [b], and exchanges the next [c] with the last [c] *)
Definition splits_by (n : nat) (f g : nat -> nat -> Z) (a b c : nat) : Prop :=
  n = a + b + (c + c) /\ unimodular n g /\
  (forall j, j < a -> forall i, i < n -> fmul n f g i j = g i j) /\
  (forall j, a <= j < a + b -> forall i, i < n -> fmul n f g i j = (- g i j)%Z) /\
  (forall j, a + b <= j < a + b + c -> forall i, i < n -> fmul n f g i j = g i (j + c)).
Definition splits (n : nat) (f : nat -> nat -> Z) (a b c : nat) : Prop := exists g, splits_by n f g a b c.
(** [v] is the vector [x], of size [n], modulo 2 *)
Definition mod2 (n : nat) (x : nat -> Z) (v : N) : Prop := within n v /\ forall i, i < n -> coord v i = Z.odd (x i).
(** the images modulo 2 of the two eigenlattices, and their sum *)
Definition eigen2 (n : nat) (f : nat -> nat -> Z) (s : Z) (v : N) : Prop := exists x, eigen n f s x /\ mod2 n x v.
Definition eigen2_sum (n : nat) (f : nat -> nat -> Z) (v : N) : Prop :=
  exists x y, eigen n f 1 x /\ eigen n f (-1) y /\ mod2 n (fun i => x i + y i)%Z v.
