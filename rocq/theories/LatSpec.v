(** Lattices of integer vectors, described by bases. *)

From Coq Require Import List Arith ZArith.
From Verif Require Import MatSpec.
Open Scope nat_scope.

(** the first [r] columns of [g] form a basis of the lattice of vectors of size [n] given by [P] *)
Definition basis_of (n r : nat) (g : nat -> nat -> Z) (P : (nat -> Z) -> Prop) : Prop :=
  (forall x, P x <-> exists c, forall i, i < n -> x i = fapply r g c i) /\
  forall c, (forall i, i < n -> fapply r g c i = 0%Z) -> forall j, j < r -> c j = 0%Z.
(** the vectors sent to 0 by a matrix with [m] rows and [n] columns *)
Definition annihilated (m n : nat) (f : nat -> nat -> Z) (x : nat -> Z) : Prop := forall i, i < m -> fapply n f x i = 0%Z.
(** the row vectors having product 0 with all columns *)
Definition orthogonal (m n : nat) (f : nat -> nat -> Z) (y : nat -> Z) : Prop := forall j, j < n -> frow m y f j = 0%Z.
(** the vectors of which some multiple is an integer combination of the rows *)
Definition in_saturation (m n : nat) (f : nat -> nat -> Z) (x : nat -> Z) : Prop :=
  exists k y, k <> 0%Z /\ forall j, j < n -> frow m y f j = (k * x j)%Z.
