(** Classes of weights at an involution [th] of a lattice of rank [n]. *)

From Coq Require Import List Arith ZArith QArith Bool.
From Verif Require Import MatSpec RatVecSpec YvSpec.
From Verif Require F2Spec.
Open Scope nat_scope.

(** the image of [x] by 1 minus the involution *)
Definition anti (n : nat) (th : nat -> nat -> Z) (x : nat -> Z) (i : nat) : Z := (x i - fapply n th x i)%Z.
Definition antiQ (n : nat) (th : nat -> nat -> Z) (x : nat -> Q) (i : nat) : Q := (x i - actQ n th x i)%Q.
(** [x] and [y] differ by an element of the image of 1 minus the involution *)
Definition anti_apart (n : nat) (th : nat -> nat -> Z) (x y : nat -> Z) : Prop :=
  exists z, forall i, i < n -> (x i - y i)%Z = anti n th z i.
(** [1 - th] is the product of an injective matrix [g], with [k] columns, and a surjective one [m] *)
Definition factors (n k : nat) (th m g : nat -> nat -> Z) : Prop :=
  feq n n (fmul k g m) (fun i j => delta i j - th i j)%Z /\
  (forall x, (forall i, i < n -> fapply k g x i = 0%Z) -> forall j, j < k -> x j = 0%Z) /\
  (forall y, exists x, forall j, j < k -> fapply n m x j = y j).
(** [p] is in the class of half the image of [q], and has coordinates in the interval from 0 to 1 on the columns
    of [g] *)
Definition real_class (n k : nat) (th g : nat -> nat -> Z) (q p : nat -> Q) : Prop :=
  (exists z, forall i, i < n -> (p i == antiQ n th q i / 2 + inject_Z (anti n th z i))%Q) /\
  exists t, (forall j, j < k -> (0 <= t j < 1)%Q) /\ forall i, i < n -> (p i == actQ k g t i)%Q.
(** the difference is an integral vector plus one negated by the transpose *)
Definition torus_apart (n : nat) (th : nat -> nat -> Z) (q p : nat -> Q) : Prop :=
  exists z : nat -> Z, forall i, i < n -> (let h j := q j - p j - inject_Z (z j) in h i + actQ n (fun i j => th j i) h i == 0)%Q.
(** [S th S] *)
Definition conjugate (n : nat) (S th : nat -> nat -> Z) : nat -> nat -> Z := fmul n (fmul n S th) S.
(** the kernel of [g] is the space negated by the transpose, and [g] is onto for integers *)
Definition projects (n k : nat) (th g : nat -> nat -> Z) : Prop :=
  (forall q : nat -> Q, (forall j, (j < k) -> (actQ n g q j == 0)%Q) <-> forall i, (i < n) -> (q i + actQ n (fun i j => th j i) q i == 0)%Q) /\
  forall y, exists x, forall j, (j < k) -> fapply n g x j = y j.
(** the fractional parts of the coordinates of the image of [q] *)
Definition frac_of (n k : nat) (g : nat -> nat -> Z) (q p : nat -> Q) : Prop :=
  forall j, (j < k) -> (0 <= p j < 1)%Q /\ exists z, (actQ n g q j - p j == inject_Z z)%Q.
(** coordinate [j] as an integer *)
Definition bit (v : N) (j : nat) : Z := if F2Spec.coord v j then 1%Z else 0%Z.
