(** Notions for the reduction of integer matrices. *)

From Coq Require Import List Arith ZArith Bool.
From Verif Require Import VecModel RunModel MatModel MatSpec.
Import ListNotations.
Open Scope nat_scope.

(** the non-negative greatest common divisor of x 0, ..., x (n-1) *)
Definition is_gcd (n : nat) (x : nat -> Z) (d : Z) : Prop :=
  (0 <= d)%Z /\ (forall k, k < n -> (d | x k)%Z) /\
  forall e, (forall k, k < n -> (e | x k)%Z) -> (e | d)%Z.

(** -1 for true *)
Definition sgn (b : bool) : Z := if b then (-1)%Z else 1%Z.

(** [f], with m rows and r columns, is in echelon form with pivot rows p 0 < p 1 < ...:
    in column j the entry at row p j is positive and those below it are zero *)
Definition echelon (m r : nat) (f : nat -> nat -> Z) (p : nat -> nat) : Prop :=
  (forall j, j < r -> p j < m /\ (0 < f (p j) j)%Z /\ forall i, p j < i < m -> f i j = 0%Z) /\
  (forall j k, j < k -> k < r -> p j < p k).

(** [x], with factor [f], solves the system with right hand side [b], and so do only its multiples *)
Definition least_solution (m r : nat) (e : nat -> nat -> Z) (b x : nat -> Z) (f : Z) : Prop :=
  (0 < f)%Z /\ (forall i, i < m -> fapply r e x i = (f * b i)%Z) /\
  forall y k, (forall i, i < m -> fapply r e y i = (k * b i)%Z) -> exists s, k = (s * f)%Z /\ forall l, l < r -> y l = (s * x l)%Z.
Definition unsolvable (m r : nat) (e : nat -> nat -> Z) (b : nat -> Z) : Prop :=
  forall y k, (forall i, i < m -> fapply r e y i = (k * b i)%Z) -> k = 0%Z.

(** [g] is d times the inverse of [f] *)
Definition is_inverse (n : nat) (f g : nat -> nat -> Z) (d : Z) : Prop :=
  feq n n (fmul n f g) (fun i j => d * delta i j)%Z /\ feq n n (fmul n g f) (fun i j => d * delta i j)%Z.
(** the least positive d for which d times the inverse of [f] is integral; it divides the others *)
Definition least_denominator (n : nat) (f : nat -> nat -> Z) (d : Z) : Prop :=
  (0 < d)%Z /\ (exists g, is_inverse n f g d) /\ forall g k, is_inverse n f g k -> (d | k)%Z.

(** the system with matrix [f] and right hand side [b] has an integer solution *)
Definition solves (m n : nat) (f : nat -> nat -> Z) (b y : nat -> Z) : Prop := forall i, i < m -> fapply n f y i = b i.
Definition solvable (m n : nat) (f : nat -> nat -> Z) (b : nat -> Z) : Prop := exists y, solves m n f b y.
(** the columns of [f] and of [g] have the same integer combinations *)
Definition same_span (m n : nat) (f : nat -> nat -> Z) (r : nat) (g : nat -> nat -> Z) : Prop :=
  forall v, solvable m n f v <-> solvable m r g v.
