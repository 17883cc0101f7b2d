(** What rational vectors stand for: functions from indices to rational numbers. *)

From Coq Require Import List Arith ZArith QArith Qabs Bool.
From Verif Require Import VecModel RunModel MatModel MatSpec RatVecModel.
Import ListNotations.
Open Scope Z_scope.

(** a value of type long long int *)
Definition in64 (z : Z) : Prop := - 2 ^ 63 <= z < 2 ^ 63.
(** [v] has size [n], and its entries are the rational numbers q 0, ..., q (n-1) *)
Definition is_rv (v : rvec) (n : nat) (q : nat -> Q) : Prop :=
  0 < den v < 2 ^ 63 /\ exists x, is_vec (num v) n x /\
  forall i, (i < n)%nat -> in64 (x i) /\ (inject_Z (x i) == q i * inject_Z (den v))%Q.
(** no smaller common denominator exists *)
Definition reduced (v : rvec) : Prop :=
  forall d, 0 < d -> (d | den v) -> (forall x, In x (num v) -> (d | x)) -> d = 1.
(** the number q can be written with denominator m *)
Definition holds (m : Z) (q : Q) : Prop := exists z, in64 z /\ (inject_Z z == q * inject_Z m)%Q.
(** failure because one of the numbers does not fit *)
Definition unfit (n : nat) (m : Z) (q : nat -> Q) (e : err) : Prop :=
  e = Overflow /\ exists i, (i < n)%nat /\ ~ holds m (q i).

Definition qsum : nat -> (nat -> Q) -> Q := fsum Qplus 0%Q.

(** the order: first by size, then lexicographically *)
Definition rv_before (n : nat) (p : nat -> Q) (m : nat) (q : nat -> Q) : Prop :=
  (n < m)%nat \/ n = m /\ exists i, (i < n)%nat /\ (p i < q i)%Q /\ forall j, (j < i)%nat -> (p j == q j)%Q.
Definition rv_same (n : nat) (p : nat -> Q) (m : nat) (q : nat -> Q) : Prop :=
  n = m /\ forall i, (i < n)%nat -> (p i == q i)%Q.
(** the value of a machine rational *)
Definition ratval (r : ArithModel.rational) : Q := (inject_Z (ArithModel.rnum r) / inject_Z (ArithModel.rden r))%Q.
(** a sum of numbers of which the absolute values, written with denominator [d], add up without overflow *)
Definition fits_sum (n : nat) (d : Z) (f : nat -> Q) : Prop :=
  (qsum n (fun i => Qabs (f i)) * inject_Z d < inject_Z (2 ^ 63))%Q.
