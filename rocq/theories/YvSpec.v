(** Elements of finite order of a torus, written as exp(pi i q) with q a vector of rational numbers, that is
    determined up to even integers. *)

From Coq Require Import List Arith ZArith QArith.
From Verif Require Import ArithModel ArithSpec RunModel MatSpec RatVecModel RatVecSpec F2Model F2Spec.
Import ListNotations.
Open Scope Z_scope.

(** two rational numbers with the same value of exp(pi i -) *)
Definition even_apart (p q : Q) : Prop := exists z, (p - q == inject_Z (2 * z))%Q.
(** [t] is the reduced form of exp(pi i q), with [q] a vector of size [n] *)
Definition is_torus (t : rvec) (n : nat) (q : nat -> Q) : Prop :=
  exists p, is_rv t n p /\ forall i, (i < n)%nat -> (0 <= p i < 2)%Q /\ even_apart (p i) (q i).
(** failure that happens only when the denominator is too large to be doubled *)
Definition large_den (t : rvec) (e : err) : Prop := e = Overflow /\ 2 ^ 62 <= den t.
(** the bits of a vector, as rational numbers *)
Definition bitQ (v : N) (i : nat) : Q := if coord v i then 1%Q else 0%Q.
(** the value of the weight or coweight [y] at [q] *)
Definition pairQ (n : nat) (y : nat -> Z) (q : nat -> Q) : Q := qsum n (fun i => inject_Z (y i) * q i)%Q.
(** the image of [q] under a matrix *)
Definition actQ (n : nat) (f : nat -> nat -> Z) (q : nat -> Q) (i : nat) : Q := qsum n (fun j => inject_Z (f i j) * q j)%Q.
(** the value of [y] at an element of denominator [den t] is computed without overflow *)
Definition ample (n : nat) (y : nat -> Z) (t : rvec) : Prop :=
  2 * den t < 2 ^ 63 /\ zsum n (fun i => Z.abs (y i)) * (2 * den t) < 2 ^ 63.
(** [r] is the number in [0,2), in lowest terms, that differs from [q] by an even integer *)
Definition is_mod2 (r : ArithModel.rational) (q : Q) : Prop :=
  ArithSpec.lowest r /\ (0 <= ratval r < 2)%Q /\ even_apart (ratval r) q.
