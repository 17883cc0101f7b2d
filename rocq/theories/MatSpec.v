(** What vectors and matrices stand for: functions on indices. *)

From Coq Require Import List Arith ZArith Bool.
From Verif Require Import VecModel RunModel MatModel.
Import ListNotations.

(** [M] is an [m] by [n] matrix with entry [f i j] at row [i], column [j] *)
Definition is_mx {A} (M : matrix A) (m n : nat) (f : nat -> nat -> A) : Prop :=
  mrows M = m /\ mcols M = n /\ length (mdata M) = m * n /\
  forall i j, i < m -> j < n -> get (mdata M) (i * n + j) = Some (f i j).
(** [v] is a vector of length [n] with entries [f i] *)
Definition is_vec {A} (v : list A) (n : nat) (f : nat -> A) : Prop :=
  length v = n /\ forall i, i < n -> get v i = Some (f i).

(** f(0)+f(1)+...+f(n-1) *)
Fixpoint fsum {A} (add : A -> A -> A) (zero : A) (n : nat) (f : nat -> A) : A :=
  match n with O => zero | S m => add (fsum add zero m f) (f m) end.
Definition zsum := fsum Z.add 0%Z.

(** function changed at one place *)
Definition upd {A} (f : nat -> nat -> A) (i j : nat) (x : A) : nat -> nat -> A :=
  fun a b => if (a =? i) && (b =? j) then x else f a b.
Definition upd1 {A} (f : nat -> A) (i : nat) (x : A) : nat -> A :=
  fun a => if a =? i then x else f a.

(** the operations [R] compute the mathematical ones, or fail in a way allowed by [E] *)
Record arith_ok {A} (R : arith A) (add sub mul : A -> A -> A) (opp : A -> A) (E : err -> Prop) : Prop := {
  ok_add x y : gives (aadd R x y) (eq (add x y)) E;
  ok_sub x y : gives (asub R x y) (eq (sub x y)) E;
  ok_mul x y : gives (amul R x y) (eq (mul x y)) E;
  ok_opp x : gives (aopp R x) (eq (opp x)) E;
  ok_eqb x y : aeqb R x y = true <-> x = y }.

(** no failure *)
Definition never (e : err) : Prop := False.
(** the only failure is an overflow of a type that does not hold all integers *)
Definition overflows (fits : Z -> bool) (e : err) : Prop := e = Overflow /\ exists z, fits z = false.

(** * Matrices of integers as functions *)
Local Open Scope Z_scope.
Definition delta (i j : nat) : Z := if Nat.eqb i j then 1 else 0.
Definition fmul (n : nat) (f g : nat -> nat -> Z) (i k : nat) : Z := zsum n (fun j => f i j * g j k).
Definition fapply (n : nat) (f : nat -> nat -> Z) (v : nat -> Z) (i : nat) : Z := zsum n (fun j => f i j * v j).
Definition frow (n : nat) (v : nat -> Z) (f : nat -> nat -> Z) (k : nat) : Z := zsum n (fun j => v j * f j k).
(** equality of m by n matrices *)
Definition feq {A} (m n : nat) (f g : nat -> nat -> A) : Prop :=
  forall i j, (i < m)%nat -> (j < n)%nat -> f i j = g i j.
(** invertible over the integers *)
Definition inverses (n : nat) (f g : nat -> nat -> Z) : Prop :=
  feq n n (fmul n f g) delta /\ feq n n (fmul n g f) delta.
Definition unimodular (n : nat) (f : nat -> nat -> Z) : Prop := exists g, inverses n f g.
(** determinant, by development along the first row *)
Fixpoint det (n : nat) (f : nat -> nat -> Z) : Z :=
  match n with
  | O => 1
  | S m => zsum (S m) (fun j => (if Nat.even j then 1 else -1) * f O j *
             det m (fun i k => f (S i) (if Nat.ltb k j then k else S k)))
  end.
