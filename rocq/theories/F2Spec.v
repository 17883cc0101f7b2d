(** Linear algebra over the field with two elements. A vector is the number whose binary
    digits are its coordinates; [N.lxor] adds vectors. *)

From Coq Require Import List Arith NArith Bool.
Import ListNotations.
Open Scope nat_scope.

(** coordinate [i] *)
Definition coord (v : N) (i : nat) : bool := N.testbit v (N.of_nat i).
(** all coordinates of [v] from [n] on are zero *)
Definition within (n : nat) (v : N) : Prop := forall i, n <= i -> coord v i = false.
(** the sum of [f i] for [i<n], in the field *)
Fixpoint sum2 (n : nat) (f : nat -> bool) : bool :=
  match n with O => false | S k => xorb (sum2 k f) (f k) end.
(** the combination of the vectors of [b] with coefficients [c 0], [c 1], ... *)
Fixpoint lincomb (c : nat -> bool) (b : list N) : N :=
  match b with
  | [] => 0%N
  | x :: r => N.lxor (if c 0 then x else 0%N) (lincomb (fun i => c (S i)) r)
  end.
Definition in_span (b : list N) (v : N) : Prop := exists c, lincomb c b = v.
Definition independent (b : list N) : Prop :=
  forall c, lincomb c b = 0%N -> forall i, i < length b -> c i = false.
(** [b] is a basis of the space of the vectors satisfying [V] *)
Definition basis_of (V : N -> Prop) (b : list N) : Prop :=
  independent b /\ forall v, V v <-> in_span b v.
(** [p] is the position of the first nonzero coordinate of [v] *)
Definition leads (v : N) (p : nat) : Prop := coord v p = true /\ forall i, i < p -> coord v i = false.
(** reduced echelon form: the leading positions [ps] increase, and each leading
    coordinate is zero in the other vectors *)
Record reduced_echelon (b : list N) (ps : list nat) : Prop := {
  re_length : length b = length ps;
  re_leads : forall i v p, nth_error b i = Some v -> nth_error ps i = Some p -> leads v p;
  re_clear : forall i j v p, nth_error b i = Some v -> nth_error ps j = Some p -> coord v p = (i =? j);
  re_increasing : forall i j p q, i < j -> nth_error ps i = Some p -> nth_error ps j = Some q -> p < q }.
(** the scalar product of vectors with [n] coordinates *)
Definition scalar (n : nat) (v w : N) : bool := sum2 n (fun i => coord v i && coord w i).
(** a matrix is given by its columns, each with [m] coordinates *)
Definition entry (A : list N) (i j : nat) : bool := coord (nth j A 0%N) i.
Definition is_matrix (m n : nat) (A : list N) : Prop := length A = n /\ forall c, In c A -> within m c.
(** the image of [x] *)
Definition image_of (A : list N) (x : N) : N := lincomb (coord x) A.
(** the vectors of size [n] sent to 0 *)
Definition in_kernel (n : nat) (A : list N) (x : N) : Prop := within n x /\ image_of A x = 0%N.
(** [C] is the product of [A] and [B] *)
Definition is_product (A B C : list N) : Prop :=
  length C = length B /\ forall i j, entry C i j = sum2 (length A) (fun k => entry A i k && entry B k j).
Definition is_identity (n : nat) (A : list N) : Prop :=
  length A = n /\ forall i j, j < n -> entry A i j = (i =? j).
(** [v] solves the equation whose coordinates are the [n] coefficients and then the right hand side *)
Definition solves (n : nat) (v e : N) : Prop := scalar n e v = coord e n.
(** the [k]-th position (counting from 0) with a coordinate 1 in [t] *)
Definition positions_of (n : nat) (t : N) : list nat := filter (coord t) (seq 0 n).
