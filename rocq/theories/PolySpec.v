(** What the functions on polynomials should compute, in terms of coefficients. *)

From Coq Require Import List Arith ZArith Lia.
Import ListNotations.
Open Scope Z_scope.

(** The coefficient of X^i of the polynomial with coefficient list [p] *)
Definition cf (p : list Z) (i : nat) : Z := nth i p 0.
(** The leading coefficient, if there is one, is nonzero *)
Definition normal (p : list Z) : Prop := p = [] \/ cf p (length p - 1) <> 0.
(** All coefficients fit in an unsigned type of width [w] *)
Definition fits (w : Z) (p : list Z) : Prop := forall i, 0 <= cf p i < 2 ^ w.

(** f(0)+...+f(n-1) *)
Fixpoint sum (n : nat) (f : nat -> Z) : Z := match n with O => 0 | S m => sum m f + f m end.
(** coefficient of X^k in the product *)
Definition conv (f g : nat -> Z) (k : nat) : Z := sum (S k) (fun i => f i * g (k - i)%nat).
(** coefficient of X^k in the product of X^d and f *)
Definition shift (d : nat) (f : nat -> Z) (k : nat) : Z := if (k <? d)%nat then 0 else f (k - d)%nat.
(** value at x, for the coefficients below n *)
Definition eval (p : list Z) (x : Z) : Z := sum (length p) (fun i => cf p i * x ^ Z.of_nat i).
(** coefficient of X^k in (1+cX^e)f *)
Definition times_1_plus (c : Z) (e : nat) (f : nat -> Z) (k : nat) : Z := f k + c * shift e f k.

(** Comparison of polynomials: by degree, then by the highest coefficient in which they differ *)
Definition precedes (p q : list Z) : Prop :=
  (length p < length q)%nat \/
  (length p = length q /\ exists i, cf p i < cf q i /\ forall j, (i < j)%nat -> cf p j = cf q j).
(** Lexicographic order from the lowest coefficient *)
Definition lex (p q : list Z) : Prop :=
  exists i, (forall j, (j < i)%nat -> nth_error p j = nth_error q j) /\
    match nth_error p i, nth_error q i with
    | Some a, Some b => a < b
    | None, Some _ => True
    | _, None => False
    end.
