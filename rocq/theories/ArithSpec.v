(** Specification vocabulary for machine rationals. *)

From Coq Require Import ZArith.
From Verif Require Import ArithModel.
Open Scope Z_scope.

(** signed 64-bit number whose negative is also one *)
Definition sint (x : Z) : Prop := - 2 ^ 63 < x < 2 ^ 63.

(** Lowest terms, positive denominator that fits an unsigned word. *)
Definition lowest (r : rational) : Prop :=
  sint (rnum r) /\ 0 < rden r < 2 ^ 64 /\ Z.gcd (rnum r) (rden r) = 1.

(** The call returns the fraction p/q in lowest terms. *)
Definition yields (o : option rational) (p q : Z) : Prop :=
  exists r, o = Some r /\ lowest r /\ rnum r * q = p * rden r.
