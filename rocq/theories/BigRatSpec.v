(** Specification vocabulary for exact rationals: the fraction p/q denoted by
    a pair of digit vectors, and "lowest terms with positive denominator". *)

From Coq Require Import ZArith.
From Verif Require Import BigIntSpec BigRatModel.
Open Scope Z_scope.

(** Lowest terms, positive denominator, both members in shortest form. *)
Definition canonical (r : big_rat) : Prop :=
  normal (num r) /\ normal (den r) /\ 0 < sval (den r) /\
  Z.gcd (sval (num r)) (sval (den r)) = 1.

(** [is_frac r p q]: r is the canonical form of the rational number p/q. *)
Definition is_frac (r : big_rat) (p q : Z) : Prop :=
  canonical r /\ sval (num r) * q = p * sval (den r).

(** A call that returns normally with the canonical form of p/q. *)
Definition gives (o : option big_rat) (p q : Z) : Prop :=
  exists r, o = Some r /\ is_frac r p q.
