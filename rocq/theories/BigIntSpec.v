(** Specification vocabulary for big integers: the integer denoted by a digit
    vector in two's complement, and "shortest representation".  Independent of
    the functions in BigIntModel. *)

From Coq Require Import ZArith List Bool.
Import ListNotations.
Open Scope Z_scope.

(** Digits are 32-bit words. *)
Definition digit (x : Z) : Prop := 0 <= x < 2 ^ 32.

(** Unsigned value of a little-endian digit list. *)
Fixpoint uval (d : list Z) : Z :=
  match d with [] => 0 | x :: t => x + 2 ^ 32 * uval t end.

(** Two's complement value: the top bit of the top digit has negative weight. *)
Definition sval (d : list Z) : Z :=
  uval d - (if 2 ^ 31 <=? last d 0
            then (2 ^ 32) ^ Z.of_nat (length d) else 0).

(** A valid digit vector: nonempty, all digits in range. *)
Definition wf (d : list Z) : Prop := d <> [] /\ Forall digit d.

(** Shortest representation of its value. *)
Definition normal (d : list Z) : Prop :=
  wf d /\ forall d', wf d' -> sval d' = sval d -> (length d <= length d')%nat.

(** [repr d v]: d is the shortest representation of v. *)
Definition repr (d : list Z) (v : Z) : Prop := normal d /\ sval d = v.

(** Number of set bits of v at positions below k. *)
Fixpoint count_bits (v : Z) (k : nat) : Z :=
  match k with
  | O => 0
  | S j => count_bits v j + (if Z.testbit v (Z.of_nat j) then 1 else 0)
  end.

(** Number denoted by a list of digits in base b, most significant first. *)
Definition num_value (b : Z) (ds : list Z) : Z := fold_left (fun a x => a * b + x) ds 0.
