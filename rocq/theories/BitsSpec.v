(** Specification vocabulary for machine words. *)

From Coq Require Import ZArith.
Open Scope Z_scope.

(** a 64-bit word *)
Definition word (x : Z) : Prop := 0 <= x < 2 ^ 64.

(** Number of i < k with bit i of v set. *)
Fixpoint bits_below (v : Z) (k : nat) : Z :=
  match k with
  | O => 0
  | S j => bits_below v j + (if Z.testbit v (Z.of_nat j) then 1 else 0)
  end.
