(** What partitions and orbits are. *)

From Coq Require Import List Arith Relations.
Import ListNotations.
Open Scope nat_scope.

(** y is the image of x, an element of {0,...,n-1}, by one of the generators 0,...,c-1 *)
Definition moves (a : nat -> nat -> nat) (c n : nat) (x y : nat) : Prop := x < n /\ exists i, i < c /\ y = a i x.
(** x and y are in the same orbit of the group generated *)
Definition same_orbit (a : nat -> nat -> nat) (c n : nat) : nat -> nat -> Prop := clos_refl_sym_trans nat (moves a c n).
(** the generators permute {0,...,n-1} *)
Definition acts (a : nat -> nat -> nat) (c n : nat) : Prop :=
  forall i, i < c -> (forall x, x < n -> a i x < n) /\
    (forall x y, x < n -> y < n -> a i x = a i y -> x = y).

(** [cls] assigns classes numbered from 0 in the order of their smallest
    elements, which are listed in [rep]; two elements of {0,...,n-1} have the same
    class exactly when R holds for them *)
Definition classifies (n : nat) (R : nat -> nat -> Prop) (cls rep : list nat) : Prop :=
  length cls = n /\
  (forall x y c d, nth_error cls x = Some c -> nth_error cls y = Some d -> (c = d <-> R x y)) /\
  (forall x c, nth_error cls x = Some c -> exists r, nth_error rep c = Some r /\ r <= x) /\
  (forall c r, nth_error rep c = Some r -> nth_error cls r = Some c) /\
  (forall c d r s, c < d -> nth_error rep c = Some r -> nth_error rep d = Some s -> r < s).
