(** Relations on the numbers less than n, their transitive closure and its cliques. *)

From Coq Require Import List Arith Relations Sorted.
Import ListNotations.
Open Scope nat_scope.

(** lists of successors *)
Definition bounded (g : list (list nat)) : Prop := forall l y, In l g -> In y l -> y < length g.
Definition arrow (g : list (list nat)) (x y : nat) : Prop := exists l, nth_error g x = Some l /\ In y l.
(** y is reached from x by a path of at least one step *)
Definition path (g : list (list nat)) : nat -> nat -> Prop := clos_trans nat (arrow g).
Definition mutual (g : list (list nat)) (x y : nat) : Prop := path g x y /\ path g y x.

(** f decides R on all numbers *)
Definition computes (f : nat -> nat -> option bool) (R : nat -> nat -> Prop) : Prop :=
  forall x y, exists r, f x y = Some r /\ (r = true <-> R x y).
