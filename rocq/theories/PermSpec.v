(** Specification vocabulary for permutations. *)

From Coq Require Import List Arith.
Import ListNotations.

(** p is a permutation of {0,...,n-1} *)
Definition is_perm (n : nat) (p : list nat) : Prop :=
  length p = n /\ NoDup p /\ forall x, In x p -> x < n.
(** Number of pairs of positions i<j with l[i]>l[j] *)
Fixpoint inversions (l : list nat) : nat :=
  match l with
  | [] => 0
  | x :: t => length (filter (fun y => y <? x) t) + inversions t
  end.
(** Number of elements of l with property P *)
Definition card {A} (P : A -> bool) (l : list A) : nat := length (filter P l).
(** less is a strict weak ordering: irreflexive, transitive, incomparability transitive *)
Definition strict_weak {A} (less : A -> A -> bool) : Prop :=
  (forall x, less x x = false) /\
  (forall x y z, less x y = true -> less y z = true -> less x z = true) /\
  (forall x y z, less x y = false -> less y z = false -> less x z = false).
