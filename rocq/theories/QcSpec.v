(** Square classes: gradings of the fixed simple roots, up to those given by the fixed coweights. *)

From Coq Require Import List Arith ZArith Bool.
From Verif Require Import MatSpec.

Section Spec.
(** rank, number of simple roots, simple roots in columns, twist, involution of the weights *)
Variables (r n : nat) (A : nat -> nat -> Z) (f : list nat) (g : nat -> nat -> Z).
(** [v] is a coweight fixed by the transposed involution *)
Definition fixed_coweight (v : nat -> Z) : Prop := forall i, i < r -> zsum r (fun j => g j i * v j)%Z = v i.
(** the gradings [c] and [d] of the simple roots fixed by the twist differ by that of a fixed coweight *)
Definition same_class (c d : nat -> bool) : Prop :=
  exists v, fixed_coweight v /\ forall s, s < n -> nth s f 0 = s -> xorb (c s) (d s) = Z.odd (zsum r (fun j => A j s * v j)%Z).
(** the simple roots [L] are fixed by the twist, and each grading is in the class of exactly one that is zero outside [L] *)
Definition class_basis (L : list nat) : Prop :=
  (forall s, In s L -> s < n /\ nth s f 0 = s) /\
  (forall c, exists d, (forall s, d s = true -> In s L) /\ same_class c d) /\
  forall c d d', (forall s, d s = true -> In s L) -> (forall s, d' s = true -> In s L) -> same_class c d -> same_class c d' -> forall s, d s = d' s.
End Spec.
