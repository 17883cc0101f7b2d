(** Dual component groups: characters that become trivial on the simply connected cover of the derived group. *)

From Coq Require Import List Arith ZArith Bool.
From Verif Require Import MatSpec.

Section Spec.
(** rank, number of simple roots, simple coroots in columns, involution of the weights *)
Variables (r n : nat) (B g : nat -> nat -> Z).
(** the transposed involution sends coroot [j] to the combination of coroots with coefficients [c k j] *)
Definition on_coroots (c : nat -> nat -> Z) : Prop := forall i j, i < r -> j < n -> zsum r (fun k => g k i * B k j)%Z = zsum n (fun k => B i k * c k j)%Z.
(** the values of the weight [x] at the simple coroots have the parities of an integral function [y] on the coroot lattice that is
    fixed by the involution *)
Definition lifts (c : nat -> nat -> Z) (x : nat -> Z) : Prop :=
  exists y, (forall j, j < n -> zsum n (fun k => c k j * y k)%Z = y j) /\ forall j, j < n -> Z.odd (zsum r (fun i => x i * B i j)%Z) = Z.odd (y j).
End Spec.
