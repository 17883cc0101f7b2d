(** The classes of roots for an involution, given by a permutation of the numbers of the roots. *)

From Coq Require Import List Arith ZArith Bool Sorted.
From Verif Require Import VecModel RunModel RootModel RootSpec RootTop IvModel.
Import ListNotations.

Section Classes.
Variables (n : nat) (s : rootsys).
Notation np := (num_pos s).
Notation nr := (num_roots s).
(** the members of the closure under negation of a set of roots *)
Definition plus_minus (T : bset) (a : nat) : Prop := (a < nr)%nat /\ (bmem T a = true \/ bmem T (nr - 1 - a) = true).
(** [perm] gives the classes among the roots satisfying [P] *)
Definition classes (P : nat -> Prop) (x : invdata) : Prop :=
  (length (i_imag x) = nr /\ length (i_real x) = nr /\ length (i_complex x) = nr) /\
  (forall a, bmem (i_imag x) a = true <-> (a < nr)%nat /\ P a /\ get (i_perm x) a = Some a) /\
  (forall a, bmem (i_real x) a = true <-> (a < nr)%nat /\ P a /\ get (i_perm x) a = Some (nr - 1 - a)%nat) /\
  (forall a, bmem (i_complex x) a = true <-> (a < nr)%nat /\ P a /\ get (i_perm x) a <> Some a /\ get (i_perm x) a <> Some (nr - 1 - a)%nat).
(** [l] has the positive members of [T] that are not sums of two such, each once *)
Definition simples (T : bset) (l : list nat) : Prop :=
  NoDup l /\ forall a, In a l <-> bmem T a = true /\ (np <= a)%nat /\
    ~ exists b d, bmem T b = true /\ (np <= b)%nat /\ bmem T d = true /\ (np <= d)%nat /\ root_at s a = plus n (root_at s b) (root_at s d).
(** [perm] is given by the map [g] on the vectors [v] of the roots *)
Definition moves (v : nat -> list Z) (g : list Z -> list Z) (perm : list nat) : Prop :=
  length perm = nr /\ forall a, (a < nr)%nat -> exists b, get perm a = Some b /\ (b < nr)%nat /\ v b = g (v a).
(** closed under the reflections in its members *)
Definition closed (P : nat -> Prop) : Prop := forall a b d, P a -> P b -> reflected s a b = Ok d -> P d.
End Classes.
