(** Orthogonal and strongly orthogonal sets of roots, and gradings changed by Cayley transforms. *)

From Coq Require Import List Arith ZArith Bool.
From Verif Require Import RootSpec.
Import ListNotations.
Local Open Scope Z_scope.

Section Sets.
(** roots and coroots by number *)
Variables (n : nat) (C : nat -> nat -> Z) (rt crt : nat -> list Z).
(** the roots of the list are different and pairwise orthogonal *)
Definition orthogonal (l : list nat) : Prop :=
  NoDup l /\ forall a b, In a l -> In b l -> a <> b -> value n C (rt a) (crt b) = 0.
(** two roots whose sum is a root *)
Definition addable (a b : nat) : Prop := is_root n C (plus n (rt a) (rt b)).
(** and moreover no sum or difference of two of them is a root *)
Definition strongly_orthogonal (l : list nat) : Prop :=
  orthogonal l /\ forall a b, In a l -> In b l -> a <> b -> ~ addable a b /\ ~ is_root n C (away n (rt a) 1 (rt b)).
(** the product of the reflections in the roots of a list *)
Definition reflections (l : list nat) (v : list Z) : list Z := fold_right (fun a u => reflect n C (rt a) (crt a) u) v l.
(** the Cayley transform through a root [a] leaves the roots orthogonal to [a]; those that can be added to [a] change
    between compact and noncompact.  The head of the list is the last transform *)
Fixpoint noncompact_after (N : nat -> Prop) (l : list nat) (x : nat) : Prop :=
  match l with
  | [] => N x
  | a :: l' => (addable a x /\ ~ noncompact_after N l' x) \/ (~ addable a x /\ noncompact_after N l' x)
  end.
(** [x] can be the next root after those of [l] *)
Definition candidate (N S : nat -> Prop) (l : list nat) (x : nat) : Prop :=
  S x /\ (forall a, In a l -> value n C (rt x) (crt a) = 0) /\ noncompact_after N l x.
(** repeatedly taking the first candidate *)
Inductive selection (N S : nat -> Prop) : list nat -> Prop :=
| sel_none : selection N S []
| sel_more l x : selection N S l -> candidate N S l x -> (forall y, candidate N S l y -> (x <= y)%nat) -> selection N S (x :: l).
(** [N] is a grading of the set [S] of roots below [m], which is closed under opposites and sums *)
Definition grading (m : nat) (N S : nat -> Prop) : Prop :=
  (forall a b, (a < m)%nat -> (b < m)%nat -> S a -> rt b = opp (rt a) -> S b /\ (N b <-> N a)) /\
  (forall a b g, (a < m)%nat -> (b < m)%nat -> (g < m)%nat -> S a -> S b -> rt g = plus n (rt a) (rt b) ->
     S g /\ (N g <-> (N a /\ ~ N b) \/ (~ N a /\ N b))).
End Sets.
