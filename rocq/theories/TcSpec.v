(** Complex generators for a twisted involution, and roots fixed by it *)

From Coq Require Import List Arith NArith ZArith Bool.
From Verif Require Import WeylSpec RootSpec.
Import ListNotations.
Open Scope nat_scope.

Section Twisted.
Variables (n : nat) (A : nat -> nat -> Z) (f : list nat).
(** twisted conjugation of the element of [v] by generator [s] *)
Definition conjugated (s : nat) (v : list nat) : list nat := s :: v ++ [nth s f 0].
(** it changes the length by 2 *)
Definition complex_for (s : nat) (v : list nat) : Prop :=
  exists k k', shortest n (coxeter A) v k /\ shortest n (coxeter A) (conjugated s v) k' /\ (k' = k + 2 \/ k = k' + 2).
(** successive conjugations by the letters of [w], each of which is complex *)
Fixpoint complex_path (w v : list nat) : Prop :=
  match w with [] => True | s :: w => complex_for s v /\ complex_path w (conjugated s v) end.
(** the element of [v] carries the image of [x] by the twist to [x]: the root [x] is imaginary for the twisted involution *)
Definition fixed_by (v : list nat) (x : list Z) : Prop :=
  forall i, i < n -> co (word_act n A (rev v) x) (nth i f 0) = co x i.
End Twisted.
(** a positive root that is imaginary, and not the sum of two positive imaginary roots *)
Definition simple_imaginary (n : nat) (A : nat -> nat -> Z) (f v : list nat) (x : list Z) : Prop :=
  fixed_by n A f v x /\
  forall y z, is_root n A y -> nonneg y -> is_root n A z -> nonneg z -> fixed_by n A f v y -> fixed_by n A f v z -> x <> plus n y z.
