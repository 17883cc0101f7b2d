(** Root data: simple roots and simple coroots in lattices Z^r that are dual to each other. *)

From Coq Require Import List Arith ZArith Bool.
From Verif Require Import MatSpec LieTypeSpec RootSpec.
Import ListNotations.
Local Open Scope Z_scope.

(** the pairing of weights and coweights *)
Definition dot (r : nat) (v w : list Z) : Z := zsum r (fun k => co v k * co w k).
(** the reflection for the root [a] with coroot [b]: v - <v,b> a *)
Definition reflect_at (r : nat) (a b v : list Z) : list Z := away r v (dot r v b) a.
(** the combination of the vectors [al i] with coefficients [u] *)
Definition comb (r n : nat) (al : nat -> list Z) (u : list Z) : list Z :=
  map (fun k => zsum n (fun i => co u i * co (al i) k)) (seq 0 r).
(** the action of a word in the reflections for [al i], [be i]; the last letter acts first *)
Definition act_by (r : nat) (al be : nat -> list Z) (ww : list nat) (v : list Z) : list Z :=
  fold_right (fun i => reflect_at r (al i) (be i)) v ww.
(** not negative on the vectors [be i] *)
Definition dominant (r n : nat) (be : nat -> list Z) (v : list Z) : Prop :=
  forall i, (i < n)%nat -> 0 <= dot r v (be i).
(** the columns of a matrix *)
Definition fcol (r : nat) (f : nat -> nat -> Z) (j : nat) : list Z := map (fun i => f i j) (seq 0 r).
(** the matrix of the reflection for the root [a] with coroot [b] *)
Definition rmatrix (a b : list Z) (i j : nat) : Z := delta i j - co a i * co b j.
