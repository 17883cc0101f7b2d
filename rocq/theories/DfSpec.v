(** Automorphisms of a root datum: given by matrices [g] acting on the left on weights. *)

From Coq Require Import List Arith ZArith Bool.
From Verif Require Import MatSpec RootSpec DatSpec DfModel.
Import ListNotations.
Local Open Scope Z_scope.

Section Maps.
Variables (r n : nat) (A B : nat -> nat -> Z).
Notation al := (fcol r A).
Notation be := (fcol r B).
Notation C := (fun i j => dot r (al i) (be j)).
(** the image of a weight *)
Definition image_by (g : nat -> nat -> Z) (v : list Z) : list Z := comb r r (fcol r g) v.
(** each simple root goes to a root, and the transpose takes its coroot to the simple coroot *)
Definition automorphism (g : nat -> nat -> Z) : Prop :=
  forall i, (i < n)%nat -> exists u w, root_coroot n C u w /\ image_by g (al i) = comb r n al u /\
    forall v, length v = r -> dot r (image_by g v) (comb r n be w) = dot r v (be i).
(** the same with simple roots, permuted by [pi] *)
Definition permutes_simple (g : nat -> nat -> Z) (pi : nat -> nat) : Prop :=
  forall i, (i < n)%nat -> (pi i < n)%nat /\ image_by g (al i) = al (pi i) /\
    forall v, length v = r -> dot r (image_by g v) (be (pi i)) = dot r v (be i).
Definition involutive (g : nat -> nat -> Z) : Prop := forall v, length v = r -> image_by g (image_by g v) = v.
End Maps.

(** the generators in an orbit *)
Definition gens_of (x : ext_gen) : list nat := match x with One s => [s] | Two s t => [s; t] | Three s t => [s; t] end.
(** the word of the longest element of the group they generate (lietype.h:157, w_kappa) *)
Definition word_of (x : ext_gen) : list nat := match x with One s => [s] | Two s t => [s; t] | Three s t => [s; t; s] end.
(** [l] lists the orbits of [pi] on 0..n-1, according to orthogonality *)
Definition orbits_of (n : nat) (pi : nat -> nat) (orth : nat -> nat -> Prop) (l : list ext_gen) : Prop :=
  (forall s, In (One s) l <-> (s < n)%nat /\ pi s = s) /\
  (forall s t, In (Two s t) l <-> (s < n)%nat /\ (s < t)%nat /\ pi s = t /\ orth s t) /\
  (forall s t, In (Three s t) l <-> (s < n)%nat /\ (s < t)%nat /\ pi s = t /\ ~ orth s t).
(** the sum of the simple roots of an orbit; the coroot going with it *)
Definition orbit_root (r : nat) (al : nat -> list Z) (x : ext_gen) : list Z :=
  match x with One s => al s | Two s t => plus r (al s) (al t) | Three s t => plus r (al s) (al t) end.
Definition orbit_coroot (r : nat) (be : nat -> list Z) (x : ext_gen) : list Z :=
  match x with One s => be s | Two s t => be s | Three s t => plus r (be s) (be t) end.
