(** Root systems given by a Cartan matrix: roots and coroots are the images of the simple ones under
    the Weyl group. *)

From Coq Require Import List Arith ZArith Bool.
From Verif Require Import MatSpec LieTypeSpec.
Import ListNotations.
Local Open Scope Z_scope.

(** vectors are lists of coefficients on the simple roots (or simple coroots) *)
Definition co (v : list Z) (j : nat) : Z := nth j v 0.
Definition bump (v : list Z) (i : nat) (z : Z) : list Z :=
  map (fun k => if Nat.eqb k i then co v k + z else co v k) (seq 0 (length v)).
Definition basis (n i : nat) : list Z := map (fun k => if Nat.eqb k i then 1 else 0) (seq 0 n).
Definition opp (v : list Z) : list Z := map Z.opp v.
Definition nonneg (v : list Z) : Prop := forall j, 0 <= co v j.
Definition height (v : list Z) : Z := fold_right Z.add 0 v.
Definition flip (C : nat -> nat -> Z) : nat -> nat -> Z := fun i j => C j i.

Section Roots.
Variable n : nat.
(** [C i j] is the value of simple coroot [j] on simple root [i] *)
Variable C : nat -> nat -> Z.
(** the value of simple coroot [i] on [v] *)
Definition pairing (v : list Z) (i : nat) : Z := zsum n (fun j => co v j * C j i).
(** the reflection for simple root [i] *)
Definition sreflect (i : nat) (v : list Z) : list Z := bump v i (- pairing v i).
(** the value of a coroot (in simple coroots) on a root (in simple roots) *)
Definition value (v w : list Z) : Z := zsum n (fun i => zsum n (fun j => co v i * C i j * co w j)).
(** v - c*r *)
Definition away (v : list Z) (c : Z) (r : list Z) : list Z := map (fun k => co v k - c * co r k) (seq 0 n).
Definition plus (v w : list Z) : list Z := map (fun k => co v k + co w k) (seq 0 n).
End Roots.

(** the roots, each with its coroot *)
Inductive root_coroot (n : nat) (C : nat -> nat -> Z) : list Z -> list Z -> Prop :=
| rc_simple i : (i < n)%nat -> root_coroot n C (basis n i) (basis n i)
| rc_reflect i v w : (i < n)%nat -> root_coroot n C v w ->
    root_coroot n C (sreflect n C i v) (sreflect n (flip C) i w).
Definition is_root (n : nat) (C : nat -> nat -> Z) (v : list Z) : Prop := exists w, root_coroot n C v w.
(** the reflection in root [r] with coroot [c] *)
Definition reflect (n : nat) (C : nat -> nat -> Z) (r c v : list Z) : list Z := away n v (value n C v c) r.
(** the action of a word in simple reflections; the last letter acts first *)
Definition word_act (n : nat) (C : nat -> nat -> Z) (ww : list nat) (v : list Z) : list Z :=
  fold_right (sreflect n C) v ww.
(** the linear map that sends simple root [i] to [f i] *)
Definition linear (n : nat) (f : nat -> list Z) (v : list Z) : list Z :=
  map (fun k => zsum n (fun i => co v i * co (f i) k)) (seq 0 n).
(** the sum of a list of vectors *)
Definition vsum (n : nat) (l : list (list Z)) : list Z := fold_right (plus n) (repeat 0 n) l.
(** smaller height, or the same height and smaller at the last difference *)
Definition earlier (u v : list Z) : Prop :=
  height u < height v \/ (height u = height v /\ exists k, co u k < co v k /\ forall j, (k < j)%nat -> co u j = co v j).
