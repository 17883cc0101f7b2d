(** Reachability and strong components. *)

From Coq Require Import List Arith Relations Sorted.
Import ListNotations.
Open Scope nat_scope.

(** edge lists by vertex; all edges lead to vertices *)
Definition well_formed (g : list (list nat)) : Prop := forall l y, In l g -> In y l -> y < length g.
Definition edge (g : list (list nat)) (x y : nat) : Prop := exists l, nth_error g x = Some l /\ In y l.
Definition reach (g : list (list nat)) : nat -> nat -> Prop := clos_refl_trans nat (edge g).
(** x and y are in the same strong component *)
Definition strong (g : list (list nat)) (x y : nat) : Prop := reach g x y /\ reach g y x.

(** x and y are joined by edges in both directions *)
Definition both_ways (g : list (list nat)) (x y : nat) : Prop := edge g x y /\ edge g y x.
Definition linked (g : list (list nat)) : nat -> nat -> Prop := clos_refl_trans nat (both_ways g).

Definition increasing (l : list nat) : Prop := StronglySorted lt l.

(** [h] is the graph on classes of vertices, with an edge between two different
    classes whenever some edge leads from the one to the other; edge lists increase *)
Definition induced (g : list (list nat)) (cls : list nat) (h : list (list nat)) : Prop :=
  (forall c d, edge h c d <-> c <> d /\ exists x y, edge g x y /\ nth_error cls x = Some c /\ nth_error cls y = Some d) /\
  (forall l, In l h -> increasing l).
