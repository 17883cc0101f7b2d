(** Roots, twists of a Dynkin diagram, twisted involutions *)

From Coq Require Import List Arith ZArith Bool Ascii.
From Verif Require Import MatSpec RunModel WeylModel WeylSpec.
Import ListNotations.
Open Scope nat_scope.

(** *** roots *)
(** value on simple coroot [i] of the root with coefficients [c] (on the simple roots) *)
Definition pairing (n : nat) (A : nat -> nat -> Z) (c : nat -> Z) (i : nat) : Z := zsum n (fun k => c k * A k i)%Z.
(** simple reflection [i] of a root *)
Definition root_reflect (n : nat) (A : nat -> nat -> Z) (i : nat) (c : nat -> Z) : nat -> Z :=
  fun j => if j =? i then (c j - pairing n A c i)%Z else c j.
(** the letters act from left to right *)
Definition root_word (n : nat) (A : nat -> nat -> Z) (u : list nat) (c : nat -> Z) : nat -> Z :=
  fold_left (fun c i => root_reflect n A i c) u c.
Definition simple_root (i : nat) : nat -> Z := fun j => if j =? i then 1%Z else 0%Z.
Definition positive (n : nat) (c : nat -> Z) : Prop := (forall j, j < n -> (0 <= c j)%Z) /\ exists j, j < n /\ (0 < c j)%Z.
Definition negative (n : nat) (c : nat -> Z) : Prop := positive n (fun j => - c j)%Z.

(** *** twists *)
(** [f] is an automorphism of the diagram of [A], equal to its inverse *)
Definition twist_of (n : nat) (A : nat -> nat -> Z) (f : list nat) : Prop :=
  length f = n /\ (forall s, s < n -> nth s f 0 < n /\ nth (nth s f 0) f 0 = s) /\
  forall s t, s < n -> t < n -> A (nth s f 0) (nth t f 0) = A s t.
(** the inverse of the element of [u] is its image by the twist *)
Definition twisted_involution (n : nat) (A : nat -> nat -> Z) (f u : list nat) : Prop :=
  over n u /\ same n (coxeter A) (u ++ relabel f u) [].
(** action on weights of an element followed by the twist *)
Definition twisted_action (A : nat -> nat -> Z) (f u : list nat) (v : nat -> Z) : nat -> Z := fun j => reflect_word A u v (nth j f 0).
(** trace of an action on weights, given by coordinates [0..n-1] *)
Definition trace (n : nat) (F : (nat -> Z) -> nat -> Z) : Z := zsum n (fun j => F (fun k => if k =? j then 1%Z else 0%Z) j).

(** *** expressions for twisted involutions *)
(** letter [s] multiplies on the left by [s]; letter [-1-s] multiplies on the left by [s] and on the
    right by the image of [s]; letters act from right to left *)
Definition letter_gen (z : Z) : nat := Z.to_nat (if (z <? 0)%Z then -1 - z else z).
Definition apply_letter (f : list nat) (z : Z) (u : list nat) : list nat :=
  if (z <? 0)%Z then letter_gen z :: u ++ [nth (letter_gen z) f 0] else letter_gen z :: u.
Definition rebuild (f : list nat) (zs : list Z) : list nat := fold_right (apply_letter f) [] zs.
(** every step gives a twisted involution *)
Definition stepwise (n : nat) (A : nat -> nat -> Z) (f : list nat) (zs : list Z) : Prop :=
  forall a b, zs = a ++ b -> over n (rebuild f b) /\ twisted_involution n A f (rebuild f b).
(** lexicographic order *)
Fixpoint lex_before (a b : list nat) : Prop :=
  match a, b with
  | x :: a, y :: b => x < y \/ (x = y /\ lex_before a b)
  | [], _ :: _ => True
  | _, _ => False
  end.

(** *** orbits of generators *)
Definition orbit_word (f : list nat) (s : nat) (x : list nat) : Prop := forall i, In i x -> i = s \/ i = nth s f 0.
(** [v] is shorter than its products by [i] *)
Definition ascends (n : nat) (A : nat -> nat -> Z) (i : nat) (v : list nat) : Prop :=
  forall k, shortest n (coxeter A) v k -> shortest n (coxeter A) (i :: v) (S k) /\ shortest n (coxeter A) (v ++ [i]) (S k).
(** [v] is shorter than its products by any generator in the orbit of [s], and [u] is a product of
    [v] with such generators; both are twisted involutions, and fixed by the twist *)
Definition orbit_step (n : nat) (A : nat -> nat -> Z) (f : list nat) (s : nat) (u v : list nat) : Prop :=
  twisted_involution n A f u /\ same n (coxeter A) (relabel f u) u /\
  twisted_involution n A f v /\ same n (coxeter A) (relabel f v) v /\
  ascends n A s v /\ ascends n A (nth s f 0) v /\
  exists x y, orbit_word f s x /\ orbit_word f s y /\ same n (coxeter A) u (x ++ v ++ y).
(** the letters are (possibly complemented) indices in a list of representatives of orbits; each step
    uses the first orbit that lowers the element *)
Inductive orbit_expression (n : nat) (A : nat -> nat -> Z) (f reps : list nat) : list Z -> list nat -> Prop :=
| oe_nil u : same n (coxeter A) u [] -> orbit_expression n A f reps [] u
| oe_cons z zs s u v : nth_error reps (letter_gen z) = Some s -> orbit_step n A f s u v -> ~ same n (coxeter A) u v ->
    (forall j t, j < letter_gen z -> nth_error reps j = Some t -> ascends n A t u) ->
    (forall a b, shortest n (coxeter A) u a -> shortest n (coxeter A) v b ->
       ((z < 0)%Z <-> (nth s f 0 = s /\ a = b + 2) \/ (nth s f 0 <> s /\ coxeter A s (nth s f 0) = 2 /\ a = b + 4))) ->
    orbit_expression n A f reps zs v -> orbit_expression n A f reps (z :: zs) u.
