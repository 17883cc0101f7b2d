(** Global Tits groups: pairs of an element exp(pi i q) of a torus, with q a vector of rational numbers of size [r] determined up to
    even integers, and an element of the Weyl group given by a word. Column [s] of [A] is a simple coroot (a vector of the space where q
    lives), column [s] of [B] is a simple root, [C] is the Cartan matrix, [g] the matrix of the distinguished involution, [f] its
    permutation of the generators. *)

From Coq Require Import List Arith ZArith QArith.
From Verif Require Import RunModel MatSpec RatVecModel RatVecSpec WeylModel WeylSpec TwistSpec DatModel YvSpec GtModel.
Import ListNotations.
Open Scope nat_scope.

(** [t] represents exp(pi i q), in reduced form or not *)
Definition is_exp (t : rvec) (r : nat) (q : nat -> Q) : Prop := exists p, is_rv t r p /\ forall i, i < r -> even_apart (p i) (q i).
Definition is_diff (r : nat) (p q : nat -> Q) : Prop := forall i, i < r -> even_apart (p i) (q i).
(** no entry of the vector [t], nor twice its denominator, is larger than [M] *)
Definition sized_by (M : Z) (t : rvec) : Prop := (2 * den t <= M)%Z /\ forall x, In x (num t) -> (Z.abs x <= M)%Z.

Section Spec.
Variables (r n : nat) (A B C : nat -> nat -> Z) (f : list nat) (g : nat -> nat -> Z).
(** value of root [s] *)
Definition rootQ (s : nat) (q : nat -> Q) : Q := pairQ r (fun j => B j s) q.
Definition reflQ (s : nat) (q : nat -> Q) : nat -> Q := fun k => (q k - rootQ s q * inject_Z (A k s))%Q.
(** action of a word; the last letter acts first *)
Definition wordQ (u : list nat) (q : nat -> Q) : nat -> Q := fold_right reflQ q u.
(** the involution of the torus given by a twisted involution *)
Definition thetaQ (u : list nat) (q : nat -> Q) : nat -> Q := wordQ u (actQ r g q).
(** all roots take the value 1 at exp(pi i q) *)
Definition centralQ (q : nat -> Q) : Prop := forall s, s < n -> even_apart (rootQ s q) 0.
Definition squareQ (q : nat -> Q) (u : list nat) : nat -> Q := fun i => (q i + thetaQ u q i)%Q.
(** strong involutions: the Weyl group part is a twisted involution, and the square is central *)
Definition strong (q : nat -> Q) (u : list nat) : Prop := twisted_involution n C f u /\ centralQ (squareQ q u).
(** types of generators for a twisted involution *)
Definition commutes (u : list nat) (s : nat) : Prop := same n (coxeter C) (s :: u) (u ++ [nth s f 0]).
Definition imaginary (u : list nat) (s : nat) : Prop := commutes u s /\ exists k, shortest n (coxeter C) u k /\ shortest n (coxeter C) (s :: u) (S k).
Definition real (u : list nat) (s : nat) : Prop := commutes u s /\ exists k, shortest n (coxeter C) u (S k) /\ shortest n (coxeter C) (s :: u) k.
End Spec.

(** the element [s] of the group times an element given by [q] and [u], by cross action: reflection when [s] is complex for [u]; with
    a translation by the coroot when it is imaginary; the identity when it is real *)
Definition crossed (r n : nat) (A B C : nat -> nat -> Z) (f : list nat) (s : nat) (q : nat -> Q) (u : list nat) (q' : nat -> Q) : Prop :=
  (~ commutes n C f u s -> is_diff r q' (reflQ r A B s q)) /\
  (imaginary n C f u s -> is_diff r q' (fun i => reflQ r A B s q i + inject_Z (A i s))%Q) /\
  (real n C f u s -> is_diff r q' q).
(** the same for a word acting on the left, its last letter first *)
Fixpoint crossed_word (r n : nat) (A B C : nat -> nat -> Z) (f : list nat) (ww : list nat) (q : nat -> Q) (u : list nat) (q' : nat -> Q) : Prop :=
  match ww with
  | [] => is_diff r q' q
  | s :: v => exists p, crossed_word r n A B C f v q u p /\ crossed r n A B C f s p (v ++ u ++ rev (relabel f v)) q'
  end.
(** [z] is half the change of length between [u] and [v] *)
Definition half_change (n : nat) (C : nat -> nat -> Z) (z : Z) (v u : list nat) : Prop :=
  forall a b, shortest n (coxeter C) v a -> shortest n (coxeter C) u b -> (2 * z = Z.of_nat a - Z.of_nat b)%Z.

(** the group stored in [G]: the simple coroots [A], simple roots [B], Cartan matrix [C], twist [f] and involution [g] are compatible *)
Definition compatible (r n : nat) (A B C : nat -> nat -> Z) (f : list nat) (g : nat -> nat -> Z) : Prop :=
  twist_of n C f /\
  (forall s t, s < n -> t < n -> zsum r (fun k => B k s * A k t)%Z = C s t) /\
  (forall i j, i < r -> j < r -> zsum r (fun k => g i k * g k j)%Z = if i =? j then 1%Z else 0%Z) /\
  (forall s i, s < n -> i < r -> zsum r (fun j => g i j * A j s)%Z = A i (nth s f 0)) /\
  (forall s j, s < n -> j < r -> zsum r (fun i => B i (nth s f 0%nat) * g i j)%Z = B j s).
Definition global_of (r n : nat) (A B C : nat -> nat -> Z) (f : list nat) (g : nat -> nat -> Z) (G : global) : Prop :=
  weyl_of n C (gt_W G) /\ gt_twist G = f /\ is_mx (p_roots (gt_prd G)) r n A /\ is_mx (p_coroots (gt_prd G)) r n B /\ is_mx (gt_delta G) r r g /\
  compatible r n A B C f g.
(** the element [a] represents the vector [q] and the word [u] *)
Definition elt_of (r n : nat) (G : global) (q : nat -> Q) (u : list nat) (a : gelt) : Prop :=
  is_exp (fst a) r q /\ over n u /\ element (gt_W G) u = Ok (snd a).
