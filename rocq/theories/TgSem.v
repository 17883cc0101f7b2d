(** The elements of a Tits group that the values of the program stand for *)

From Coq Require Import List Arith NArith ZArith Bool.
From Verif Require Import RunModel MatSpec F2Model F2Spec F2Proofs WeylModel WeylSpec TwistSpec TgModel TgSpec.
Import ListNotations.
Open Scope nat_scope.

(** the simple roots and coroots modulo 2, as stored *)
Definition root2 (G : tits_group) (s : nat) : N := data (nth s (tg_root G) (bv_zero 0)).
Definition coroot2 (G : tits_group) (s : nat) : N := data (nth s (tg_coroot G) (bv_zero 0)).
(** [G] stores the Weyl group of the Cartan matrix [A], and roots and coroots for a torus of rank [r] whose
    pairings modulo 2 are given by [A] *)
Record tits_of (dim n : nat) (A : nat -> nat -> Z) (r : nat) (G : tits_group) : Prop := {
  to_weyl : weyl_of n A (tg_W G);
  to_rank : tg_rank G = r;
  to_dim : r <= dim;
  to_roots : length (tg_root G) = n /\ Forall (sized r) (tg_root G);
  to_coroots : length (tg_coroot G) = n /\ Forall (sized r) (tg_coroot G);
  to_pairing : forall s t, s < n -> t < n -> scalar r (root2 G s) (coroot2 G t) = Z.odd (A s t) }.
(** the twist is an automorphism of the diagram of order at most 2, and the action on the torus is compatible with it *)
Record twist_ok (dim n : nat) (A : nat -> nat -> Z) (r : nat) (G : tits_group) : Prop := {
  tw_twist : twist_of n A (tg_twist G);
  tw_matrix : is_matrix r r (cols (tg_inv G)) /\ rows (tg_inv G) = r;
  tw_square : forall x, within r x -> image_of (cols (tg_inv G)) (image_of (cols (tg_inv G)) x) = x;
  tw_coroot : forall s, s < n -> image_of (cols (tg_inv G)) (coroot2 G s) = coroot2 G (nth s (tg_twist G) 0);
  tw_root : forall s x, s < n -> within r x -> scalar r (root2 G (nth s (tg_twist G) 0)) (image_of (cols (tg_inv G)) x) = scalar r (root2 G s) x }.
(** equality in the Tits group of [G] *)
Notation tequal n A r G := (tsame n (coxeter A) r (root2 G) (coroot2 G)).
(** the value [a] stands for the element given by the word [u]: a torus part, followed by a shortest word for its Weyl part *)
Definition denotes (n : nat) (A : nat -> nat -> Z) (r : nat) (G : tits_group) (u : list letter) (a : telt) : Prop :=
  exists v, over n v /\ element (tg_W G) v = Ok (te_w a) /\ shortest n (coxeter A) v (length v) /\
    sized r (te_t a) /\ tequal n A r G u (Tor (data (te_t a)) :: map Sig v).
(** the image of a word under conjugation by the base element, whose signs are [g] *)
Definition twisted_word (G : tits_group) (g : N) (u : list letter) : list letter :=
  twist_word (coroot2 G) (fun s => nth s (tg_twist G) 0) (image_of (cols (tg_inv G))) (coord g) u.
(** [v . u delta . v^-1 = (conjugate v u) delta] *)
Definition conjugate (G : tits_group) (g : N) (v u : list letter) : list letter := v ++ u ++ twisted_word G g (inverse_word (coroot2 G) v).
(** the square of [u delta] is 1 *)
Definition square_one (n : nat) (A : nat -> nat -> Z) (r : nat) (G : tits_group) (g : N) (u : list letter) : Prop := tequal n A r G (u ++ twisted_word G g u) [].
(** the elements by which the cross actions conjugate: a generator, or its inverse *)
Definition cross_by (G : tits_group) (g : N) (s : nat) : list letter := if coord g s then sig_inv (coroot2 G) s else [Sig s].
(** [s] is imaginary for the element of the word [v] *)
Definition imaginary_for (n : nat) (A : nat -> nat -> Z) (f : list nat) (s : nat) (v : list nat) : Prop :=
  same n (coxeter A) (s :: v) (v ++ [nth s f 0]) /\ forall k, shortest n (coxeter A) v k -> shortest n (coxeter A) (s :: v) (S k).
(** the base element has the same sign at a root and at its image *)
Definition signs_ok (n : nat) (G : tits_group) (g : N) : Prop := forall s, s < n -> coord g (nth s (tg_twist G) 0) = coord g s.
(** whether [s] is noncompact *)
Definition noncompact (r : nat) (G : tits_group) (g : N) (s : nat) (a : telt) : bool := xorb (coord g s) (scalar r (root2 G s) (data (te_t a))).
