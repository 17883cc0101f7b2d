(** The Tits group by generators and relations, and its twisted forms *)

From Coq Require Import List Arith NArith ZArith Bool.
From Verif Require Import WeylSpec F2Spec.
Import ListNotations.
Open Scope nat_scope.

(** generators: [Sig s] for each simple root, [Tor x] for each element of order two of the torus *)
Inductive letter := Sig (s : nat) | Tor (x : N).

Section Presentation.
(** [n] simple roots, with Coxeter matrix [m]; torus of rank [r]; simple roots and coroots modulo 2 *)
Variables (n : nat) (m : nat -> nat -> nat) (r : nat) (root coroot : nat -> N).

(** reflection [s] of an element of order two of the torus *)
Definition reflect2 (s : nat) (x : N) : N := if scalar r (root s) x then N.lxor x (coroot s) else x.
(** the action of a product of reflections: the last letter acts first *)
Definition act2 (u : list nat) (x : N) : N := fold_right reflect2 x u.

Definition proper (a : letter) : Prop := match a with Sig s => s < n | Tor x => within r x end.
Definition proper_word (u : list letter) : Prop := forall a, In a u -> proper a.

(** words representing the same element of the Tits group *)
Inductive tsame : list letter -> list letter -> Prop :=
| ts_refl u : tsame u u
| ts_sym u v : tsame u v -> tsame v u
| ts_trans u v w : tsame u v -> tsame v w -> tsame u w
| ts_app u u' v v' : tsame u u' -> tsame v v' -> tsame (u ++ v) (u' ++ v')
| ts_square s : s < n -> tsame [Sig s; Sig s] [Tor (coroot s)]
| ts_braid s t : s < n -> t < n -> s <> t -> tsame (map Sig (alt (m s t) s t)) (map Sig (alt (m s t) t s))
| ts_one : tsame [Tor 0] []
| ts_add x y : within r x -> within r y -> tsame [Tor x; Tor y] [Tor (N.lxor x y)]
| ts_commute s x : s < n -> within r x -> tsame [Sig s; Tor x] [Tor (reflect2 s x); Sig s].

(** the inverse of a generator *)
Definition sig_inv (s : nat) : list letter := [Tor (coroot s); Sig s].
Fixpoint inverse_word (u : list letter) : list letter :=
  match u with
  | [] => []
  | Sig s :: u => inverse_word u ++ sig_inv s
  | Tor x :: u => inverse_word u ++ [Tor x]
  end.

(** conjugation by the base element of the coset: [f] permutes the simple roots, [d] acts on the
    torus, and [g] gives the sign by which the generator [Sig s] is carried to [Sig (f s)] *)
Definition twist_letter (f : nat -> nat) (d : N -> N) (g : nat -> bool) (a : letter) : list letter :=
  match a with
  | Sig s => if g (f s) then [Sig (f s); Tor (coroot (f s))] else [Sig (f s)]
  | Tor x => [Tor (d x)]
  end.
Definition twist_word (f : nat -> nat) (d : N -> N) (g : nat -> bool) (u : list letter) : list letter :=
  flat_map (twist_letter f d g) u.
End Presentation.
