(** Partial orders on initial segments of the natural numbers. *)

From Coq Require Import List Arith Relations Sorted.
Import ListNotations.
Open Scope nat_scope.

(** A poset is given by rows: row j has j entries and entry i tells whether i is
    strictly below j. *)
Definition strictly (p : list (list bool)) (i j : nat) : Prop :=
  exists row, nth_error p j = Some row /\ nth i row false = true.
Definition poset_ok (p : list (list bool)) : Prop :=
  (forall j row, nth_error p j = Some row -> length row = j) /\
  (forall i j k, strictly p i j -> strictly p j k -> strictly p i k).

(** the function f decides the relation R between numbers less than n *)
Definition decides (f : nat -> nat -> option bool) (n : nat) (R : nat -> nat -> Prop) : Prop :=
  forall i j, i < n -> j < n -> exists r, f i j = Some r /\ (r = true <-> R i j).
(** partial order, compatible with the order of the numbers *)
Definition is_order (R : nat -> nat -> Prop) : Prop :=
  (forall i, R i i) /\ (forall i j, R i j -> R j i -> i = j) /\ (forall i j k, R i j -> R j k -> R i k) /\
  (forall i j, R i j -> i <= j).
(** the number of pairs i,j less than n with f i j *)
Definition n_pairs (f : nat -> nat -> option bool) (n : nat) : nat :=
  length (filter (fun '(j, i) => match f i j with Some r => r | None => false end) (list_prod (seq 0 n) (seq 0 n))).

(** lists of lower neighbours *)
Definition link (hasse : list (list nat)) (x y : nat) : Prop := exists l, nth_error hasse y = Some l /\ In x l.
Definition downward (hasse : list (list nat)) : Prop := forall x y, link hasse x y -> x < y.
(** the precondition of |extend|, poset.h:111-118 *)
Definition upward (n : nat) (lks : list (nat * nat)) : Prop := forall x y, In (x, y) lks -> x < y < n.
Definition links_ordered (lks : list (nat * nat)) : Prop :=
  forall k l x y z, nth_error lks k = Some (x, y) -> nth_error lks l = Some (y, z) -> k < l.
Definition compatible (p : list (list bool)) (lks : list (nat * nat)) : Prop :=
  forall x y z, In (x, y) lks -> ~ strictly p y z.
Definition lexicographic (a b : nat * nat) : Prop := fst a < fst b \/ fst a = fst b /\ snd a <= snd b.

(** x is a maximal (minimal) member of the set b *)
Definition maximal_in (p : list (list bool)) (b : list bool) (x : nat) : Prop :=
  nth x b false = true /\ forall y, nth y b false = true -> ~ strictly p x y.
Definition minimal_in (p : list (list bool)) (b : list bool) (x : nat) : Prop :=
  nth x b false = true /\ forall y, nth y b false = true -> ~ strictly p y x.
(** y covers x *)
Definition covers (p : list (list bool)) (x y : nat) : Prop :=
  strictly p x y /\ ~ exists z, strictly p x z /\ strictly p z y.
