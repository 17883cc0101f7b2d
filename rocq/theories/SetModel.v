(** Sets of numbers as used by poset.cpp and preorder.cpp through class BitMap of
    sources/utilities/bitmap.h. Here the words are left out: a set of capacity n
    is a list of n booleans. SetProofs.v shows that the functions below are what the
    word-level functions of BitmapModel.v compute, for capacities below 2^32. *)

From Coq Require Import List Arith Bool.
From Verif Require Import VecModel.
Import ListNotations.
Open Scope nat_scope.
Open Scope vec_scope.

Notation bset := (list bool).
(** bitmap.h:85-87 *)
Definition bs_new (n : nat) : bset := repeat false n.
(** bitmap.h:137-142 isMember: false beyond the capacity *)
Definition bs_mem (b : bset) (i : nat) : bool := nth i b false.
(** bitmap.h:206 insert: undefined beyond the capacity *)
Definition bs_insert (b : bset) (i : nat) : option bset := put b i true.
(** insertion of a sequence, bitmap.h:90-107 *)
Definition bs_of_list (n : nat) (l : list nat) : option bset :=
  for_each l (fun x b => bs_insert b x) (bs_new n).
(** bitmap.cpp:380-427 |= and andnot: undefined if the argument is the larger one *)
Fixpoint bs_zip (f : bool -> bool -> bool) (a b : bset) : option bset :=
  match a, b with
  | _, [] => Some a
  | [], _ :: _ => None
  | x :: s, y :: t => do r <- bs_zip f s t; Some (f x y :: r)
  end.
Definition bs_or : bset -> bset -> option bset := bs_zip orb.
Definition bs_andnot : bset -> bset -> option bset := bs_zip (fun x y => x && negb y).
(** bitmap.cpp:187-206 contains and disjoint *)
Fixpoint bs_contains (a b : bset) : option bool :=
  match a, b with
  | _, [] => Some true
  | [], _ :: _ => None
  | x :: s, y :: t => do r <- bs_contains s t; Some (implb y x && r)
  end.
Fixpoint bs_disjoint (a b : bset) : bool :=
  match a, b with
  | x :: s, y :: t => negb (x && y) && bs_disjoint s t
  | _, _ => true
  end.
(** bitmap.cpp:350-359 size *)
Definition bs_size (b : bset) : nat := length (filter (fun x => x) b).
(** bitmap.cpp:154-166 back_up: the largest member less than x *)
Fixpoint bs_back (b : bset) (x : nat) : option nat :=
  match x with
  | O => None
  | S y => if bs_mem b y then Some y else bs_back b y
  end.
(** bitmap.cpp:630-662 iterator: the least member that is at least x; [n] bounds the search *)
Fixpoint bs_next_from (b : bset) (x n : nat) : option nat :=
  match n with
  | O => None
  | S m => if bs_mem b x then Some x else bs_next_from b (S x) m
  end.
Definition bs_next (b : bset) (x : nat) : option nat := bs_next_from b x (length b - x).
(** the members in the order in which the iterator visits them *)
Definition bs_elems (b : bset) : list nat := filter (bs_mem b) (seq 0 (length b)).
(** bitmap.h:124 ==, for sets of the same capacity *)
Fixpoint bs_eqb (a b : bset) : bool :=
  match a, b with
  | [], [] => true
  | x :: s, y :: t => Bool.eqb x y && bs_eqb s t
  | _, _ => false
  end.
