(** What a histogram should do, for TallyModel.v: it stands for a function from indices to multiplicities. *)

From Coq Require Import List NArith.
Import ListNotations.
Open Scope N_scope.

(** the histogram after counting [i] another [m] times *)
Definition add_to (f : N -> N) (i m : N) : N -> N := fun j => if j =? i then f j + m else f j.
(** [j] is the first index beyond [i] with nonzero multiplicity *)
Definition is_next (f : N -> N) (i j : N) : Prop := i < j /\ 0 < f j /\ forall k, i < k < j -> f k = 0.
(** [j] is the last index before [i] with nonzero multiplicity *)
Definition is_previous (f : N -> N) (i j : N) : Prop := j < i /\ 0 < f j /\ forall k, j < k < i -> f k = 0.
(** [l] lists the indices with nonzero multiplicity *)
Definition support (f : N -> N) (l : list N) : Prop := NoDup l /\ forall i, In i l <-> 0 < f i.
(** the number of elements of [l] with multiplicity [m] *)
Definition how_many (f : N -> N) (l : list N) (m : N) : N :=
  N.of_nat (length (filter (fun i => f i =? m) l)).
(** [n] bytes of [x], least significant first *)
Fixpoint little_endian (n : nat) (x : N) : list N :=
  match n with O => [] | S k => x mod 256 :: little_endian k (x / 256) end.
