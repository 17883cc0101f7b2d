(** What a hash table should do: number the entries in order of first occurrence. *)

From Coq Require Import List Arith NArith.
Import ListNotations.
Open Scope nat_scope.

Section Spec.
Variable E : Type.
(** [x] has number [i] when the distinct entries seen so far are [seen], in order *)
Definition numbered (seen : list E) (x : E) (i : nat) : Prop := nth_error seen i = Some x.
(** [seen] lists the distinct entries of [xs], added to those of [old], in order of first occurrence,
    and [ns] are the numbers of the successive entries *)
Inductive numbering : list E -> list E -> list E -> list nat -> Prop :=
| numbering_nil old : numbering old [] old []
| numbering_old old x i xs seen ns :
    numbered old x i -> numbering old xs seen ns -> numbering old (x :: xs) seen (i :: ns)
| numbering_new old x xs seen ns :
    ~ In x old -> numbering (old ++ [x]) xs seen ns -> numbering old (x :: xs) seen (length old :: ns).
End Spec.
