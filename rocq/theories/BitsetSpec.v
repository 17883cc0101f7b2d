(** Specification vocabulary for BitSet: sets of numbers below 32 or 64, given by
    the binary digits of the number they stand for. *)

From Coq Require Import ZArith List Bool.
From Verif Require Import BitsetModel.
Open Scope Z_scope.

Definition is32 (x : Z) : Prop := 0 <= x < 2 ^ 32.
Definition ok2 (a : two) : Prop := is32 (lo a) /\ is32 (hi a).
(** the number with the given two chunks *)
Definition val2 (a : two) : Z := lo a + 2 ^ 32 * hi a.
Definition mem2 (a : two) (i : Z) : bool := Z.testbit (val2 a) i.

(** r is a legal set whose members are the i with P i *)
Definition set_is1 (r : Z) (P : Z -> bool) : Prop :=
  is32 r /\ forall i, 0 <= i -> Z.testbit r i = P i.
Definition set_is2 (r : two) (P : Z -> bool) : Prop :=
  ok2 r /\ forall i, 0 <= i -> mem2 r i = P i.
