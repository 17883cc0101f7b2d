(** The element of order two of the torus that belongs to a coroot *)

From Coq Require Import List Arith NArith ZArith Bool.
From Verif Require Import RootSpec TgModel TgSem.
Import ListNotations.

Fixpoint xsum (m : nat) (h : nat -> N) : N := match m with O => 0%N | S m => N.lxor (xsum m h) (h m) end.
(** the combination modulo 2 of the simple coroots with coefficients [v] *)
Definition order_two (n : nat) (G : tits_group) (v : list Z) : N := xsum n (fun k => if Z.odd (co v k) then coroot2 G k else 0%N).
