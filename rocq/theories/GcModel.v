(** Model of the grading of a global Tits group at roots that need not be simple, sources/structure/tits.cpp:256-275. *)

From Coq Require Import List Arith ZArith Bool.
From Verif Require Import RunModel VecModel RootModel RsfModel GtModel.
Import ListNotations.
Open Scope nat_scope.

(** tits.cpp:261-275, GlobalTitsGroup::compact; [rs] is the root system *)
Definition gt_compact_root (G : global) (rs : rootsys) (alpha : nat) (a : gelt) : res bool :=
  run q <- loop (num_roots rs)
    (fun '(alpha, a) => run s <- find_descent rs alpha; Ok (negb (alpha =? pos_nr (num_pos rs) s)))
    (fun '(alpha, a) => run s <- find_descent rs alpha; run (b, _) <- gt_cross G s a; run beta <- simple_reflected rs s alpha; Ok (beta, b))
    (make_positive rs alpha, a);
  let '(alpha, a) := q in
  run s <- find_descent rs alpha;
  gt_compact G s a.
