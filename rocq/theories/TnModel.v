(** Model of the gradings at roots that need not be simple, sources/structure/tits.cpp:661-717. *)

From Coq Require Import List Arith NArith ZArith Bool.
From Verif Require Import RunModel VecModel F2Model RootModel RsfModel TgModel.
Import ListNotations.
Open Scope nat_scope.

(** tits.cpp:661-672, TitsCoset::grading; [rs] is the root system, [g] is grading_offset *)
Definition coset_grading (dim : nat) (G : tits_group) (g : N) (rs : rootsys) (a : telt) (alpha : nat) : res bool :=
  run q <- loop (num_roots rs)
    (fun '(alpha, a) => run s <- find_descent rs alpha; Ok (negb (alpha =? pos_nr (num_pos rs) s)))
    (fun '(alpha, a) => run s <- find_descent rs alpha; run b <- basedTwistedConjugate dim G g a s; run beta <- simple_reflected rs s alpha; Ok (beta, b))
    (make_positive rs alpha, a);
  let '(alpha, a) := q in
  run s <- find_descent rs alpha;
  simple_grading dim G g a s.

(** tits.cpp:704-717, TitsCoset::simple_imaginary_grading; base_grading is grading_offset (tits.h), the assertion is
    not modelled.  The set of the odd coefficients is made like the bits of a vector, see C27 *)
Definition simple_imaginary_grading (dim : nat) (G : tits_group) (g : N) (rs : rootsys) (t : bv) (alpha : nat) : res bool :=
  run e <- root_expr rs alpha;
  run re <- bv_mod2 dim e;
  F2Model.each (F2Model.positions dim (data re)) (fun i ev => run x <- dual_m_alpha G i; Ok (xorb ev (dot dim x t)))
    (negb (dot dim re (mk_bv (N.lxor g (N.ones (N.of_nat dim))) (bsize re)))).
