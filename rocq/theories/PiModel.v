(** Change of basis of a square matrix (matrix.cpp), dual component groups of real groups (topology.cpp). *)

From Coq Require Import List Arith NArith ZArith Bool.
From Verif Require Import VecModel RunModel MatModel RatVecModel F2Model SubqModel RedModel LatModel DatModel ToriModel.
Import ListNotations.
Open Scope nat_scope.

Section Dual.
(** the size of a bit set, the range of matrix entries, and the conversion inside inverse *)
Variables (dim : nat) (fits : Z -> bool) (as_int : Z -> Z).
Notation R := (zarith fits).

(** matrix.cpp:288-295 on_basis; bigint.cpp:44 convert<int> *)
Definition on_basis (M basis : matrix Z) : res (matrix Z) :=
  run q <- inverse fits as_int basis;
  let '(inv, d) := q in
  run P <- mat_mul R inv M;
  run P <- mat_mul R P basis;
  run c <- int_val d;
  mat_div fits P c.

(** topology.cpp:164-192 dual_component_group_basis; [radical] is the basis run through by beginRadical, endRadical *)
Definition dual_component_group_basis (theta : matrix Z) (d : datum) (radical : list (list Z)) : res (list bv) :=
  let basis := mat_fill (d_rank d) (d_rank d) 0%Z in
  run basis <- upto (d_ssrank d) 0 (fun j basis => run c <- d_coroot d (d_simple d j); set_column basis j c) basis;
  run basis <- upto (length radical) 0 (fun i basis => run v <- vget radical i; set_column basis (d_ssrank d + i) v) basis;
  run t <- transposed 0%Z theta;
  run t <- on_basis t basis;
  run i_sw <- transposed 0%Z t;
  run basis <- upto (d_rank d - d_ssrank d) (d_ssrank d) (fun j basis => set_column basis j (repeat 0%Z (d_rank d))) basis;
  run source <- dualPi0 dim fits as_int theta;
  run dest <- dualPi0 dim fits as_int i_sw;
  run b <- transposed 0%Z basis;
  run m <- mat_mod2 dim b;
  run m2 <- subquotientMap dim source dest m;
  bm_kernel dim m2.
End Dual.
