(** Model of sources/structure/lattice.cpp: orthogonal lattices, kernels, eigenspaces,
    saturation and change of basis. The type LatticeCoeff is int, so [as_int] is the identity in the
    theorems; an operation with result outside [fits] counts as overflow. *)

From Coq Require Import List Arith ZArith Bool.
From Verif Require Import VecModel RunModel MatModel RedModel.
Import ListNotations.
Open Scope nat_scope.

Section Lattice.
Variable fits : Z -> bool.
Variable as_int : Z -> Z.
Notation R := (zarith fits).

(** lattice.cpp:112-128 perp *)
Definition perp (b : matrix Z) : res (list (list Z)) :=
  let r := mrows b in
  run s <- diagonalise fits b;
  let '(factor, Rm, _) := s in
  let codim := length factor in
  upto (r - codim) codim (fun i result => run v <- mat_row Rm i; Ok (result ++ [v])) [].
(** lattice.cpp:130-137 kernel *)
Definition kernel (M : matrix Z) : res (matrix Z) :=
  let m := mcols M in
  run s <- column_echelon fits as_int M;
  let '(M, C, _, _) := s in
  block 0%Z C 0 (mcols M) m m.
(** lattice.cpp:139-142 eigen_lattice; matrix.h:71 operator-= for scalars *)
Definition eigen_lattice (M : matrix Z) (lambda : Z) : res (matrix Z) :=
  run c <- chkz fits (- lambda);
  run M <- add_scalar R M c;
  kernel M.
(** lattice.cpp:144-156 row_saturate *)
Definition row_saturate (M : matrix Z) : res (matrix Z) :=
  let n := mcols M in
  run T <- transposed 0%Z M;
  run s <- adapted_basis fits as_int T;
  let '(b, factor) := s in
  let c := length factor in
  upto c 0 (fun i result => run v <- mat_column 0%Z b i; set_row result i v) (mat_fill c n 0%Z).

(** lattice.cpp:74-88 baseChange: the vectors [vs] in terms of the basis [b]; the loop goes through [vs] *)
Definition baseChange (vs b : list (list Z)) : res (list (list Z)) :=
  run B <- mat_of_columns 0%Z b (length b);
  run s <- inverse fits as_int B;
  let '(q, d) := s in
  vmap (fun v => run w <- mat_apply R q v; run c <- int_val d; vec_div fits w c) vs.
(** lattice.cpp:95-106 inverseBaseChange *)
Definition inverseBaseChange (vs b : list (list Z)) : res (list (list Z)) :=
  run q <- mat_of_columns 0%Z b (length b);
  vmap (fun v => mat_apply R q v) vs.
End Lattice.
