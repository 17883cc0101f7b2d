(** Generators of square classes, and gradings of imaginary simple roots by a torus element (tits.cpp). *)

From Coq Require Import List Arith NArith ZArith Bool.
From Verif Require Import VecModel RunModel MatModel RatVecModel F2Model SubqModel RedModel LatModel DatModel ToriModel YvModel.
Import ListNotations.
Open Scope nat_scope.

Section Squares.
(** the size of a bit set, the range of matrix entries, and the conversion of eigen_lattice *)
Variables (dim : nat) (fits : Z -> bool) (as_int : Z -> Z).

(** bitset.cpp:61-70 unslice *)
Definition bs_unslice (v c : N) : res N :=
  run (_, r) <- each (positions dim c) (fun p '(k, r) =>
    run x <- test dim v k;
    if x : bool then run r <- assign dim r p true; Ok (S k, r) else Ok (S k, r)) (0, 0%N);
  Ok r.

(** tits.cpp:319-356 compute_square_classes; [f] is the twist and [delta] the distinguished involution of the inner class *)
Definition square_classes (d : datum) (f : list nat) (delta : matrix Z) : res (list N) :=
  run (roots, fixed) <- upto (d_ssrank d) 0 (fun i '(roots, fixed) =>
    run t <- vget f i;
    if t =? i then
      run fixed <- assign dim fixed i true;
      run a <- d_root d (d_simple d i);
      run roots <- add_row 0%Z roots a;
      Ok (roots, fixed)
    else Ok (roots, fixed)) (mat_fill 0 (d_rank d) 0%Z, 0%N);
  run t <- transposed 0%Z delta;
  run e <- eigen_lattice fits as_int t 1;
  run A <- mat_mod2 dim e;
  run Vplus <- ss_of_matrix dim A;
  run to_grading <- mat_mod2 dim roots;
  run Vplus <- ss_apply dim Vplus to_grading;
  let supp := bs_complement (ss_support Vplus) (mrows roots) in
  run supp <- bs_unslice supp fixed;
  each (positions dim supp) (fun i result => run s <- assign dim 0 i true; Ok (result ++ [s])) [].

(** tits.cpp:840-847 compact_simples *)
Definition torus_compact_simples (d : datum) (t : telem) (imag : N) : res N :=
  each (positions dim imag) (fun s result =>
    run a <- d_root d (d_simple d s);
    run b <- negative_at t a;
    assign dim result s b) 0%N.
End Squares.
