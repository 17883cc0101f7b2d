(** Real tori: sources/structure/tori.h and tori.cpp. A real torus is given by an involution of its lattice of
    characters. The matrices have entries of type int; [dim] is RANK_MAX, the size of bit vectors. *)

From Coq Require Import List Arith ZArith Bool.
From Verif Require Import VecModel RunModel MatModel RedModel LatModel F2Model SubqModel DfModel.
Import ListNotations.
Open Scope nat_scope.

(** subtraction of unsigned numbers; the program wraps around where the model fails *)
Definition usub (a b : nat) : res nat := if b <=? a then Ok (a - b) else Fail Range.

Section Tori.
Variable dim : nat.
Variable fits : Z -> bool.
Variable as_int : Z -> Z.
Notation R := (zarith fits).

(** bitvector.cpp:145-154, for a matrix; all entries read are in range *)
Definition mat_mod2 (M : matrix Z) : res bm :=
  bm_mod2 dim (mrows M) (mcols M) (fun i j => match mget M i j with Ok x => x | Fail _ => 0%Z end).
(** bitvector.h:325-329, a list of vectors reduced modulo 2 *)
Fixpoint list_mod2 (l : list (list Z)) : res (list bv) :=
  match l with [] => Ok [] | x :: r => run v <- bv_mod2 dim x; run w <- list_mod2 r; Ok (v :: w) end.

(** tori.cpp:178-187 plusBasis and minusBasis *)
Definition plusBasis (theta : matrix Z) : res (list (list Z)) := run K <- eigen_lattice fits as_int theta 1; mat_columns 0%Z K.
Definition minusBasis (theta : matrix Z) : res (list (list Z)) := run K <- eigen_lattice fits as_int theta (-1); mat_columns 0%Z K.
(** tori.cpp:162-176 dualPi0 *)
Definition dualPi0 (q : matrix Z) : res subquotient :=
  let rank := mrows q in
  run i2 <- mat_mod2 q;
  run id <- bm_identity dim rank;
  run i2 <- bm_add i2 id;
  run ker <- bm_kernel dim i2;
  run b <- plusBasis q;
  run b <- list_mod2 b;
  sq_of_lists dim ker b rank.
(** tori.cpp:189-197 classify: compact, complex and split rank *)
Definition classify (tau : matrix Z) : res (nat * nat * nat) :=
  run tau1 <- add_scalar R tau 1%Z;
  run s <- column_echelon fits as_int tau1;
  let '(tau1, _, _, _) := s in
  let r := mrows tau1 in
  let plus_rank := mcols tau1 in
  run m <- mat_mod2 tau1;
  run im <- bm_image dim m;
  let complex_rank := length im in
  run compact_rank <- usub plus_rank complex_rank;
  run x <- usub r plus_rank;
  run split_rank <- usub x complex_rank;
  Ok (compact_rank, complex_rank, split_rank).
(** tori.cpp:221-236 fullSignBasis: the list of vectors, and the matrix [M] *)
Definition fullSignBasis (tau : matrix Z) (sign : Z) : res (list (list Z) * matrix Z) :=
  run t <- add_scalar R tau sign;
  run s <- adapted_basis fits as_int t;
  let '(b, factor) := s in
  let r := length factor in
  run result <- upto r 0 (fun j result => run c <- mat_column 0%Z b j; Ok (result ++ [c])) [];
  run i <- inverse_Z fits as_int b;
  run M <- block 0%Z i 0 0 r (mrows b);
  Ok (result, M).

(** tori.h:74-81 *)
Record torus := mk_torus {
  t_rank : nat; t_complex : nat; t_involution : matrix Z;
  t_toPlus : matrix Z; t_toMinus : matrix Z;
  t_plus : list (list Z); t_minus : list (list Z);
  t_topology : subquotient }.
(** tori.cpp:101-114, the constructor *)
Definition torus_make (theta : matrix Z) : res torus :=
  run p <- fullSignBasis theta 1;
  run m <- fullSignBasis theta (-1);
  run q <- dualPi0 theta;
  run c <- usub (mcols theta) (ss_dimension (sq_space q));
  Ok (mk_torus (mcols theta) c theta (snd p) (snd m) (fst p) (fst m) q).
(** tori.cpp:116-117 dual; matrix.h:296, of a matrix that is kept *)
Definition torus_dual (t : torus) : res torus :=
  run M <- transposed 0%Z (t_involution t); run M <- mat_negate R M; torus_make M.
(** tori.h:94-103 *)
Definition compactRank (t : torus) : res nat := usub (length (t_plus t)) (t_complex t).
Definition splitRank (t : torus) : res nat := usub (length (t_minus t)) (t_complex t).
Definition twoRank (t : torus) : res nat := usub (t_rank t) (t_complex t).
Definition isCompact (t : torus) : bool := length (t_plus t) =? t_rank t.
Definition isSplit (t : torus) : bool := length (t_minus t) =? t_rank t.
(** tori.cpp:132-141 componentMap *)
Definition componentMap (t : torus) (m : matrix Z) (dest : torus) : res bm :=
  run m2 <- mat_mod2 m; subquotientMap dim (t_topology t) (t_topology dest) m2.
End Tori.
