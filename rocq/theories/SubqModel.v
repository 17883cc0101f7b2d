(** Model of subspaces and subquotients of vector spaces over the field with two
    elements: sources/structure/subquotient.h and subquotient.cpp, over F2Model.v.

    Sizes are [nat] (the field [d_rank] is an unsigned short int; ranks are at most 32). *)

From Coq Require Import List Arith NArith Bool.
From Verif Require Import VecModel RunModel F2Model.
Import ListNotations.
Open Scope nat_scope.

(** subquotient.h:53-55 *)
Record subspace := mk_ss { ss_basis : list bv; ss_support : N; ss_rank : nat }.
(** subquotient.h:146, 147, 172 *)
Record subquotient := mk_sq { sq_space : subspace; sq_sub : subspace; sq_rel : N }.

Section Dim.
Variable dim : nat.

(** *** BitSet *)

(** bitset.h:169, 374 *)
Definition bs_complement (s : N) (limit : nat) : N := N.lxor s (N.ones (N.of_nat limit)).
Definition bs_minus (s t : N) : N := N.ldiff s t.
(** bitset.cpp:46-55 *)
Definition bs_slice (s t : N) : res N :=
  run (r, _) <- each (positions dim t) (fun p '(r, c) =>
    run x <- test dim s p;
    if x : bool then run r <- assign dim r c true; Ok (r, S c) else Ok (r, S c)) (0%N, 0);
  Ok r.

(** *** Subspace *)

(** subquotient.h:64 *)
Definition ss_zero (n : nat) : subspace := mk_ss [] 0 n.
(** subquotient.cpp:37-47 *)
Definition ss_of_list (b : list bv) (n : nat) : res subspace :=
  run (t, b) <- Gauss_Jordan dim b; Ok (mk_ss b t n).
(** subquotient.cpp:53-61 *)
Definition ss_of_matrix (M : bm) : res subspace :=
  run b <- bm_image dim M; run (t, b) <- Gauss_Jordan dim b; Ok (mk_ss b t (rows M)).
(** subquotient.h:72-81 *)
Definition ss_dimension (s : subspace) : nat := length (ss_basis s).
(** subquotient.h:85-86 *)
Definition support_perp (s : subspace) : N := bs_complement (ss_support s) (ss_rank s).
(** subquotient.cpp:73-89 *)
Definition basis_perp (s : subspace) : res (list bv) :=
  each (positions dim (support_perp s)) (fun j result =>
    run gen <- bv_unit dim (ss_rank s) j;
    run (gen, _) <- each (positions dim (ss_support s)) (fun p '(gen, i) =>
      run e <- vget (ss_basis s) i; run b <- bv_test dim e j; run gen <- bv_set dim gen p b; Ok (gen, S i)) (gen, 0);
    Ok (result ++ [gen])) [].
(** subquotient.h:89-97 *)
Definition ss_toBasis (s : subspace) (v : bv) : res bv := bv_slice dim v (ss_support s).
(** subquotient.h:100-106 *)
Definition ss_fromBasis (s : subspace) (v : bv) : res bv := combination dim (ss_basis s) (ss_rank s) (data v).
(** subquotient.cpp:119-137; subquotient.h:115-121 mod_image, mod_reduce *)
Definition representative (s : subspace) (v : bv) : res bv :=
  run pv <- bv_slice dim v (ss_support s);
  run w <- combination dim (ss_basis s) (ss_rank s) (data pv);
  Ok (bv_add v w).
(** subquotient.cpp:91-93 *)
Definition ss_contains (s : subspace) (v : bv) : res bool := run r <- representative s v; Ok (isZero r).
(** subquotient.cpp:95-101 *)
Fixpoint ss_contains_all (s : subspace) (m : list bv) : res bool :=
  match m with
  | [] => Ok true
  | v :: r => run b <- ss_contains s v; if negb b then Ok false else ss_contains_all s r
  end.
(** subquotient.cpp:148-163 *)
Definition ss_apply (s : subspace) (r : bm) : res subspace :=
  run b <- upto (ss_dimension s) 0 (fun j b =>
    run x <- vget (ss_basis s) j; run y <- bm_apply dim r x; Ok (b ++ [y])) [];
  ss_of_list b (rows r).

(** *** Subquotient *)

(** subquotient.cpp:195-196, 211-212 *)
Definition rel_support (space sub : subspace) : res N := bs_slice (bs_minus (ss_support space) (ss_support sub)) (ss_support space).
(** subquotient.h:179-181 *)
Definition sq_zero (n : nat) : subquotient := mk_sq (ss_zero n) (ss_zero n) 0.
(** subquotient.cpp:185-198 *)
Definition sq_of_lists (bsp bsub : list bv) (n : nat) : res subquotient :=
  run space <- ss_of_list bsp n; run sub <- ss_of_list bsub n; run r <- rel_support space sub; Ok (mk_sq space sub r).
(** subquotient.h:193-197 *)
Definition sq_dimension (q : subquotient) : nat := ss_dimension (sq_space q) - ss_dimension (sq_sub q).
Definition sq_rank (q : subquotient) : nat := ss_rank (sq_space q).
(** subquotient.h:206-211 *)
Definition sq_basis (q : subquotient) : res (list bv) :=
  each (positions dim (sq_rel q)) (fun i result => run x <- vget (ss_basis (sq_space q)) i; Ok (result ++ [x])) [].
(** subquotient.h:214; the type unsigned long has 64 bits *)
Definition sq_size (q : subquotient) : res N :=
  if sq_dimension q <? 64 then Ok (N.shiftl 1 (N.of_nat (sq_dimension q))) else Fail Range.
(** subquotient.h:222-227 *)
Definition sq_mod_image (q : subquotient) (v : bv) : res bv := representative (sq_sub q) v.
(** subquotient.h:230-231 *)
Definition significantBits (q : subquotient) : N := bs_minus (ss_support (sq_space q)) (ss_support (sq_sub q)).
(** subquotient.h:244-256 *)
Definition sq_toBasis (q : subquotient) (v : bv) : res bv :=
  run r <- sq_mod_image q v; run r <- ss_toBasis (sq_space q) r; bv_slice dim r (sq_rel q).
(** subquotient.h:259-265 *)
Definition sq_fromBasis (q : subquotient) (v : bv) : res bv :=
  run v <- bv_unslice dim v (sq_rel q) (ss_dimension (sq_space q)); ss_fromBasis (sq_space q) v.
(** subquotient.cpp:204-213 *)
Definition sq_apply (q : subquotient) (r : bm) : res subquotient :=
  run space <- ss_apply (sq_space q) r; run sub <- ss_apply (sq_sub q) r; run t <- rel_support space sub; Ok (mk_sq space sub t).

(** subquotient.cpp:261-296 subquotientMap *)
Definition subquotientMap (source dest : subquotient) (m : bm) : res bm :=
  each (positions dim (sq_rel source)) (fun i result =>
    run x <- vget (ss_basis (sq_space source)) i;
    run v <- bm_apply dim m x;
    run v <- sq_toBasis dest v;
    Ok (bm_addColumn result (data v))) (bm_zero (sq_dimension dest) 0).
End Dim.
