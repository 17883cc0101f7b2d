(** Involutions acting on the roots: class InvolutionData of sources/structure/involutions.h and involutions.cpp. *)

From Coq Require Import List Arith ZArith Bool.
From Verif Require Import VecModel RunModel MatModel RootModel DatModel.
Import ListNotations.
Open Scope nat_scope.

(** involutions.h:47-51, the fields *)
Record invdata := mk_inv { i_perm : list nat; i_imag : bset; i_real : bset; i_complex : bset; i_simag : list nat; i_sreal : list nat }.

(** involutions.cpp:41-55, classify_roots, for the permutation given *)
Definition classify_roots (s : rootsys) (perm : list nat) : res invdata :=
  let e := repeat false (num_roots s) in
  run t <- upto (num_roots s) 0 (fun alpha t =>
      let '(im, re, cx) := t in
      run b <- vget perm alpha;
      if b =? alpha then run im1 <- bins im alpha; Ok (im1, re, cx)
      else if b =? minus_nr (num_pos s) alpha then run re1 <- bins re alpha; Ok (im, re1, cx)
      else run cx1 <- bins cx alpha; Ok (im, re, cx1)) (e, e, e);
  let '(im, re, cx) := t in
  run si <- simple_basis s im;
  run sr <- simple_basis s re;
  Ok (mk_inv perm im re cx si sr).
(** involutions.cpp:30-39, constructor from a matrix *)
Definition inv_of_matrix (fits : Z -> bool) (d : datum) (theta : matrix Z) : res invdata :=
  run p <- rootPermutation fits d theta; classify_roots (d_sys d) p.
(** involutions.cpp:94-103, constructor from the images of the simple roots *)
Definition inv_of_images (s : rootsys) (im : list nat) : res invdata := run p <- extend_to_roots s im; classify_roots s p.
(** insertion of a root and its negative *)
Definition bins2 (b : bset) (x y : nat) : res bset := run b1 <- bins b x; bins b1 y.
(** involutions.cpp:59-92, constructor with a set of positive roots *)
Definition inv_of_subsystem (fits : Z -> bool) (d : datum) (theta : matrix Z) (sub : bset) : res invdata :=
  run perm <- rootPermutation fits d theta;
  let s := d_sys d in
  let e := repeat false (num_roots s) in
  run t <- each sub (fun alpha t =>
      let '(im, re, cx) := t in
      let ma := minus_nr (num_pos s) alpha in
      run b <- vget perm alpha;
      if b =? alpha then run im1 <- bins2 im alpha ma; Ok (im1, re, cx)
      else if b =? ma then run re1 <- bins2 re alpha ma; Ok (im, re1, cx)
      else run cx1 <- bins2 cx alpha ma; Ok (im, re, cx1)) (e, e, e);
  let '(im, re, cx) := t in
  run si <- simple_basis s im;
  run sr <- simple_basis s re;
  Ok (mk_inv perm im re cx si sr).

(** permutations.cpp:92-100, renumbering of a list *)
Fixpoint renumbering (pi v : list nat) : res (list nat) :=
  match v with [] => Ok [] | x :: w => run y <- vget pi x; run r <- renumbering pi w; Ok (y :: r) end.
(** permutations.cpp:102-109, renumbering of a set *)
Definition renumbering_set (pi : list nat) (b : bset) : res bset :=
  each b (fun x s => run y <- vget pi x; bins s y) (repeat false (length pi)).
(** std::swap(v[i],v[j]) *)
Definition nswap (v : list nat) (i j : nat) : res (list nat) :=
  run x <- vget v i; run y <- vget v j; run w <- vput v i y; vput w j x.
(** involutions.cpp:122-138, cross_act *)
Definition cross_act (refl : list nat) (d : invdata) : res invdata :=
  run p <- renumber refl (i_perm d);
  run q <- upto (length p) 0 (fun alpha q => run beta <- vget refl alpha; if alpha <? beta then nswap q alpha beta else Ok q) p;
  run im <- renumbering_set refl (i_imag d);
  run re <- renumbering_set refl (i_real d);
  run cx <- renumbering_set refl (i_complex d);
  run si <- renumbering refl (i_simag d);
  run sr <- renumbering refl (i_sreal d);
  Ok (mk_inv q im re cx si sr).
(** rootdata.h:296-297 simple_root_permutation; involutions.cpp:238, the use of [cross_act] in add_cross *)
Definition simple_root_permutation (s : rootsys) (i : nat) : res (list nat) := run x <- vget (s_ri s) i; Ok (r_perm x).
Definition cross_simple (s : rootsys) (i : nat) (d : invdata) : res invdata := run p <- simple_root_permutation s i; cross_act p d.
