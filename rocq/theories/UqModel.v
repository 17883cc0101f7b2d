(** Representatives of classes of weights at an involution: the matrices kept for each involution of the class
    InvolutionTable in sources/structure/involutions.h and involutions.cpp, and the methods using them. The hash
    table of twisted involutions and the lengths are not modelled; a record is passed in place of its number. *)

From Coq Require Import List Arith ZArith Bool.
From Verif Require Import VecModel RunModel MatModel RedModel LatModel ArithModel RatVecModel RootModel DatModel DfModel F2Model SubqModel ToriModel YvModel.
Import ListNotations.
Open Scope nat_scope.

Section Uq.
Variable dim : nat.
Variable fits : Z -> bool.
Variable as_int : Z -> Z.
Notation R := (zarith fits).

(** involutions.cpp:202-207 in add_involution: the matrices M_real and lift_mat *)
Definition real_maps (theta : matrix Z) : res (matrix Z * matrix Z) :=
  run A <- mat_negate R theta;
  run A <- add_scalar R A 1%Z;
  run s <- column_echelon fits as_int A;
  let '(A, col, _, _) := s in
  run ci <- inverse_Z fits as_int col;
  run M_real <- block 0%Z ci 0 0 (mcols A) (mrows A);
  Ok (M_real, A).
(** involutions.cpp:210 in add_involution: theta_plus_1_rho; the division throws when it is not exact *)
Definition first_th1_rho (d : datum) (theta : matrix Z) : res (list Z) :=
  run v <- mat_apply R theta (d_2rho d);
  run w <- vec_add R (d_2rho d) v;
  vec_div fits w 2%Z.
(** tits.cpp:834-838 fiber_denom *)
Definition fiber_denom (theta : matrix Z) : res subspace :=
  run t <- transposed 0%Z theta;
  run e <- eigen_lattice fits as_int t (-1);
  run A <- mat_mod2 dim e;
  ss_of_matrix dim A.

(** involutions.cpp:178-180 in the constructor of InvolutionTable: torus_simple_reflection[s] *)
Definition torus_reflection (d : datum) (s : nat) : res bm :=
  run M <- mat_id R (d_rank d);
  run M <- d_reflect_left fits d (d_simple d s) M;
  run t <- transposed 0%Z M;
  mat_mod2 dim t.
(** involutions.cpp:253 in add_cross: the field mod_space of the new record *)
Definition cross_space (d : datum) (s : nat) (space : subspace) : res subspace :=
  run A <- torus_reflection d s; ss_apply dim space A.

(** the fields theta, M_real, lift_mat and th1_rho of a record (involutions.h:100-109) *)
Record irec := mk_irec { ir_theta : matrix Z; ir_real : matrix Z; ir_lift : matrix Z; ir_rho : list Z }.
(** involutions.cpp:184-225 add_involution, from the matrix of the involution on *)
Definition first_record (d : datum) (theta : matrix Z) : res irec :=
  run s <- real_maps theta;
  run v <- first_th1_rho d theta;
  Ok (mk_irec theta (fst s) (snd s) v).
(** involutions.cpp:238-248 in add_cross, for the simple reflection [s]; [beta] is the number of the image of the
    simple root by the new involution *)
Definition cross_record (d : datum) (s : nat) (beta : nat) (me : irec) : res irec :=
  let alpha := d_simple d s in
  run t <- d_reflect_left fits d alpha (ir_theta me);
  run t <- d_reflect_right fits d t alpha;
  run m <- d_reflect_right fits d (ir_real me) alpha;
  run l <- d_reflect_left fits d alpha (ir_lift me);
  run v <- d_reflect fits d alpha (ir_rho me) 0%Z;
  run a <- d_root d alpha; run v <- vec_add R v a;
  run b <- d_root d beta; run v <- vec_add R v b;
  Ok (mk_irec t m l v).

(** involutions.cpp:322-331 lambda_unique *)
Definition lambda_unique (me : irec) (lam : list Z) : res (list Z) :=
  run v <- mat_apply R (ir_real me) lam;
  run v <- vmap (fun x => adivide x 2) v;
  run w <- mat_apply R (ir_lift me) v;
  vec_sub R lam w.
(** involutions.cpp:334-344 real_unique; products of an int matrix and a numerator are in long long int *)
Definition real_unique (me : irec) (y : rvec) : res rvec :=
  run v <- mat_apply RV (ir_real me) (num y);
  run d <- twice_den y;
  run v <- vmap (fun x => of_option (remainder x d)) v;
  run w <- mat_apply RV (ir_lift me) v;
  run y <- rv_div_n (mk_rv w (den y)) 2;
  rv_normalize y.
(** involutions.h:212-213 y_pack *)
Definition y_pack (me : irec) (lam : list Z) : res bv :=
  run v <- mat_apply R (ir_real me) lam; bv_mod2 dim v.
(** involutions.cpp:346-356 y_lift *)
Definition y_lift (me : irec) (y : bv) : res (list Z) :=
  upto (bsize y) 0 (fun j result =>
    run b <- bv_test dim y j;
    if b : bool then
      upto (length result) 0 (fun i result =>
        run x <- vget result i; run m <- mget (ir_lift me) i j; run z <- chkz fits (x + m); vput result i z) result
    else Ok result) (repeat 0%Z (mrows (ir_lift me))).
(** involutions.h:248-251 y_unlift; the division throws when it is not exact *)
Definition y_unlift (me : irec) (lifted : list Z) : res bv :=
  run v <- mat_apply R (ir_real me) lifted; run v <- vec_div fits v 2; bv_mod2 dim v.
(** involutions.h:220-222 y_act *)
Definition y_act (i0 i1 : irec) (y : bv) (delta : matrix Z) : res bv :=
  run v <- y_lift i0 y; run w <- mat_apply R delta v; y_unlift i1 w.

(** involutions.cpp:286-288 and 308-310: the matrix used for torus parts *)
Definition x_projector (theta : matrix Z) : res (matrix Z) :=
  run A <- transpose 0%Z theta;
  run A <- add_scalar R A 1%Z;
  row_saturate fits as_int A.
(** involutions.cpp:279-294 x_pack, the rational vector computed from the logarithm of the torus part *)
Definition x_pack (me : irec) (wt : rvec) : res rvec :=
  run P <- x_projector (ir_theta me);
  run p <- mat_apply RV P (num wt);
  run p <- vmap (fun x => of_option (remainder x (rv_denominator wt))) p;
  run v <- rv_make p (rv_denominator wt);
  rv_normalize v.
(** involutions.cpp:297-319 x_equiv, for equal twisted involutions *)
Definition x_equiv (me : irec) (w0 w1 : rvec) : res bool :=
  run wt <- rv_sub w0 w1;
  run P <- x_projector (ir_theta me);
  run p <- mat_apply RV P (num wt);
  (fix test (l : list Z) : res bool :=
     match l with [] => Ok true | x :: l => run m <- crem fits64 x (rv_denominator wt); if (m =? 0)%Z then test l else Ok false end) p.
End Uq.

(** involutions.cpp:401-417 locate, with the numbers [start] of the orbits; [fuel] bounds the number of steps *)
Fixpoint locate_from (fuel : nat) (starts : list nat) (i low high : nat) : res nat :=
  match fuel with
  | 0 => Fail Fuel
  | S fuel =>
      if 1 <? high - low then
        let mid := (low + high) / 2 in
        run x <- vget starts mid;
        if i <? x then locate_from fuel starts i low mid else locate_from fuel starts i mid high
      else Ok low
  end.
Definition locate (starts : list nat) (i : nat) : res nat := locate_from (S (length starts)) starts i 0 (length starts).
