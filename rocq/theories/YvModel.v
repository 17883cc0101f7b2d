(** Elements of finite order of a complex torus: sources/structure/y_values.h and y_values.cpp.

    A TorusElement has one field, a rational vector (RatVecModel.v): the element is exp(pi i v), and the
    invariant, maintained by some but not all methods, is that the entries lie in [0,2). Numerators are of type
    long long int; the sums computed in that type are checked for overflow. *)

From Coq Require Import List Arith ZArith Bool.
From Verif Require Import VecModel RunModel MatModel ArithModel RatVecModel F2Model RedModel DatModel.
Import ListNotations.
Open Scope Z_scope.

Definition telem := rvec.
(** y_values.h:48 the identity *)
Definition te_one (r : nat) : telem := rv_zero r.

(** the variable [d] in most methods: twice the denominator *)
Definition twice_den (v : rvec) : res Z := chkz fits64 (2 * rv_denominator v).
(** y_values.cpp:28-37, the constructor from a rational vector; y_values.h:107-108 exp_pi and exp_2pi *)
Definition te_make (r : rvec) (two : bool) : res telem :=
  run v <- (if two then rv_mul_n r 2 else Ok r);
  run d <- twice_den v;
  run n <- vmap (fun x => of_option (remainder x d)) (num v);
  Ok (mk_rv n (den v)).
Definition exp_pi (r : rvec) : res telem := te_make r false.
Definition exp_2pi (r : rvec) : res telem := te_make r true.

(** y_values.cpp:39-44 log_pi, 46-51 log_2pi *)
Definition log_pi (t : telem) (norm : bool) : res rvec := if norm then rv_normalize t else Ok t.
Definition log_2pi (t : telem) : res rvec :=
  run d <- twice_den t; run v <- rv_make (num t) d; rv_normalize v.

(** y_values.h:62-64 comparisons *)
Definition te_eqb (t u : telem) : res bool := rv_eqb t u.
Definition te_ltb (t u : telem) : res bool := rv_ltb t u.

(** y_values.cpp:53-62 evaluate_at for a bit vector, 64-71 for an integer vector *)
Definition eval_bits (dim : nat) (t : telem) (alpha : bv) : res rational :=
  let d := rv_denominator t in
  run s <- each (positions dim (data alpha)) (fun i s => run x <- vget (num t) i; chkz fits64 (s + x)) 0;
  run dd <- chkz fits64 (d + d);
  run m <- of_option (remainder s dd);
  of_neg (rat_make m (u64 d)).
Definition eval_at (t : telem) (alpha : list Z) : res rational :=
  let d := rv_denominator t in
  run s <- vec_dot RV alpha (num t);
  run dd <- chkz fits64 (d + d);
  run m <- of_option (remainder s dd);
  of_neg (rat_make m (u64 d)).

(** y_values.cpp:73-82 operator+ *)
Definition te_add (t u : telem) : res telem :=
  run r <- rv_add t u;
  run d <- twice_den r;
  run n <- vmap (fun x => if d <=? x then chkz fits64 (x - d) else Ok x) (num r);
  Ok (mk_rv n (den r)).
(** y_values.cpp:84-93 operator-: the second argument 0 of the constructor is the boolean false, so this is the
    constructor with reduction *)
Definition te_sub (t u : telem) : res telem :=
  run r <- rv_sub t u; run r <- te_make r false;
  run d <- twice_den r;
  run n <- vmap (fun x => if x <? 0 then chkz fits64 (x + d) else Ok x) (num r);
  Ok (mk_rv n (den r)).
(** y_values.cpp:95-107 operator+= for an element of order 2 *)
Definition te_add_part (dim : nat) (t : telem) (v : bv) : res telem :=
  let d := rv_denominator t in
  run n <- upto (bsize v) 0 (fun i n =>
    run b <- bv_test dim v i;
    if b : bool then
      run x <- vget n i;
      run y <- (if x <? d then chkz fits64 (x + d) else chkz fits64 (x - d)); vput n i y
    else Ok n) (num t);
  Ok (mk_rv n (den t)).
(** y_values.cpp:109-117 reduce *)
Definition te_reduce (t : telem) : res telem :=
  run d <- twice_den t;
  run n <- vmap (fun x => if (x <? 0) || (d <=? x) then of_option (remainder x d) else Ok x) (num t);
  Ok (mk_rv n (den t)).

(** y_values.h:72-76 negative_at; the remainder is that of long long int *)
Definition negative_at (t : telem) (alpha : list Z) : res bool :=
  run c <- rv_dot t alpha; Ok (negb (Z.rem c 2 =? 0)).

(** y_values.cpp:120-127 simple_reflect, reflect and act_by: no reduction is done *)
Definition te_simple_reflect (p : predatum) (s : nat) (t : telem) : res telem :=
  run n <- p_reflect fits64 p s (num t); Ok (mk_rv n (den t)).
Definition te_reflect (d : datum) (alpha : nat) (t : telem) : res telem :=
  run n <- d_reflect fits64 d alpha (num t) 0; Ok (mk_rv n (den t)).
Definition te_act_by (delta : matrix Z) (t : telem) : res telem :=
  run n <- mat_apply RV delta (num t); Ok (mk_rv n (den t)).
(** y_values.h:101-104 left_symmetrise and right_symmetrise *)
Definition left_symmetrise (delta : matrix Z) (t : telem) : res telem :=
  run v <- rv_symmetrise delta t; te_reduce v.
Definition right_symmetrise (delta : matrix Z) (t : telem) : res telem :=
  run v <- rv_symmetrise_right t delta; te_reduce v.

(** y_values.cpp:129-138 simple_imaginary_cross *)
Definition imaginary_cross (dim : nat) (dual : datum) (alpha : nat) (t : telem) : res telem :=
  run y <- d_coroot dual alpha;
  run neg <- negative_at t y;
  if neg : bool then Ok t
  else run x <- d_root dual alpha; run v <- bv_mod2 dim x; te_add_part dim t v.

(** y_values.cpp:140-151 is_central: the sum has the type of the entries of [alpha], see [dot_into] *)
Fixpoint central_from (narrow : Z -> Z) (alpha : matrix Z) (v : list Z) (d : Z) (k s : nat) : res bool :=
  match k with
  | O => Ok true
  | S k' =>
      run c <- mat_column 0 alpha s;
      run x <- dot_into fits64 narrow v c;
      run r <- crem fits64 x d;
      if negb (r =? 0) then Ok false else central_from narrow alpha v d k' (S s)
  end.
Definition is_central (narrow : Z -> Z) (alpha : matrix Z) (t : telem) : res bool :=
  run d <- twice_den t; central_from narrow alpha (num t) d (mcols alpha) 0.

(** y_values.cpp:153-166 stable_log; the matrices have entries of type int, the vector does not *)
Definition stable_log (fits : Z -> bool) (as_int : Z -> Z) (t : telem) (xi : matrix Z) : res rvec :=
  run xi1 <- add_scalar (zarith fits) xi 1;
  run s <- adapted_basis fits as_int xi1;
  let '(B, diagonal) := s in
  run Bi <- inverse_Z fits as_int B;
  let d := length diagonal in
  let n := mrows B in
  run L <- block 0 B 0 0 n d;
  run P <- block 0 Bi 0 0 d n;
  run g <- log_2pi t;
  run c <- rv_mat P g;
  run c <- rv_mod_n c 1;
  rv_mat L c.
