(** Global Tits groups: the class GlobalTitsGroup of sources/structure/tits.h and tits.cpp, and the action of Weyl group elements by
    means of a PreRootDatum (weyl.cpp). The fields alpha_v, half_rho_v and square_class_gen are left out. Matrix entries are of type
    int, numerators of type long long int. *)

From Coq Require Import List Arith ZArith Bool.
From Verif Require Import VecModel RunModel MatModel ArithModel RatVecModel WeylModel TwistModel DatModel YvModel.
Import ListNotations.
Open Scope nat_scope.

(** conversion to the type int, and its range *)
Definition to_int (z : Z) : Z := ((z + 2 ^ 31) mod 2 ^ 32 - 2 ^ 31)%Z.
Definition fits_int (z : Z) : bool := ((- 2 ^ 31 <=? z) && (z <? 2 ^ 31))%Z.

(** weyl.cpp:1114-1141: the loops of the methods [act] that use a PreRootDatum; [reflect] is simple_reflect *)
Definition weyl_act {X} (W : weyl_group) (reflect : nat -> X -> res X) (w : list nat) (x : X) : res X :=
  downto (w_rank W) (fun i x =>
    run p <- vget w i; run tr <- vget (w_transducer W) i; run l <- letters tr p;
    each_comp l (fun s x => run o <- output_local_gen W i s; reflect o x) x) x.
Definition weyl_act_vec (W : weyl_group) (p : predatum) (w : list nat) (v : list Z) : res (list Z) := weyl_act W (p_reflect fits64 p) w v.
Definition weyl_act_rat (W : weyl_group) (p : predatum) (w : list nat) (v : rvec) : res rvec :=
  run x <- weyl_act_vec W p w (num v); Ok (mk_rv x (den v)).
Definition weyl_act_mat (W : weyl_group) (p : predatum) (w : list nat) (M : matrix Z) : res (matrix Z) := weyl_act W (p_reflect_left fits_int p) w M.

(** tits.h:144-152 *)
Record global := mk_global { gt_W : weyl_group; gt_twist : list nat; gt_prd : predatum; gt_delta : matrix Z }.
(** tits.h:65-123, an element: torus part and twisted involution *)
Definition gelt := (telem * list nat)%type.
(** tits.cpp:86-97, the constructor; the Weyl group and the twist of the inner class are given, as its distinguished involution *)
Definition make_global (p : predatum) (W : weyl_group) (f : list nat) (delta : matrix Z) : res global :=
  run m <- transposed 0%Z delta; Ok (mk_global W f (p_dual p) m).

Section Global.
Variable G : global.
Notation W := (gt_W G).
Notation prd := (gt_prd G).
(** tits.cpp:99-106 *)
Definition gt_involution (tw : list nat) : res (matrix Z) :=
  run M <- mat_negate (zarith fits_int) (gt_delta G); weyl_act_mat W prd tw M.
(** tits.cpp:108-113 *)
Definition gt_twisted (x : telem) : res telem :=
  run rw <- log_pi x false; run v <- rv_mat (gt_delta G) rw; exp_pi v.
(** tits.cpp:116-123 *)
Definition gt_dual_twisted (x : telem) : res telem :=
  run rw <- log_pi x false; run w0 <- longest W; run rw <- weyl_act_rat W prd w0 rw;
  run m <- vec_negate RV (num rw); run y <- mat_apply RV (gt_delta G) m; run v <- rv_make y (rv_denominator rw); exp_pi v.
(** tits.cpp:125-131 *)
Definition theta_torus (a : gelt) : res telem :=
  run rw <- log_pi (fst a) false; run v <- rv_mat (gt_delta G) rw; run v <- weyl_act_rat W prd (snd a) v; exp_pi v.
(** tits.cpp:134-135 *)
Definition square_shifted (a : gelt) : res telem := run y <- theta_torus a; te_add (fst a) y.
(** tits.cpp:137-142 *)
Definition gt_valid (a : gelt) (check_tw : bool) : res bool :=
  run ok <- (if check_tw then
               run tw <- twisted W (gt_twist G) (snd a); run x <- mult W tw (snd a); Ok (same_elt x (w_id W))
             else Ok true);
  if ok : bool then run s <- square_shifted a; is_central to_int (p_coroots prd) s else Ok false.
(** tits.h:201-204, the twists of elements *)
Definition gt_twisted_elt (a : gelt) : res gelt := run t <- gt_twisted (fst a); run w <- twisted W (gt_twist G) (snd a); Ok (t, w).
Definition gt_dual_twisted_elt (a : gelt) : res gelt := run t <- gt_dual_twisted (fst a); run w <- dual_twisted W (gt_twist G) (snd a); Ok (t, w).
(** tits.cpp:158-164; the number of generators is that of the roots, see tits.h:163 *)
Definition gt_descents (a : gelt) : res (list bool) := make_row (mcols (p_roots prd)) (fun s => has_descent W s (snd a)).
(** tits.cpp:167-174: the product with the numerator, converted to int, is computed in the type int *)
Definition imaginary_cross_act (s : nat) (t : telem) : res telem :=
  run c <- p_coroot prd s;
  run e <- eval_at t c;
  run r <- of_neg (rat_sub e (mkr 1 1));
  if (rnum r =? 0)%Z then Ok t
  else
    run a <- p_root prd s;
    run m <- chkz fits64 (- rnum r);
    run v <- vec_scale (zarith fits_int) a (to_int m);
    run d <- chkz fits64 (2 * s64 (rden r));
    run v <- rv_make v d;
    run x <- exp_2pi v;
    te_add t x.
(** tits.h:191-192 *)
Definition complex_cross_act (s : nat) (t : telem) : res telem := te_simple_reflect prd s t.
(** tits.cpp:180-193 *)
Definition gt_cross (s : nat) (a : gelt) : res (gelt * Z) :=
  let '(t, w) := a in
  run (w, d) <- twisted_conjugate W (gt_twist G) w s;
  if negb (d =? 0)%Z then run t <- complex_cross_act s t; Ok ((t, w), Z.quot d 2)
  else
    run b <- has_descent W s w;
    if negb b then run t <- imaginary_cross_act s t; Ok ((t, w), 0%Z)
    else Ok ((t, w), 0%Z).
(** tits.cpp:195-202 and 204-211 *)
Definition add_cross (s : nat) (st : gelt * Z) : res (gelt * Z) := let '(a, d) := st in run (a, e) <- gt_cross s a; Ok (a, (d + e)%Z).
Definition gt_cross_left (ww : list nat) (a : gelt) : res (gelt * Z) := each_comp (rev ww) add_cross (a, 0%Z).
Definition gt_cross_right (a : gelt) (ww : list nat) : res (gelt * Z) := each_comp ww add_cross (a, 0%Z).
(** tits.h:208-211 *)
Definition gt_compact (s : nat) (a : gelt) : res bool := run c <- p_coroot prd s; negative_at (fst a) c.
(** tits.h:214-215 *)
Definition gt_Cayley (s : nat) (a : gelt) : res gelt := run (w, _) <- left_mult_gen W s (snd a); Ok (fst a, w).
(** tits.cpp:232-247: the scalar product is converted to int, and its product with the root is computed in that type *)
Definition inverse_Cayley_torus (s : nat) (t : telem) : res telem :=
  run c <- p_coroot prd s;
  run w <- log_2pi t;
  run z <- vec_dot RV c (num w);
  let z := to_int z in
  run m <- crem fits64 z (rv_denominator w);
  if negb (m =? 0)%Z then
    run a <- p_root prd s;
    run v <- vec_scale (zarith fits_int) a z;
    run d <- chkz fits64 (2 * rv_denominator w);
    run v <- rv_make v d;
    run w <- rv_sub w v;
    exp_2pi w
  else Ok t.
(** tits.cpp:249-254 *)
Definition gt_inverse_Cayley (s : nat) (a : gelt) : res gelt :=
  run t <- inverse_Cayley_torus s (fst a); run (w, _) <- left_mult_gen W s (snd a); Ok (t, w).
End Global.
