(** Tits groups: sources/structure/tits.h and tits.cpp. A WeylElt is the list of its pieces (WeylModel), a TorusPart is a
    bit vector, a Twist the list of its entries below the semisimple rank. [dim] is RANK_MAX. The member
    [dual_involution] (and dual_twisted, tits.h:537) is left out. *)

From Coq Require Import List Arith NArith ZArith Bool.
From Verif Require Import VecModel RunModel MatModel F2Model WeylModel TwistModel DatModel ToriModel SubqModel.
Import ListNotations.
Open Scope nat_scope.

(** tits.h:325-334, 441-467 *)
Record telt := mk_te { te_t : bv; te_w : list nat }.
Record tits_group := mk_tits {
  tg_W : weyl_group; tg_twist : list nat; tg_rank : nat; tg_root : list bv; tg_coroot : list bv; tg_inv : bm }.

Section Tits.
Variable dim : nat.

(** tits.cpp:372-396, without lines 390-395; the twist, that weyl::make_twist computes, is given *)
Definition make_tits (d : datum) (W : weyl_group) (f : list nat) (delta : matrix Z) : res tits_group :=
  run m <- transposed 0%Z delta;
  run inv <- mat_mod2 dim m;
  run (roots, coroots) <- upto (d_ssrank d) 0 (fun i '(roots, coroots) =>
    run x <- d_root d (d_simple d i); run x <- bv_mod2 dim x;
    run y <- d_coroot d (d_simple d i); run y <- bv_mod2 dim y;
    Ok (roots ++ [x], coroots ++ [y])) ([], []);
  Ok (mk_tits W f (d_rank d) roots coroots inv).
(** tits.cpp:403-422, the adjoint group of a Cartan matrix; without line 420 *)
Definition make_adjoint_tits (c : matrix Z) (W : weyl_group) (f : list nat) : res tits_group :=
  let rk := mrows c in
  run (roots, coroots, inv) <- upto rk 0 (fun i '(roots, coroots, inv) =>
    run x <- bv_unit dim rk i;
    run y <- mat_column 0%Z c i; run y <- bv_mod2 dim y;
    run t <- vget f i; run inv <- bm_set dim inv i t true;
    Ok (roots ++ [x], coroots ++ [y], inv)) ([], [], bm_zero rk rk);
  Ok (mk_tits W f rk roots coroots inv).

Variable G : tits_group.
(** tits.h:508, 511 *)
Definition m_alpha (s : nat) : res bv := vget (tg_coroot G) s.
Definition dual_m_alpha (s : nat) : res bv := vget (tg_root G) s.
(** tits.h:523-526 *)
Definition treflect (x : bv) (s : nat) : res bv :=
  run a <- vget (tg_root G) s;
  if dot dim a x then run c <- vget (tg_coroot G) s; Ok (bv_add x c) else Ok x.
(** tits.h:536 *)
Definition twisted_part (x : bv) : res bv := bm_apply dim (tg_inv G) x.
(** tits.cpp:434-442 *)
Definition push_across (x : bv) (w : list nat) : res bv :=
  run ww <- word (tg_W G) w; each_comp ww (fun s x => treflect x s) x.
(** tits.cpp:445-451 *)
Definition pull_across (w : list nat) (x : bv) : res bv :=
  run ww <- word (tg_W G) w; each_comp (rev ww) (fun s x => treflect x s) x.
(** tits.h:549-555 *)
Definition te_length (a : telt) : res nat := w_length (tg_W G) (te_w a).
Definition left_torus_part (a : telt) : bv := te_t a.
Definition right_torus_part (a : telt) : res bv := push_across (te_t a) (te_w a).
(** tits.h:344-357 and 610-622, the constructors of TitsElt *)
Definition te_identity : telt := mk_te (bv_zero (tg_rank G)) (w_id (tg_W G)).
Definition te_of_weyl (w : list nat) : telt := mk_te (bv_zero (tg_rank G)) w.
Definition te_of_torus (t : bv) : telt := mk_te t (w_id (tg_W G)).
Definition te_right (w : list nat) (t : bv) : res telt := run x <- pull_across w t; Ok (mk_te x w).
(** tits.h:377-378; the comparison of bit vectors (bitvector.h) is that of their bits *)
Definition te_eq (a b : telt) : bool := same_elt (te_w a) (te_w b) && (data (te_t a) =? data (te_t b))%N.
(** tits.h:392-393 *)
Definition te_reduce (V : subspace) (a : telt) : res telt := run t <- representative dim V (te_t a); Ok (mk_te t (te_w a)).
(** tits.h:569-572 *)
Definition right_add (a : telt) (t : bv) : res telt := run x <- pull_across (te_w a) t; Ok (mk_te (bv_add (te_t a) x) (te_w a)).
Definition left_add (t : bv) (a : telt) : telt := mk_te (bv_add (te_t a) t) (te_w a).
(** tits.cpp:469-474 *)
Definition sigma_mult (s : nat) (a : telt) : res telt :=
  run t <- treflect (te_t a) s;
  run (w, c) <- left_mult_gen (tg_W G) s (te_w a);
  if (c <? 0)%Z then run m <- vget (tg_coroot G) s; Ok (left_add m (mk_te t w)) else Ok (mk_te t w).
(** tits.cpp:476-481 *)
Definition sigma_inv_mult (s : nat) (a : telt) : res telt :=
  run t <- treflect (te_t a) s;
  run (w, c) <- left_mult_gen (tg_W G) s (te_w a);
  if (0 <? c)%Z then run m <- vget (tg_coroot G) s; Ok (left_add m (mk_te t w)) else Ok (mk_te t w).
(** tits.cpp:492-497 *)
Definition mult_sigma (a : telt) (s : nat) : res telt :=
  run (w, c) <- mult_gen (tg_W G) (te_w a) s;
  if (c <? 0)%Z then run m <- vget (tg_coroot G) s; right_add (mk_te (te_t a) w) m else Ok (mk_te (te_t a) w).
(** tits.cpp:499-503 *)
Definition mult_sigma_inv (a : telt) (s : nat) : res telt :=
  run (w, c) <- mult_gen (tg_W G) (te_w a) s;
  if (0 <? c)%Z then run m <- vget (tg_coroot G) s; right_add (mk_te (te_t a) w) m else Ok (mk_te (te_t a) w).
(** tits.cpp:514-525, tits.h:567 *)
Definition prod (a b : telt) : res telt :=
  run ww <- word (tg_W G) (te_w a);
  run b <- each_comp (rev ww) sigma_mult b;
  Ok (left_add (te_t a) b).
(** tits.h:575-583 *)
Definition sigma_conjugate (a : telt) (s : nat) : res telt := run a <- sigma_mult s a; mult_sigma_inv a s.
Definition sigma_inv_conjugate (a : telt) (s : nat) : res telt := run a <- sigma_inv_mult s a; mult_sigma a s.
(** tits.h:598-603 *)
Definition twistedConjugate (a : telt) (s : nat) : res telt :=
  run a <- sigma_mult s a; run t <- vget (tg_twist G) s; mult_sigma_inv a t.
Definition inverseTwistedConjugate (a : telt) (s : nat) : res telt :=
  run a <- sigma_inv_mult s a; run t <- vget (tg_twist G) s; mult_sigma a t.
(** tits.cpp:530-543 *)
Definition involutionMatrix (ww : list nat) : res bm :=
  run c <- upto (tg_rank G) 0 (fun i c =>
    run v <- bv_unit dim (tg_rank G) i;
    run v <- each_comp ww (fun s v => treflect v s) v;
    run v <- twisted_part v;
    Ok (c ++ [data v])) [];
  Ok (mk_bm c (tg_rank G)).

(** *** TitsCoset: [g] is grading_offset *)
Variable g : N.
(** tits.h:786-789 *)
Definition simple_grading (a : telt) (s : nat) : res bool :=
  run b <- test dim g s; run x <- dual_m_alpha s; Ok (xorb b (dot dim x (te_t a))).
(** tits.h:811-816 *)
Definition basedTwistedConjugate (a : telt) (s : nat) : res telt :=
  run a <- twistedConjugate a s;
  run b <- test dim g s;
  if b : bool then run m <- m_alpha s; Ok (left_add m a) else Ok a.
(** tits.cpp:590-602 *)
Definition basedTwistedConjugate_word (a : telt) (w : list nat) : res telt := each_comp w (fun s a => basedTwistedConjugate a s) a.
Definition word_basedTwistedConjugate (w : list nat) (a : telt) : res telt := each_comp (rev w) (fun s a => basedTwistedConjugate a s) a.
(** tits.cpp:720-725 *)
Definition strict_conjugate (a : telt) (s : nat) : res telt :=
  run a <- twistedConjugate a s;
  run b <- test dim g s;
  if b : bool then run t <- vget (tg_twist G) s; run m <- m_alpha t; right_add a m else Ok a.
(** tits.h:718-719 *)
Definition Cayley_transform (a : telt) (s : nat) : res telt := sigma_mult s a.
(** tits.cpp:627-644: the first vector of the basis that affects the grading is added *)
Fixpoint adjust (b : list bv) (s : nat) (a : telt) : res telt :=
  match b with
  | [] => Ok a
  | v :: b => run x <- dual_m_alpha s; if dot dim x v then Ok (left_add v a) else adjust b s a
  end.
Definition inverse_Cayley_transform (a : telt) (s : nat) (mod_space : list bv) : res telt :=
  run a <- sigma_inv_mult s a;
  run b <- simple_grading a s;
  if b : bool then Ok a else adjust mod_space s a.
(** tits.cpp:647-659 *)
Definition te_twisted (a : telt) : res telt :=
  run t <- twisted_part (te_t a);
  run ww <- word (tg_W G) (te_w a);
  each_comp ww (fun i result =>
    run s <- vget (tg_twist G) i;
    run result <- mult_sigma result s;
    run b <- test dim g s;
    if b : bool then run m <- m_alpha s; right_add result m else Ok result) (te_of_torus t).
(** tits.cpp:728-733; the identity is a static variable, equal to the identity of any group of this kind *)
Definition is_valid (a : telt) : res bool := run b <- te_twisted a; run a <- prod a b; Ok (te_eq a te_identity).
(** tits.cpp:849-855 *)
Definition compact_simples (a : telt) (imag : N) : res N :=
  each (positions dim imag) (fun s r => run b <- simple_grading a s; assign dim r s (negb b)) 0%N.
End Tits.
