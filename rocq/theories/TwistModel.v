(** Twisted Weyl groups.

    Sources: sources/structure/weyl.cpp, sources/structure/weyl.h, sources/structure/lietype.h.
    A [Twist] is the list of its first entries, as many as the rank of the group: the others
    are not used. A [TwistedInvolution] is a [WeylElt]. Letters of an [InvolutionWord] are of
    type signed char; [~s] is [-1-s]. *)

From Coq Require Import List Arith ZArith Bool.
From Verif Require Import RunModel WeylModel.
Import ListNotations.
Open Scope nat_scope.

(** the value of a Generator that may be UndefGenerator (weyl.h: ~0 as unsigned char) *)
Definition gen_of (o : option nat) : nat := match o with Some s => s | None => 255 end.

(** weyl.h:526 *)
Definition twisted (W : weyl_group) (f w : list nat) : res (list nat) := translation W w f.
(** weyl.h:528-529 *)
Definition dual_twisted_gen (W : weyl_group) (f : list nat) (s : nat) : res nat :=
  run t <- vget f s; run o <- Chevalley_dual W t; Ok (gen_of o).
(** TwistedWeylGroup::dual_twist, weyl.cpp:1227-1233 *)
Definition dual_twist (W : weyl_group) (f : list nat) : res (list nat) := make_row (w_rank W) (dual_twisted_gen W f).
(** weyl.cpp:1200-1206 *)
Definition dual_twisted (W : weyl_group) (f w : list nat) : res (list nat) := run g <- dual_twist W f; translation W w g.

(** ext_gen, lietype.h:153-170, without [w_kappa] *)
Inductive orbit_type := one | two | three.
Record ext_gen := mk_ext { e_type : orbit_type; e_s0 : nat; e_s1 : nat }.
(** weyl.cpp:1208-1224 (the reservation of memory is left out) *)
Definition twist_orbits (W : weyl_group) (f : list nat) : res (list ext_gen) :=
  upto (w_rank W) 0 (fun s l =>
    run t <- vget f s;
    if t =? s then Ok (l ++ [mk_ext one s 255])
    else if s <? t then run c <- commutes W s t; Ok (l ++ [mk_ext (if c : bool then two else three) s t])
    else Ok l) [].

(** weyl.h:543-548; also the change of length *)
Definition twisted_conjugate (W : weyl_group) (f w : list nat) (s : nat) : res (list nat * Z) :=
  run (w, d) <- left_mult_gen W s w;
  run t <- vget f s;
  run (w, e) <- mult_gen W w t;
  Ok (w, (d + e)%Z).
Definition add_conjugate (W : weyl_group) (f : list nat) (s : nat) (st : list nat * Z) : res (list nat * Z) :=
  let '(w, d) := st in run (w, e) <- twisted_conjugate W f w s; Ok (w, (d + e)%Z).
(** weyl.h:549-555, letters from right to left *)
Definition twisted_conjugate_word (W : weyl_group) (f ww w : list nat) : res (list nat * Z) :=
  each_comp (rev ww) (add_conjugate W f) (w, 0%Z).
(** weyl.h:556-562 *)
Definition inverse_twisted_conjugate (W : weyl_group) (f w ww : list nat) : res (list nat * Z) :=
  each_comp ww (add_conjugate W f) (w, 0%Z).
(** weyl.cpp:1244-1250 *)
Definition twisted_conjugate_by (W : weyl_group) (f tw w : list nat) : res (list nat) :=
  run x <- mult W w tw; run r <- reverse_translation W w f; mult W x r.
(** weyl.cpp:1260-1283 *)
Definition twisted_class (W : weyl_group) (f : list nat) (fuel : nat) (tw : list nat) : res (list (list nat)) :=
  class_loop W (fun v s => run (v, _) <- twisted_conjugate W f v s; Ok v) fuel tw.

(** weyl.cpp:1306-1313 *)
Definition has_twisted_commutation (W : weyl_group) (f : list nat) (s : nat) (tw : list nat) : res bool :=
  run t <- vget f s;
  run (x, m) <- mult_gen W tw t;
  run b <- has_descent W s x;
  Ok (Bool.eqb (0 <? m)%Z b).

(** the two ways of lowering a twisted involution, and the letter recorded *)
Definition lower (W : weyl_group) (f : list nat) (s : nat) (tw : list nat) : res (Z * list nat) :=
  run c <- has_twisted_commutation W f s tw;
  if c : bool then run (x, _) <- left_mult_gen W s tw; Ok (Z.of_nat s, x)
  else run (x, _) <- twisted_conjugate W f tw s; Ok ((-1 - Z.of_nat s)%Z, x).
Definition defined (o : option nat) : bool := match o with Some _ => true | None => false end.
(** weyl.cpp:1481-1496 *)
Definition involution_length (W : weyl_group) (f : list nat) (fuel : nat) (tw : list nat) : res nat :=
  run s <- leftDescent W tw;
  run (_, _, k) <- loop fuel (fun '(s, _, _) => Ok (defined s)) (fun '(s, x, k) =>
    run (_, x) <- lower W f (gen_of s) x;
    run s <- leftDescent W x;
    Ok (s, x, S k)) (s, tw, 0);
  Ok k.
(** weyl.cpp:1338-1356; the number of letters is computed first, to reserve memory *)
Definition involution_expr (W : weyl_group) (f : list nat) (fuel : nat) (tw : list nat) : res (list Z) :=
  run _ <- involution_length W f fuel tw;
  run s <- leftDescent W tw;
  run (_, _, result) <- loop fuel (fun '(s, _, _) => Ok (defined s)) (fun '(s, tw, result) =>
    run (z, tw) <- lower W f (gen_of s) tw;
    run s <- leftDescent W tw;
    Ok (s, tw, result ++ [z])) (s, tw, []);
  Ok result.
(** the first generator that is a descent, weyl.cpp:1367-1370; beyond the rank the access would be
    outside the table of generators *)
Fixpoint first_descent (W : weyl_group) (n s : nat) (tw : list nat) : res nat :=
  match n with
  | O => Fail Range
  | S n => run b <- has_descent W s tw; if b : bool then Ok s else first_descent W n (S s) tw
  end.
(** weyl.cpp:1359-1385 *)
Definition canonical_involution_expr (W : weyl_group) (f : list nat) (fuel : nat) (tw : list nat) : res (list Z) :=
  run _ <- involution_length W f fuel tw;
  run (_, result) <- loop fuel (fun '(tw, _) => Ok (negb (same_elt tw (w_id W)))) (fun '(tw, result) =>
    run s <- first_descent W (w_rank W) 0 tw;
    run (z, tw) <- lower W f s tw;
    Ok (tw, result ++ [z])) (tw, []);
  Ok result.

(** weyl.cpp:1400-1406: the first orbit whose first generator is a descent *)
Fixpoint first_orbit (W : weyl_group) (orbit : list ext_gen) (n s : nat) (tw : list nat) : res nat :=
  match n with
  | O => Fail Range
  | S n => run g <- vget orbit s; run b <- has_descent W (e_s0 g) tw; if b : bool then Ok s else first_orbit W orbit n (S s) tw
  end.
(** the switch of weyl.cpp:1408-1464: the new element, and whether the letter is complemented *)
Definition ext_lower (W : weyl_group) (f : list nat) (g : ext_gen) (tw : list nat) : res (bool * list nat) :=
  run c <- has_twisted_commutation W f (e_s0 g) tw;
  match e_type g with
  | one =>
      if c : bool then run (x, _) <- left_mult_gen W (e_s0 g) tw; Ok (false, x)
      else run (x, _) <- twisted_conjugate W f tw (e_s0 g); Ok (true, x)
  | two =>
      if c : bool then
        run (x, _) <- left_mult_gen W (e_s0 g) tw;
        run (x, _) <- left_mult_gen W (e_s1 g) x; Ok (false, x)
      else
        run (x, _) <- twisted_conjugate W f tw (e_s0 g);
        run b <- has_descent W (e_s1 g) x;
        if b : bool then run (x, _) <- twisted_conjugate W f x (e_s1 g); Ok (true, x)
        else Ok (false, x)
  | three =>
      if c : bool then
        run (x, _) <- left_mult_gen W (e_s0 g) tw;
        run (x, _) <- twisted_conjugate W f x (e_s1 g); Ok (false, x)
      else
        run (x, _) <- twisted_conjugate W f tw (e_s0 g);
        run c <- has_twisted_commutation W f (e_s1 g) x;
        if c : bool then run (x, _) <- left_mult_gen W (e_s1 g) x; Ok (false, x)
        else
          run (x, _) <- twisted_conjugate W f x (e_s1 g);
          run (x, _) <- twisted_conjugate W f x (e_s0 g); Ok (false, x)
  end.
(** weyl.cpp:1389-1468 *)
Definition extended_involution_expr (W : weyl_group) (f : list nat) (fuel : nat) (tw : list nat) : res (list Z) :=
  run orbit <- twist_orbits W f;
  run _ <- involution_length W f fuel tw;
  run (_, result) <- loop fuel (fun '(tw, _) => Ok (negb (same_elt tw (w_id W)))) (fun '(tw, result) =>
    run s <- first_orbit W orbit (length orbit) 0 tw;
    run g <- vget orbit s;
    run (neg, tw) <- ext_lower W f g tw;
    Ok (tw, result ++ [if neg : bool then (-1 - Z.of_nat s)%Z else Z.of_nat s])) (tw, []);
  Ok result.
