(** Functions for root data at the end of sources/structure/rootdata.cpp (1335-1363, 1398-1402, 1550-1738): involutions,
    integrality of rational weights, folding, sums of roots.

    A rational weight is its numerator vector and its denominator (RatVecModel); with a denominator of 0 the
    operator % is undefined, here an exception.  Overflow is as in [DatModel]. *)

From Coq Require Import List Arith ZArith Bool.
From Verif Require Import VecModel RunModel MatModel RedModel LatModel ArithModel RatVecModel RootModel DatModel.
Import ListNotations.
Local Open Scope nat_scope.

Section Fits.
Variable fits : Z -> bool.
Notation R := (zarith fits).

(** matrix.h:296-297 and 375-376, negative_transposed of a temporary matrix *)
Definition negative_transposed (M : matrix Z) : res (matrix Z) :=
  run N <- mat_negate R M; transpose 0%Z N.
(** rootdata.cpp:1335-1339, rho and rho_check *)
Definition rho (d : datum) : res rvec := run v <- rv_make (d_2rho d) 2; rv_normalize v.
Definition rho_check (d : datum) : res rvec := run v <- rv_make (d_dual_2rho d) 2; rv_normalize v.
(** rootdata.cpp:1358-1363, dualBasedInvolution *)
Definition dualBasedInvolution (q : matrix Z) (d : datum) : res (matrix Z) :=
  run v <- vec_negate R (d_2rho d);
  run w0 <- to_dominant fits idZ d v;
  run M <- action_matrix fits d w0;
  run N <- mat_mul R q M;
  negative_transposed N.
(** rootdata.cpp:1398-1402, toDistinguished *)
Definition toDistinguished (q : matrix Z) (d : datum) : res (matrix Z) :=
  run v <- mat_apply R q (d_2rho d);
  run w <- to_dominant fits idZ d v;
  run M <- action_matrix fits d w;
  mat_mul R M q.
(** rootdata.cpp:1550-1556, refl_prod *)
Definition refl_prod (S : bset) (d : datum) : res (matrix Z) :=
  run q <- mat_id R (d_rank d);
  upto (length (members S)) 0 (fun i q => run a <- vget (members S) i; run N <- root_reflection fits d a; mat_mul R q N) q.

(** rootdata.cpp:1558-1567, integrality_poscoroots *)
Definition integrality_poscoroots (d : datum) (v : list Z) (n : Z) : res bset :=
  upto (d_npos d) 0 (fun i l =>
    run y <- d_coroot d (pos_nr (d_npos d) i);
    run c <- vec_dot R y v;
    if (n =? 0)%Z then Fail Thrown
    else Ok (l ++ [(Z.rem c n =? 0)%Z])) [].
(** rootdata.cpp:1569-1575, integrality_simples *)
Definition integrality_simples (d : datum) (v : list Z) (n : Z) : res (list nat) :=
  run ps <- integrality_poscoroots d v n;
  simple_basis (d_sys d) (repeat false (d_npos d) ++ ps).
(** rootdata.cpp:1578-1581, integrality_predatum and integrality_datum *)
Definition integrality_predatum (d : datum) (v : list Z) (n : Z) : res predatum :=
  run l <- integrality_simples d v n; sub_predatum d l.
Definition integrality_datum (d : datum) (v : list Z) (n : Z) : res datum :=
  run p <- integrality_predatum d v n; root_datum fits p.
(** insertion in a std::set, for the order [lt] *)
Fixpoint set_insert {T} (lt : T -> T -> res bool) (x : T) (l : list T) : res (list T) :=
  match l with
  | [] => Ok [x]
  | y :: t =>
    run a <- lt x y;
    if a : bool then Ok (x :: l)
    else run b <- lt y x; if b : bool then run t1 <- set_insert lt x t; Ok (y :: t1) else Ok l
  end.
(** rootdata.cpp:1596-1599, multiples [s] of [d] up to [p]; the number of rounds is [p/d] *)
Fixpoint fractions (fuel : nat) (d s p : Z) (l : list rational) : res (list rational) :=
  match fuel with
  | O => Fail Fuel
  | S f =>
    if (s <=? p)%Z then run x <- of_neg (rat_make s p); run l1 <- set_insert (fun p q => of_neg (rat_lt p q)) x l; fractions f d (s + d) p l1
    else Ok l
  end.
(** rootdata.cpp:1583-1602, integrality_points *)
Definition integrality_points (d : datum) (v : list Z) (n : Z) : res (list rational) :=
  run products <- upto (d_npos d) 0 (fun i l =>
    run y <- d_coroot d (pos_nr (d_npos d) i);
    run c <- vec_dot R y v;
    run p <- chkz fits (Z.abs c);
    if (p =? 0)%Z then Ok l else set_insert (fun p q => Ok (p <? q)%Z) p l) [];
  upto (length products) 0 (fun i l => run p <- vget products i; fractions (S (Z.to_nat (p / n))) n n p l) [].
(** rootdata.cpp:1685-1693, singular_generators; 1695-1702, is_dominant_ratweight *)
Definition singular_generators (d : datum) (v : list Z) : res bset :=
  upto (d_ssrank d) 0 (fun s l =>
    run y <- d_coroot d (d_simple d s); run c <- vec_dot R y v; Ok (l ++ [(c =? 0)%Z])) [].
Definition is_dominant_ratweight (d : datum) (v : list Z) : res bool :=
  run o <- first_such (fun s => run y <- d_coroot d (d_simple d s); run c <- vec_dot R y v; Ok (c <? 0)%Z) (d_ssrank d) 0;
  Ok (match o with Some _ => false | None => true end).

(** rootdata.cpp:1704-1713, rho_minus_w_rho *)
Definition rho_minus_w_rho (d : datum) (ww : list nat) : res (list Z) :=
  upto (length ww) 0 (fun i sum =>
    run s <- vget ww i;
    run a <- downto i (fun j a => run t <- vget ww j; simple_reflected (d_sys d) t a) (d_simple d s);
    run x <- d_root d a;
    vec_add R sum x) (repeat 0%Z (d_rank d)).
(** rootdata.cpp:1715-1724, rho_check_minus_rho_check_w *)
Definition rho_check_minus_rho_check_w (d : datum) (ww : list nat) : res (list Z) :=
  downto (length ww) (fun i sum =>
    run s <- vget ww i;
    run a <- upto (length ww - S i) (S i) (fun j a => run t <- vget ww j; simple_reflected (d_sys d) t a) (d_simple d s);
    run x <- d_coroot d a;
    vec_add R sum x) (repeat 0%Z (d_rank d)).
(** rootdata.cpp:1726-1738, root_sum and coroot_sum *)
Definition root_sum (d : datum) (S : bset) : res (list Z) :=
  upto (length (members S)) 0 (fun i sum => run a <- vget (members S) i; run x <- d_root d a; vec_add R sum x) (repeat 0%Z (d_rank d)).
Definition coroot_sum (d : datum) (S : bset) : res (list Z) :=
  upto (length (members S)) 0 (fun i sum => run a <- vget (members S) i; run x <- d_coroot d a; vec_add R sum x) (repeat 0%Z (d_rank d)).

(** lietype.h:153-170, ext_gen: an orbit of one or two generators, in the second case commuting or not *)
Inductive ext_gen := One (s : nat) | Two (s t : nat) | Three (s t : nat).
Definition make_gen (commute : bool) (s t : nat) : ext_gen := if commute then Two s t else Three s t.
(** rootdata.cpp:1608-1627, fold_orbits *)
Definition fold_orbits (d : datum) (delta : matrix Z) : res (list ext_gen) :=
  run pi <- rootPermutation fits d delta;
  upto (d_ssrank d) 0 (fun s l =>
    let a := d_simple d s in
    run b <- vget pi a;
    if b =? a then Ok (l ++ [One s])
    else if a <? b then
      if b <? d_npos d + d_ssrank d then
        run t <- is_orthogonal (d_sys d) a b; Ok (l ++ [make_gen t s (b - d_npos d)])
      else Fail Thrown
    else Ok l) [].
(** rootdata.cpp:1629-1655, fold_orbits for a list of roots *)
Definition fold_orbits_in (d : datum) (roots : list nat) (delta : matrix Z) : res (list ext_gen) :=
  run alphas <- upto (length roots) 0 (fun k l => run a <- vget roots k; run x <- d_root d a; Ok (l ++ [x])) [];
  run pi <- upto (length roots) 0 (fun s l =>
    run x <- vget alphas s; run y <- mat_apply R delta x;
    let k := find_vec alphas y 0 in
    if k =? length alphas then Fail Thrown else Ok (l ++ [k])) [];
  upto (length roots) 0 (fun s l =>
    run t <- vget pi s;
    if t =? s then Ok (l ++ [One s])
    else if s <? t then
      run a <- vget roots s; run b <- vget roots t; run o <- is_orthogonal (d_sys d) a b; Ok (l ++ [make_gen o s t])
    else Ok l) [].
(** rootdata.cpp:1657-1683, cofold *)
Definition cofold_pre (d : datum) (orbits : list ext_gen) : res predatum :=
  let k := length orbits in
  run q <- upto k 0 (fun j '(M, K) =>
    run o <- vget orbits j;
    run xy <- match o with
      | One s => run x <- d_root d (d_simple d s); run y <- d_coroot d (d_simple d s); Ok (x, y)
      | Two s t =>
        run y <- d_coroot d (d_simple d s);
        run x <- d_root d (d_simple d s); run x' <- d_root d (d_simple d t); run z <- vec_add R x x'; Ok (z, y)
      | Three s t =>
        run y <- d_coroot d (d_simple d s); run y' <- d_coroot d (d_simple d t); run u <- vec_add R y y';
        run x <- d_root d (d_simple d s); run x' <- d_root d (d_simple d t); run z <- vec_add R x x'; Ok (z, u)
      end;
    run M1 <- set_column M j (fst xy); run K1 <- set_column K j (snd xy);
    Ok (M1, K1)) (mat_fill (d_rank d) k 0%Z, mat_fill (d_rank d) k 0%Z);
  let '(M, K) := q in Ok (mk_pre M K (s_prefer (d_sys d))).
Definition cofold (d : datum) (orbits : list ext_gen) : res datum :=
  run p <- cofold_pre d orbits; root_datum fits p.
End Fits.
