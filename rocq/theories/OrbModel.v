(** Orbits of vectors under the Weyl group of a root datum, or under a subgroup generated by reflections
    (sources/structure/rootdata.cpp:1757-1900, 1967-2022 and 2104-2174).

    The templates with a parameter [dual] and with RankFlags or BitMap for the set of generators are one function
    here, with functions that give the root to subtract and the coroot to evaluate for each generator.  The matrix
    returned is given as the list of its columns.  The versions that collect Weyl group elements are left out. *)

From Coq Require Import List Arith ZArith Bool.
From Verif Require Import VecModel RunModel MatModel RedModel LatModel RootModel DatModel.
Import ListNotations.
Local Open Scope nat_scope.

(** rootdata.cpp:1778-1785, orbit_elem: the vector, the generator used to reach it and the index of the element it was
    reached from; the first element has (unsigned int)(-1) for both, here [None] *)
Record oelem := mk_oe { oe_v : list Z; oe_from : option (nat * nat) }.

Section Fits.
Variable fits : Z -> bool.
Variable as_int : Z -> Z.
Notation R := (zarith fits).

Section Orbit.
(** [ra] gives the vector to subtract and [cb] the one to evaluate, for a generator *)
Variables ra cb : nat -> res (list Z).

(** rootdata.cpp:1811-1827 and 1880-1895: from the element number [k], with new elements starting at [finish] *)
Definition orbit_gens (gens : list nat) (finish k : nat) (l : list oelem) : res (list oelem) :=
  upto (length gens) 0 (fun q l =>
    run s <- vget gens q;
    run x <- vget l k;
    run y <- cb s;
    run level <- dot_into fits (fun z => z) (oe_v x) y;
    if (level <=? 0)%Z then Ok l
    else
      run t <- ra s;
      run wt <- vec_submul fits (oe_v x) t level;
      if existsb (fun z => veqb (oe_v z) wt) (skipn finish l) then Ok l
      else Ok (l ++ [mk_oe wt (Some (s, k))])) l.
(** rootdata.cpp:1809-1832 and 1878-1900: the layer [start]..[finish] gives the next one; the number of layers is at
    most one more than the number of positive roots, as will be proved *)
Fixpoint orbit_layers (fuel : nat) (gens : list nat) (start finish : nat) (l : list oelem) : res (list oelem) :=
  match fuel with
  | O => Fail Fuel
  | S f =>
    run l1 <- upto (finish - start) start (orbit_gens gens finish) l;
    if length l1 =? finish then Ok l1 else orbit_layers f gens finish (length l1) l1
  end.
(** rootdata.cpp:1799-1808 and 1867-1877: the first two elements; [refl] reflects for a generator *)
Definition basic_orbit (refl : nat -> list Z -> res (list Z)) (fuel : nat) (gens : list nat) (i : nat) (e : list Z) : res (list oelem) :=
  run e1 <- refl i e;
  orbit_layers fuel gens 1 2 [mk_oe e None; mk_oe e1 (Some (i, 0))].
(** rootdata.cpp:1965-1989 and 1997-2021: after every element come its images for the other elements of [cosets] *)
Definition orbit_block (refl : nat -> list Z -> res (list Z)) (cosets : list oelem) (x : list Z) : res (list (list Z)) :=
  upto (length cosets - 1) 1 (fun k ref =>
    run j <- vget cosets k;
    match oe_from j with
    | Some (s, prev) => run y <- vget ref prev; run z <- refl s y; Ok (ref ++ [z])
    | None => Fail Range
    end) [x].
Definition extend_by (refl : nat -> list Z -> res (list Z)) (cosets : list oelem) (orbit : list (list Z)) : res (list (list Z)) :=
  upto (length orbit) 0 (fun k out => run x <- vget orbit k; run b <- orbit_block refl cosets x; Ok (out ++ b)) [].
End Orbit.

(** rootdata.cpp:1788-1833, 1958-1990, 2115-2116: extend_orbit for all generators in a list of simple ones, with
    numerators of the fundamental weights [fund].  The set [stab] is enlarged with each of them *)
Definition extend_simple (ra cb : nat -> res (list Z)) (refl : nat -> list Z -> res (list Z)) (fuel : nat) (fund : list (list Z))
    (non_stab : list nat) (stab : bset) (orbit : list (list Z)) : res (list (list Z)) :=
  run q <- upto (length non_stab) 0 (fun k '(stab, orbit) =>
    run i <- vget non_stab k;
    run e <- vget fund i;
    run stab1 <- vput stab i true;
    run cosets <- basic_orbit ra cb refl fuel (members stab1) i e;
    run orbit1 <- extend_by refl cosets orbit;
    Ok (stab1, orbit1)) (stab, orbit);
  Ok (snd q).
(** bits for the generators with value zero *)
Definition stab_bits (cb : nat -> res (list Z)) (n : nat) (v : list Z) : res bset :=
  upto n 0 (fun s b => run y <- cb s; run c <- dot_into fits (fun z => z) y v; vput b s (c =? 0)%Z) (repeat false n).
(** rootdata.cpp:2104-2118, Weyl_orbit of a weight *)
Definition Weyl_orbit (fund : list (list Z)) (d : datum) (v0 : list Z) : res (list (list Z)) :=
  run v <- make_dominant fits idZ d v0;
  let cb := fun s => d_coroot d (d_simple d s) in
  let ra := fun s => d_root d (d_simple d s) in
  run stab <- stab_bits cb (d_ssrank d) v;
  extend_simple ra cb (fun s x => d_reflect fits d (d_simple d s) x 0) (S (d_npos d)) fund (members (map negb stab)) stab [v].
(** rootdata.cpp:2120-2134, Weyl_orbit of a coweight *)
Definition Weyl_coorbit (cofund : list (list Z)) (d : datum) (v0 : list Z) : res (list (list Z)) :=
  run v <- make_codominant fits idZ d v0;
  let cb := fun s => d_root d (d_simple d s) in
  let ra := fun s => d_coroot d (d_simple d s) in
  run stab <- upto (d_ssrank d) 0 (fun s b => run y <- cb s; run c <- dot_into fits (fun z => z) v y; vput b s (c =? 0)%Z) (repeat false (d_ssrank d));
  extend_simple ra cb (fun s x => d_coreflect fits d x (d_simple d s) 0) (S (d_npos d)) cofund (members (map negb stab)) stab [v].

(** rootdata.cpp:1843-1865: a vector on the walls of the roots in [stab] but not on that of [i]; the loop without a
    break would leave [A.column(j)] outside the matrix *)
Definition wall_vector (cb : nat -> res (list Z)) (r : nat) (stab : list nat) (i : nat) : res (list Z) :=
  run A <- upto (length stab) 0 (fun k A => run s <- vget stab k; run y <- cb s; set_row A k y) (mat_fill (length stab) r 0%Z);
  run K <- kernel fits as_int A;
  run y <- cb i;
  run o <- first_such (fun j => run c <- mat_column 0%Z K j; run ev <- dot_into fits (fun z => z) y c; Ok (negb (ev =? 0)%Z)) (mcols K) 0;
  match o with
  | None => Fail Range
  | Some j =>
    run c <- mat_column 0%Z K j;
    run ev <- dot_into fits (fun z => z) y c;
    if (ev <? 0)%Z then vec_negate R c else Ok c
  end.
Definition extend_gens (ra cb : nat -> res (list Z)) (refl : nat -> list Z -> res (list Z)) (fuel r : nat)
    (non_stab : list nat) (stab : bset) (orbit : list (list Z)) : res (list (list Z)) :=
  run q <- upto (length non_stab) 0 (fun k '(stab, orbit) =>
    run i <- vget non_stab k;
    run e <- wall_vector cb r (members stab) i;
    run stab1 <- vput stab i true;
    run cosets <- basic_orbit ra cb refl fuel (members stab1) i e;
    run orbit1 <- extend_by refl cosets orbit;
    Ok (stab1, orbit1)) (stab, orbit);
  Ok (snd q).
(** rootdata.cpp:2140-2146, the set of generators with value zero and the list of the others *)
Definition split_gens (val : nat -> res Z) (nr : nat) (g : list nat) : res (bset * list nat) :=
  upto (length g) 0 (fun k '(stab, non) =>
    run a <- vget g k; run c <- val a;
    if (c =? 0)%Z then run s1 <- vput stab a true; Ok (s1, non) else Ok (stab, non ++ [a])) (repeat false nr, []).
(** rootdata.cpp:2136-2154, Weyl_orbit of a weight for the group generated by reflections in the roots [g]; the bound
    for the number of layers is not that of the subsystem *)
Definition Weyl_orbit_gens (d : datum) (g : list nat) (v0 : list Z) : res (list (list Z)) :=
  run v <- make_dominant_gens fits idZ d g v0;
  run q <- split_gens (fun a => run y <- d_coroot d a; dot_into fits (fun z => z) y v) (num_roots (d_sys d)) g;
  extend_gens (d_root d) (d_coroot d) (fun a x => d_reflect fits d a x 0) (S (num_roots (d_sys d))) (d_rank d) (snd q) (fst q) [v].
(** rootdata.cpp:2156-2174, Weyl_orbit of a coweight *)
Definition Weyl_coorbit_gens (d : datum) (g : list nat) (v0 : list Z) : res (list (list Z)) :=
  run v <- make_codominant_gens fits idZ d g v0;
  run q <- split_gens (fun a => run x <- d_root d a; dot_into fits (fun z => z) v x) (num_roots (d_sys d)) g;
  extend_gens (d_coroot d) (d_root d) (fun a x => d_coreflect fits d x a 0) (S (num_roots (d_sys d))) (d_rank d) (snd q) (fst q) [v].
End Fits.
