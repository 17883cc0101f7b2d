(** Subsystems: sources/structure/subsystem.h and subsystem.cpp.

    The base class RootSystem and the parent datum are those of RootModel and DatModel.  The set [which] is a list of
    booleans, its function position counts the members before an index.  The vector sub_root of records is three lists.
    A Weyl group element is given by a word.  A root number is an unsigned short, so RootNbr(-1) is 65535.  Not modelled:
    involution_data, the Weyl group of SubSystemWithGroup, and the functions [data] that give a repr::codec. *)

From Coq Require Import List Arith ZArith Bool.
From Verif Require Import VecModel RunModel MatModel LatModel DynkinModel RootModel DatModel DfModel.
Import ListNotations.

(** subsystem.h:45-60, SubSystem *)
Record subsys := mk_subsys {
  ss_sys : rootsys;           (* the base object *)
  ss_par : datum;             (* rd *)
  ss_which : bset;
  ss_pos : list nat;          (* pos_map *)
  ss_inv : list nat;          (* inv_map *)
  ss_simple : list nat;       (* sub_root[i].simple *)
  ss_to : list (list nat);    (* sub_root[i].to_simple *)
  ss_refl : list (list nat) (* sub_root[i].reflection *) }.

(** rootdata.h:310-311, find_descent *)
Definition find_descent (s : rootsys) (a : nat) : res nat := run x <- descent_set s a; Ok (nfirst x).
(** rootdata.h:270-271, posroot_index; an unsigned number that is negative before reduction is out of bounds *)
Definition posroot_index (s : rootsys) (a : nat) : res nat := if is_pos (num_pos s) a then Ok (a - num_pos s) else Fail Range.
(** bitmap.h, position: the number of members before [i] *)
Definition bposition (b : bset) (i : nat) : nat := length (filter (bmem b) (seq 0 i)).

(** subsystem.cpp:46-54, the positive roots that are not simple *)
Definition sub_extend (s par : rootsys) (k : nat) (q : bset * list nat) : res (bset * list nat) :=
  upto (num_pos s - k) k (fun i '(wh, pm) =>
    let a := pos_nr (num_pos s) i in
    run g <- find_descent s a;
    run a1 <- simple_reflected s g a;
    run k1 <- posroot_index s a1;
    run beta <- vget pm k1;
    run ag <- vget pm g;
    run x <- reflected par ag beta;
    run kx <- posroot_index par x;
    run wh1 <- bins wh kx;
    Ok (wh1, pm ++ [x])) q.
(** subsystem.cpp:66-71, the number of steps to a simple root, and its generator *)
Fixpoint count_steps (fuel : nat) (par : rootsys) (a count : nat) : res (nat * nat) :=
  match fuel with
  | O => Fail Fuel
  | S k =>
    run g <- find_descent par a;
    if a =? pos_nr (num_pos par) g then Ok (g, count)
    else run b <- simple_reflected par g a; count_steps k par b (count + 1)
  end.
(** subsystem.cpp:66-86: the generator and the two words for root [a] of the parent *)
Definition conjugate_words (par : rootsys) (a : nat) : res (nat * list nat * list nat) :=
  run q <- count_steps (num_roots par) par a 0;
  let '(g, count) := q in
  run r0 <- vput (repeat 0 (2 * count + 1)) count g;
  run t <- downto count (fun j '(b, w, r) =>
    run h <- find_descent par b;
    run w1 <- vput w j h;
    run r1 <- vput r (count - 1 - j) h;
    run r2 <- vput r1 (count + 1 + j) h;
    run b1 <- simple_reflected par h b;
    Ok (b1, w1, r2)) (a, repeat 0 count, r0);
  let '(_, w, r) := t in Ok (g, w, r).
(** subsystem.cpp:30-88, the constructor *)
Definition subsystem (d : datum) (gens : list nat) : res subsys :=
  let par := d_sys d in
  run C <- Cartan_of par gens;
  run s <- root_system C (s_prefer par);
  run q <- upto (length gens) 0 (fun j '(wh, pm) =>
    run a <- vget gens j;
    run ka <- posroot_index par a;
    run wh1 <- bins wh ka;
    Ok (wh1, pm ++ [a])) (repeat false (num_pos par), []);
  run q1 <- sub_extend s par (length gens) q;
  let '(wh, pm) := q1 in
  run t <- upto (num_pos s) 0 (fun i '(im, sm, tw, rw) =>
    run a <- vget pm i;
    run ka <- posroot_index par a;
    run im1 <- vput im (bposition wh ka) (pos_nr (num_pos s) i);
    run x <- conjugate_words par a;
    let '(g, w, r) := x in
    Ok (im1, sm ++ [g], tw ++ [w], rw ++ [r])) (repeat 0 (num_pos s), [], [], []);
  let '(im, sm, tw, rw) := t in
  Ok (mk_subsys s d wh pm im sm tw rw).
Section Fits.
Variable fits : Z -> bool.
Notation R := (zarith fits).
(** subsystem.cpp:90-102, integral *)
Definition integral (d : datum) (v : list Z) (n : Z) : res subsys :=
  run ps <- integrality_poscoroots fits d v n;
  run g <- pos_simples (d_sys d) ps;
  subsystem d g.
(** subsystem.cpp:145-153, singular_generators *)
Definition sub_singular (t : subsys) (v : list Z) : res bset :=
  upto (s_rank (ss_sys t)) 0 (fun s l =>
    run a <- vget (ss_pos t) s;
    run y <- d_coroot (ss_par t) a; run c <- vec_dot R y v; Ok (l ++ [(c =? 0)%Z])) [].
End Fits.
(** subsystem.cpp:104-110, to_parent *)
Definition to_parent (t : subsys) (a : nat) : res nat :=
  run x <- vget (ss_pos t) (abs_nr (num_pos (ss_sys t)) a);
  Ok (if is_pos (num_pos (ss_sys t)) a then x else minus_nr (num_pos (d_sys (ss_par t))) x).
(** subsystem.cpp:112-121, from_parent *)
Definition no_root : nat := 65535.
Definition from_parent (t : subsys) (a : nat) : res nat :=
  let np := num_pos (d_sys (ss_par t)) in
  let ap := abs_nr np a in
  if (ap <? np) && bmem (ss_which t) ap then
    run x <- vget (ss_inv t) (bposition (ss_which t) ap);
    Ok (if is_pos np a then x else minus_nr (num_pos (ss_sys t)) x)
  else Ok no_root.
(** subsystem.cpp:123-135, pre_root_datum *)
Definition sub_pre (t : subsys) : res predatum :=
  let d := ss_par t in
  let k := s_rank (ss_sys t) in
  run q <- upto k 0 (fun j '(M, K) =>
    run a <- vget (ss_pos t) j;
    run x <- d_root d a; run M1 <- set_column M j x;
    run y <- d_coroot d a; run K1 <- set_column K j y;
    Ok (M1, K1)) (mat_fill (d_rank d) k 0%Z, mat_fill (d_rank d) k 0%Z);
  let '(M, K) := q in
  Ok (mk_pre M K (negb (s_prefer (ss_sys t)))).
(** subsystem.cpp:137-143, simple_roots and positive_roots: a set from a range of numbers *)
Definition set_of (n : nat) (l : list nat) : res bset :=
  upto (length l) 0 (fun i b => run a <- vget l i; bins b a) (repeat false n).
Definition sub_simple_roots (t : subsys) : res bset := set_of (num_roots (d_sys (ss_par t))) (firstn (s_rank (ss_sys t)) (ss_pos t)).
Definition sub_positive_roots (t : subsys) : res bset := set_of (num_roots (d_sys (ss_par t))) (ss_pos t).

(** sl_list::sort *)
Fixpoint sorted_insert (x : nat) (l : list nat) : list nat :=
  match l with
  | [] => [x]
  | y :: t => if x <=? y then x :: l else y :: sorted_insert x t
  end.
Definition sort_list (l : list nat) : list nat := fold_right sorted_insert [] l.
(** subsystem.cpp:192-206, image_simples *)
Definition image_simples (t : subsys) (ww : list nat) : res (list nat) :=
  run l <- upto (s_rank (ss_sys t)) 0 (fun s l =>
    run a <- vget (ss_pos t) s;
    run b <- permuted_left (d_sys (ss_par t)) ww a;
    Ok (l ++ [b])) [];
  Ok (sort_list l).
(** subsystem.cpp:189-190, int_system *)
Definition int_system (t : subsys) (ww : list nat) : res subsys :=
  run l <- image_simples t ww; subsystem (ss_par t) l.
(** subsystem.cpp:208-218, coroots_matrix *)
Definition coroots_matrix (t : subsys) (ww : list nat) : res (matrix Z) :=
  run l <- image_simples t ww;
  upto (length l) 0 (fun i M => run a <- vget l i; run y <- d_coroot (ss_par t) a; set_row M i y) (mat_fill (length l) (d_rank (ss_par t)) 0%Z).
