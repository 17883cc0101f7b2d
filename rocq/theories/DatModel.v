(** Root data: the class PreRootDatum (sources/structure/prerootdata.h and prerootdata.cpp) and the class RootDatum
    (sources/structure/rootdata.h:390-800, rootdata.cpp:818-1330).

    Weights, coweights and matrices have entries of type int, or Numer_t for the vectors of rational weights;
    an operation with a result outside [fits] counts as overflow, as in [LatModel].  The fields of RootDatum
    that no other part of the construction uses (fundamental weights, bases of the radicals, status flags)
    are computed by functions of their own.  Calls of [assert] are not compiled in the release build. *)

From Coq Require Import List Arith ZArith Bool.
From Verif Require Import VecModel RunModel MatModel RedModel LatModel LieTypeModel DynkinModel RootModel.
Import ListNotations.
Local Open Scope nat_scope.

(** prerootdata.h:45-46, the fields of PreRootDatum *)
Record predatum := mk_pre { p_roots : matrix Z; p_coroots : matrix Z; p_prefer : bool }.
(** prerootdata.h:81-82, rank and semisimple_rank *)
Definition p_rank (p : predatum) : nat := mrows (p_roots p).
Definition p_ssrank (p : predatum) : nat := mcols (p_roots p).
(** prerootdata.h:64-68, the dual; 110-111 dualise makes the same change in place *)
Definition p_dual (p : predatum) : predatum := mk_pre (p_coroots p) (p_roots p) (negb (p_prefer p)).
(** prerootdata.h:89-92, simple_root and simple_coroot *)
Definition p_root (p : predatum) (j : nat) : res (list Z) := mat_column 0%Z (p_roots p) j.
Definition p_coroot (p : predatum) (j : nat) : res (list Z) := mat_column 0%Z (p_coroots p) j.

Section Fits.
Variable fits : Z -> bool.
Variable as_int : Z -> Z.
Notation R := (zarith fits).

(** matrix.h:113-120, add and subtract: an iterator into a vector, and a factor *)
Definition vec_addmul (v b : list Z) (c : Z) : res (list Z) :=
  if (c =? 0)%Z then Ok v
  else vmap2 (fun x y => run p <- chkz fits (y * c); chkz fits (x + p)) v b.
Definition vec_submul (v b : list Z) (c : Z) : res (list Z) :=
  run m <- chkz fits (- c); vec_addmul v b m.

(** prerootdata.cpp:47-65, the simply connected datum of a Lie type; rank(), semisimple_rank() and
    Cartan_entry of a Lie type are those of [LieTypeModel] *)
Definition p_of_type (lt : lietype) (prefer : bool) : res predatum :=
  let n := lt_rank lt in
  let m := lt_ss_rank lt in
  run s <- upto (length lt) 0 (fun k '(M, K, s, r) =>
    run t <- vget lt k;
    if leqb (fst t) tT then Ok (M, K, s, r + snd t)
    else upto (snd t) 0 (fun _ '(M, K, s, r) =>
      run M1 <- upto n 0 (fun j M => mput M j s (lt_entry lt r j)) M;
      run K1 <- mput K r s 1%Z;
      Ok (M1, K1, S s, S r)) (M, K, s, r))
    (mat_fill n m 0%Z, mat_fill n m 0%Z, 0, 0);
  let '(M, K, _, _) := s in
  Ok (mk_pre M K prefer).

(** prerootdata.cpp:67-81, the derived datum, with the projection of weights *)
Definition p_derived (p : predatum) : res (matrix Z * predatum) :=
  let r := p_rank p in
  let s := p_ssrank p in
  run q <- adapted_basis fits as_int (p_coroots p);
  let M := fst q in
  run pr <- transposed_block 0%Z M 0 0 s r;
  run rt <- mat_mul R pr (p_roots p);
  run inv <- inverse_Z fits as_int M;
  run sec <- block 0%Z inv 0 0 s r;
  run cr <- mat_mul R sec (p_coroots p);
  Ok (pr, mk_pre rt cr (p_prefer p)).
(** prerootdata.cpp:83-97, the coderived datum, with the injection of weights *)
Definition p_coderived (p : predatum) : res (matrix Z * predatum) :=
  let r := p_rank p in
  let s := p_ssrank p in
  run q <- adapted_basis fits as_int (p_roots p);
  let M := fst q in
  run inj <- block 0%Z M 0 0 r s;
  run tr <- transposed 0%Z inj;
  run cr <- mat_mul R tr (p_coroots p);
  run inv <- inverse_Z fits as_int M;
  run sec <- block 0%Z inv 0 0 s r;
  run rt <- mat_mul R sec (p_roots p);
  Ok (inj, mk_pre rt cr (p_prefer p)).

(** prerootdata.cpp:102-112, Cartan_matrix *)
Definition p_Cartan (p : predatum) : res (matrix Z) :=
  let s := p_ssrank p in
  upto s 0 (fun i C => upto s 0 (fun j C1 =>
    run a <- p_root p i; run b <- p_coroot p j; run x <- vec_dot R a b; mput C1 i j x) C) (mat_fill s s 0%Z).

(** prerootdata.cpp:121-149, quotient *)
Definition p_quotient (p : predatum) (L : matrix Z) : res predatum :=
  let r := p_rank p in
  if negb ((mrows L =? r) && (mcols L =? r)) then Fail Thrown
  else
    run q <- inverse fits as_int L;
    let '(inv, d) := q in
    if (d =? 0)%Z then Fail Thrown
    else
      run den <- int_val d;
      upto (p_ssrank p) 0 (fun j p1 =>
        run a <- p_root p1 j;
        run v <- mat_apply R inv a;
        run v1 <- vec_div fits v den;
        run M <- set_column (p_roots p1) j v1;
        run b <- p_coroot p1 j;
        run w <- right_prod R L b;
        run K <- set_column (p_coroots p1) j w;
        Ok (mk_pre M K (p_prefer p1))) p.

(** prerootdata.cpp:151-157, simple_reflect of a vector *)
Definition p_reflect (p : predatum) (i : nat) (v : list Z) : res (list Z) :=
  run a <- p_root p i; run b <- p_coroot p i; run c <- vec_dot R b v; vec_submul v a c.
(** prerootdata.cpp:159-171 and rootdata.cpp:1030-1041: left multiplication of a matrix by a reflection, with root
    coordinates [a] and coroot coordinates [b] *)
Definition left_reflect (rk : nat) (a b : nat -> res Z) (M : matrix Z) : res (matrix Z) :=
  upto (mcols M) 0 (fun j M =>
    run c <- upto rk 0 (fun i c => run x <- b i; run y <- mget M i j; run p <- chkz fits (x * y); chkz fits (c + p)) 0%Z;
    upto rk 0 (fun i M => run x <- mget M i j; run y <- a i; run p <- chkz fits (y * c); run z <- chkz fits (x - p); mput M i j z) M) M.
(** prerootdata.cpp:173-185 and rootdata.cpp:1043-1054: right multiplication *)
Definition right_reflect (rk : nat) (a b : nat -> res Z) (M : matrix Z) : res (matrix Z) :=
  upto (mrows M) 0 (fun i M =>
    run c <- upto rk 0 (fun j c => run x <- mget M i j; run y <- a j; run p <- chkz fits (x * y); chkz fits (c + p)) 0%Z;
    upto rk 0 (fun j M => run x <- mget M i j; run y <- b j; run p <- chkz fits (c * y); run z <- chkz fits (x - p); mput M i j z) M) M.
Definition p_reflect_left (p : predatum) (s : nat) (M : matrix Z) : res (matrix Z) :=
  left_reflect (p_rank p) (fun i => mget (p_roots p) i s) (fun i => mget (p_coroots p) i s) M.
Definition p_reflect_right (p : predatum) (M : matrix Z) (s : nat) : res (matrix Z) :=
  right_reflect (p_rank p) (fun i => mget (p_roots p) i s) (fun i => mget (p_coroots p) i s) M.

(** ** The class RootDatum *)
(** rootdata.h:420-434, the fields; see above for those left out *)
Record datum := mk_datum {
  d_sys : rootsys; d_rank : nat; d_roots : list (list Z); d_coroots : list (list Z);
  d_2rho : list Z; d_dual_2rho : list Z }.
Definition d_ssrank (d : datum) : nat := s_rank (d_sys d).
Definition d_npos (d : datum) : nat := num_pos (d_sys d).

(** rootdata.cpp:824-848, the constructor *)
Definition root_datum (p : predatum) : res datum :=
  run C <- p_Cartan p;
  run s <- root_system C (p_prefer p);
  let np := num_pos s in
  let r := p_rank p in
  run q <- upto np np (fun a '(rts, crts, tr, dtr) =>
    run e <- root_expr s a;
    run x <- mat_apply R (p_roots p) e;
    run rts1 <- vput rts a x;
    run e2 <- coroot_expr s a;
    run y <- mat_apply R (p_coroots p) e2;
    run crts1 <- vput crts a y;
    run tr1 <- vec_add R tr x;
    run dtr1 <- vec_add R dtr y;
    run nx <- vec_negate R x;
    run rts2 <- vput rts1 (minus_nr np a) nx;
    run ny <- vec_negate R y;
    run crts2 <- vput crts1 (minus_nr np a) ny;
    Ok (rts2, crts2, tr1, dtr1)) (repeat [] (2 * np), repeat [] (2 * np), repeat 0%Z r, repeat 0%Z r);
  let '(rts, crts, tr, dtr) := q in
  Ok (mk_datum s r rts crts tr dtr).
(** rootdata.cpp:879-890, the dual root datum *)
Definition dual_datum (d : datum) : res datum :=
  run s <- dual_system (d_sys d);
  Ok (mk_datum s (d_rank d) (d_coroots d) (d_roots d) (d_dual_2rho d) (d_2rho d)).

(** rootdata.h:500-530, root, coroot and those for simple roots *)
Definition d_root (d : datum) (a : nat) : res (list Z) := vget (d_roots d) a.
Definition d_coroot (d : datum) (a : nat) : res (list Z) := vget (d_coroots d) a.
Definition d_simple (d : datum) (i : nat) : nat := pos_nr (d_npos d) i.
(** rootdata.cpp:153-156, the inverse Cartan matrix, computed with entries of type short (values in [short]);
    851-857, the numerators of the fundamental weights and coweights *)
Definition fundamental (short : Z -> bool) (p : predatum) : res (list (list Z) * list (list Z) * Z) :=
  run C <- p_Cartan p;
  run q <- inverse short as_int C;
  let '(inv, den) := q in
  run tr <- transposed 0%Z inv;
  run W <- mat_mul R (p_roots p) tr;
  run ws <- mat_columns 0%Z W;
  run V <- mat_mul R (p_coroots p) inv;
  run vs <- mat_columns 0%Z V;
  Ok (ws, vs, den).
(** rootdata.cpp:859-864, the bases of the coradical and of the radical *)
Definition radicals (p : predatum) : res (list (list Z) * list (list Z)) :=
  if p_ssrank p <? p_rank p then
    run c <- perp fits (p_coroots p);
    run r <- perp fits (p_roots p);
    Ok (c, r)
  else Ok ([], []).
(** rootdata.cpp:1284-1292, conversion to PreRootDatum: beginSimpleRoot()...endSimpleRoot() *)
Definition simple_columns (d : datum) (l : list (list Z)) : res (matrix Z) :=
  if length l <? d_npos d + d_ssrank d then Fail Range
  else mat_of_columns 0%Z (firstn (d_ssrank d) (skipn (d_npos d) l)) (d_rank d).
Definition to_pre (d : datum) : res predatum :=
  run M <- simple_columns d (d_roots d);
  run K <- simple_columns d (d_coroots d);
  Ok (mk_pre M K (s_prefer (d_sys d))).
(** rootdata.cpp:1307-1330, fillStatus: whether adjoint, and whether simply connected; std::abs of int *)
Definition unit_factors (M : matrix Z) : res bool :=
  run q <- diagonalise fits M;
  let '(factor, _, _) := q in
  upto (length factor) 0 (fun i b =>
    run x <- vget factor i; run y <- chkz fits (Z.abs x); Ok (b && (y =? 1)%Z)) true.
Definition status (d : datum) : res (bool * bool) :=
  run M <- simple_columns d (d_roots d);
  run adj <- unit_factors M;
  run K <- simple_columns d (d_coroots d);
  run sc <- unit_factors K;
  Ok (adj, sc).
(** rootdata.cpp:987-1001, sub_predatum *)
Definition sub_predatum (d : datum) (gens : list nat) : res predatum :=
  let k := length gens in
  run q <- upto k 0 (fun j '(M, K) =>
    run a <- vget gens j;
    run x <- d_root d a; run M1 <- set_column M j x;
    run y <- d_coroot d a; run K1 <- set_column K j y;
    Ok (M1, K1)) (mat_fill (d_rank d) k 0%Z, mat_fill (d_rank d) k 0%Z);
  let '(M, K) := q in
  Ok (mk_pre M K (s_prefer (d_sys d))).

(** rootdata.h:578-623, reflections of weights and coweights, with an offset *)
Definition d_reflect (d : datum) (a : nat) (v : list Z) (off : Z) : res (list Z) :=
  run x <- d_root d a; run y <- d_coroot d a;
  run c <- vec_dot R y v; run c1 <- chkz fits (c + off); vec_submul v x c1.
Definition d_coreflect (d : datum) (v : list Z) (a : nat) (off : Z) : res (list Z) :=
  run x <- d_root d a; run y <- d_coroot d a;
  run c <- vec_dot R x v; run c1 <- chkz fits (c + off); vec_submul v y c1.
(** rootdata.h:665-750, act, act_inverse, dual_act and the shifted versions *)
Definition d_act (d : datum) (ww : list nat) (v : list Z) : res (list Z) :=
  downto (length ww) (fun k v => run i <- vget ww k; d_reflect d (d_simple d i) v 0) v.
Definition d_act_inverse (d : datum) (v : list Z) (ww : list nat) : res (list Z) :=
  upto (length ww) 0 (fun k v => run i <- vget ww k; d_reflect d (d_simple d i) v 0) v.
Definition d_dual_act (d : datum) (v : list Z) (ww : list nat) : res (list Z) :=
  upto (length ww) 0 (fun k v => run i <- vget ww k; d_coreflect d v (d_simple d i) 0) v.
Definition d_shifted_act (d : datum) (ww : list nat) (v shift : list Z) : res (list Z) :=
  downto (length ww) (fun k v => run i <- vget ww k; run t <- vget shift i; d_reflect d (d_simple d i) v t) v.
Definition d_shifted_dual_act (d : datum) (v : list Z) (ww : list nat) (shift : list Z) : res (list Z) :=
  upto (length ww) 0 (fun k v => run i <- vget ww k; run t <- vget shift i; d_coreflect d v (d_simple d i) t) v.
(** rootdata.cpp:1030-1054, reflections of matrices *)
Definition d_reflect_left (d : datum) (al : nat) (M : matrix Z) : res (matrix Z) :=
  left_reflect (d_rank d) (fun i => run x <- d_root d al; vget x i) (fun i => run y <- d_coroot d al; vget y i) M.
Definition d_reflect_right (d : datum) (M : matrix Z) (al : nat) : res (matrix Z) :=
  right_reflect (d_rank d) (fun i => run x <- d_root d al; vget x i) (fun i => run y <- d_coroot d al; vget y i) M.
(** rootdata.cpp:1082-1096, root_reflection *)
Definition root_reflection (d : datum) (al : nat) : res (matrix Z) :=
  let r := d_rank d in
  run M <- mat_id R r;
  run x <- d_root d al; run y <- d_coroot d al;
  upto r 0 (fun i M => upto r 0 (fun j M =>
    run m <- mget M i j; run a <- vget x i; run b <- vget y j;
    run p <- chkz fits (a * b); run z <- chkz fits (m - p); mput M i j z) M) M.
(** rootdata.cpp:1270-1276, action_matrix *)
Definition action_matrix (d : datum) (ww : list nat) : res (matrix Z) :=
  run M <- mat_id R (d_rank d);
  upto (length ww) 0 (fun i M => run s <- vget ww i; run N <- root_reflection d (d_simple d s); mat_mul R M N) M.
(** rootdata.h:511, root_index: permutations.h find_index gives the size if there is none *)
Fixpoint find_vec (l : list (list Z)) (v : list Z) (k : nat) : nat :=
  match l with [] => k | x :: t => if veqb x v then k else find_vec t v (S k) end.
Definition root_index (d : datum) (v : list Z) : nat := find_vec (d_roots d) v 0.
(** rootdata.cpp:1062-1075, rootPermutation *)
Definition rootPermutation (d : datum) (q : matrix Z) : res (list nat) :=
  run im <- upto (d_ssrank d) 0 (fun s l =>
    run x <- d_root d (d_simple d s); run y <- mat_apply R q x; vput l s (root_index d y)) (repeat 0 (d_ssrank d));
  extend_to_roots (d_sys d) im.

(** matrix.h:123-130, [v.dot(w)] has the type of the entries of [w]: with [v] of a larger type the partial sums
    are reduced, by [narrow], to that type *)
Definition dot_into (narrow : Z -> Z) (v w : list Z) : res Z :=
  upto (length v) 0 (fun i c =>
    run x <- vget v i; run y <- vget w i; run p <- chkz fits (x * y); run s <- chkz fits (c + p); Ok (narrow s)) 0%Z.
(** rootdata.cpp:1114-1159 and 1180-1228, factor_dominant and factor_codominant: repeatedly find the first
    generator with negative value, and reflect.  The number of rounds is at most the number of positive
    roots, as will be proved *)
Fixpoint first_such (test : nat -> res bool) (n k : nat) : res (option nat) :=
  match n with
  | O => Ok None
  | S m => run t <- test k; if t : bool then Ok (Some k) else first_such test m (S k)
  end.
Fixpoint factor (fuel n : nat) (test : list Z -> nat -> res bool) (step : nat -> list Z -> res (list Z))
    (push : nat -> list nat -> list nat) (v : list Z) (w : list nat) : res (list nat * list Z) :=
  match fuel with
  | O => Fail Fuel
  | S k =>
    run o <- first_such (test v) n 0;
    match o with
    | None => Ok (w, v)
    | Some s => run v1 <- step s v; factor k n test step push v1 (push s w)
    end
  end.
Definition push_back (s : nat) (w : list nat) : list nat := w ++ [s].
Definition push_front (s : nat) (w : list nat) : list nat := s :: w.
Section Narrow.
Variable narrow : Z -> Z.
Definition factor_dominant (d : datum) (v : list Z) : res (list nat * list Z) :=
  factor (S (d_npos d)) (d_ssrank d)
    (fun v s => run y <- d_coroot d (d_simple d s); run c <- dot_into narrow v y; Ok (c <? 0)%Z)
    (fun s v => d_reflect d (d_simple d s) v 0) push_back v [].
Definition factor_codominant (d : datum) (v : list Z) : res (list nat * list Z) :=
  factor (S (d_npos d)) (d_ssrank d)
    (fun v s => run x <- d_root d (d_simple d s); run c <- dot_into narrow v x; Ok (c <? 0)%Z)
    (fun s v => d_coreflect d v (d_simple d s) 0) push_front v [].
(** with a list of roots [g]; the letters are positions in it *)
Definition factor_dominant_gens (d : datum) (g : list nat) (v : list Z) : res (list nat * list Z) :=
  factor (S (d_npos d)) (length g)
    (fun v s => run a <- vget g s; run y <- d_coroot d a; run c <- dot_into narrow v y; Ok (c <? 0)%Z)
    (fun s v => run a <- vget g s; d_reflect d a v 0) push_back v [].
Definition factor_codominant_gens (d : datum) (g : list nat) (v : list Z) : res (list nat * list Z) :=
  factor (S (d_npos d)) (length g)
    (fun v s => run a <- vget g s; run x <- d_root d a; run c <- dot_into narrow v x; Ok (c <? 0)%Z)
    (fun s v => run a <- vget g s; d_coreflect d v a 0) push_front v [].
(** rootdata.cpp:1161-1178, 1230-1249, to_dominant and to_codominant *)
Definition to_dominant (d : datum) (v : list Z) : res (list nat) :=
  run q <- factor_dominant d v; Ok (rev (fst q)).
Definition to_codominant (d : datum) (v : list Z) : res (list nat) :=
  run q <- factor_codominant d v; Ok (rev (fst q)).
Definition to_dominant_gens (d : datum) (g : list nat) (v : list Z) : res (list nat) :=
  run q <- factor_dominant_gens d g v; Ok (rev (fst q)).
Definition to_codominant_gens (d : datum) (g : list nat) (v : list Z) : res (list nat) :=
  run q <- factor_codominant_gens d g v; Ok (rev (fst q)).
(** rootdata.h:634-663, make_dominant and make_codominant; the versions with a list of roots call
    factor_dominant and factor_codominant without it *)
Definition make_dominant (d : datum) (v : list Z) : res (list Z) :=
  run q <- factor_dominant d v; Ok (snd q).
Definition make_codominant (d : datum) (v : list Z) : res (list Z) :=
  run q <- factor_codominant d v; Ok (snd q).
Definition make_dominant_gens (d : datum) (g : list nat) (v : list Z) : res (list Z) := make_dominant d v.
Definition make_codominant_gens (d : datum) (g : list nat) (v : list Z) : res (list Z) := make_codominant d v.
End Narrow.
Definition idZ (z : Z) : Z := z.
(** rootdata.cpp:1098-1101, reflection_word; 1109-1113, word_of_inverse_matrix *)
Definition d_reflection_word (d : datum) (a : nat) : res (list nat) :=
  run v <- d_reflect d a (d_2rho d) 0; to_dominant idZ d v.
Definition word_of_inverse_matrix (d : datum) (q : matrix Z) : res (list nat) :=
  run v <- mat_apply R q (d_2rho d); to_dominant idZ d v.
End Fits.
