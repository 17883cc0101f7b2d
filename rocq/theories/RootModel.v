(** Root systems: the class RootSystem of sources/structure/rootdata.h and rootdata.cpp.

    A RootNbr (unsigned short) or other number of a root is a [nat]; the largest number of
    roots of rank at most 32 is 2048, so these never wrap around.  Coefficients are of type
    signed char ([byte], rootdata.h:136): results are reduced by [s8] where the C++ code
    stores them.  Sets of descents and ascents are RankFlags as in [DynkinModel].  A BitMap
    is the list of its bits (its own operations are those of [BitmapModel]); inserting
    beyond its capacity, like any access outside a vector, is [Fail Range].  An iterator over a
    BitMap looks at the current bits at each step (bitmap.cpp:630-662), so it is a loop over
    all positions.  Calls of [assert] are not compiled in the release build. *)

From Coq Require Import List Arith ZArith Bool.
From Verif Require Import VecModel RunModel MatModel SizeModel LieTypeModel DynkinModel.
Import ListNotations.
Local Open Scope nat_scope.

(** BitMap::insert, remove and isMember; iteration over a set that does not change *)
Definition bset := list bool.
Definition bins (b : bset) (x : nat) : res bset := vput b x true.
Definition brem (b : bset) (x : nat) : res bset := vput b x false.
Definition bmem (b : bset) (x : nat) : bool := nth x b false.
Definition each {S} (b : bset) (f : nat -> S -> res S) (s : S) : res S :=
  upto (length b) 0 (fun x s1 => if bmem b x then f x s1 else Ok s1) s.

(** equality of vectors *)
Fixpoint veqb (v w : list Z) : bool :=
  match v, w with
  | [], [] => true
  | x :: v', y :: w' => (x =? y)%Z && veqb v' w'
  | _, _ => false
  end.
(** matrix.h:125-132, dot of two vectors of bytes: the sum is a byte *)
Fixpoint dot8 (r : Z) (v w : list Z) : res Z :=
  match v, w with
  | [], _ => Ok r
  | x :: v', y :: w' => dot8 (s8 (r + x * y)) v' w'
  | _ :: _, [] => Fail Range
  end.

(** rootdata.h:138-147, root_info *)
Record root_info := mk_info {
  r_root : list Z; r_coroot : list Z; r_perm : list nat; r_desc : Z; r_asc : Z }.
(** rootdata.h:157-169, the fields of RootSystem; C_denom and invCmat (the inverse of the Cartan matrix, set at
    rootdata.cpp:153-156) are left out *)
Record rootsys := mk_sys {
  s_rank : nat; s_prefer : bool; s_Cmat : matrix Z; s_ri : list root_info;
  s_bot : list bset; s_cobot : list bset }.

(** rootdata.cpp:118-129, root_compare: the last coefficients decide first *)
Fixpoint lex_lt (v w : list Z) : bool :=
  match v, w with
  | x :: v', y :: w' => if (x =? y)%Z then lex_lt v' w' else (x <? y)%Z
  | _, _ => false
  end.
Definition root_lt (v w : list Z) : bool := lex_lt (rev v) (rev w).
(** std::set<Byte_vector,root_compare>::insert *)
Fixpoint rs_insert (v : list Z) (l : list (list Z)) : list (list Z) :=
  match l with
  | [] => [v]
  | x :: t => if root_lt v x then v :: l else if root_lt x v then x :: rs_insert v t else l
  end.

(** ** rootdata.cpp:143-240, generation of the positive roots *)
(** roots_at_level, ri, link and first_l *)
Record gen := mk_gen {
  g_levels : list (list (list Z)); g_ri : list root_info;
  g_link : list (list (option nat)); g_first : list nat }.
Definition set_link (g : gen) (a i b : nat) : res gen :=
  run row <- vget (g_link g) a;
  run row1 <- vput row i (Some b);
  run link1 <- vput (g_link g) a row1;
  Ok (mk_gen (g_levels g) (g_ri g) link1 (g_first g)).
Definition set_info (g : gen) (a : nat) (f : root_info -> res root_info) : res gen :=
  run x <- vget (g_ri g) a;
  run y <- f x;
  run ri1 <- vput (g_ri g) a y;
  Ok (mk_gen (g_levels g) ri1 (g_link g) (g_first g)).
Definition add_desc (i : nat) (x : root_info) : res root_info :=
  run d <- nset (r_desc x) i; Ok (mk_info (r_root x) (r_coroot x) (r_perm x) d (r_asc x)).
Definition add_asc (i : nat) (x : root_info) : res root_info :=
  run d <- nset (r_asc x) i; Ok (mk_info (r_root x) (r_coroot x) (r_perm x) (r_desc x) d).
(** an unsigned index that is negative before reduction is out of bounds *)
Definition index (z : Z) : res nat := if (z <? 0)%Z then Fail Range else Ok (Z.to_nat z).
(** the first of the roots with numbers from [from], at most [n] of them, equal to [v] *)
Fixpoint look (proj : root_info -> list Z) (n from : nat) (ri : list root_info) (v : list Z) : res (option nat) :=
  match n with
  | O => Ok None
  | S k => run x <- vget ri from; if veqb (proj x) v then Ok (Some from) else look proj k (S from) ri v
  end.
(** rootdata.cpp:188-217, the root [alpha], number [cur], at level [l], and the simple coroot [i] *)
Definition gen_coord (cor : list (list Z)) (l cur : nat) (alpha : list Z) (i : nat) (g : gen) : res gen :=
  run si <- vget cor i;
  run c <- dot8 0%Z alpha si;
  if (c =? 0)%Z then set_link g cur i cur
  else
    run ai <- vget alpha i;
    run beta <- vput alpha i (s8 (ai - c));
    if (0 <? c)%Z then
      run g1 <- set_info g cur (add_desc i);
      if l =? 1 then set_link g1 cur i cur
      else
        run j0 <- index (Z.of_nat l - c);
        run lo <- vget (g_first g1) j0;
        run hi <- vget (g_first g1) (S j0);
        run o <- look r_root (hi - lo) lo (g_ri g1) beta;
        match o with
        | Some j => run g2 <- set_link g1 cur i j; set_link g2 j i cur
        | None => Ok g1
        end
    else
      run g1 <- set_info g cur (add_asc i);
      run m <- index (Z.of_nat l - c);
      run s <- vget (g_levels g1) m;
      run lv <- vput (g_levels g1) m (rs_insert beta s);
      Ok (mk_gen lv (g_ri g1) (g_link g1) (g_first g1)).
(** rootdata.cpp:181-218 *)
Definition gen_root (rk : nat) (cor : list (list Z)) (l : nat) (g : gen) (alpha : list Z) : res gen :=
  let cur := length (g_ri g) in
  upto rk 0 (gen_coord cor l cur alpha)
    (mk_gen (g_levels g) (g_ri g ++ [mk_info alpha [] [] 0%Z 0%Z]) (g_link g ++ [repeat None rk]) (g_first g)).
Fixpoint gen_roots (rk : nat) (cor : list (list Z)) (l : nat) (s : list (list Z)) (g : gen) : res gen :=
  match s with
  | [] => Ok g
  | alpha :: rest => run g1 <- gen_root rk cor l g alpha; gen_roots rk cor l rest g1
  end.
(** rootdata.cpp:175-220, the loop over the levels *)
Fixpoint gen_levels (fuel rk : nat) (cor : list (list Z)) (l : nat) (g : gen) : res gen :=
  match fuel with
  | O => Fail Fuel
  | S k =>
    run s <- vget (g_levels g) l;
    match s with
    | [] => Ok g
    | _ :: _ =>
      run g1 <- gen_roots rk cor l s (mk_gen (g_levels g) (g_ri g) (g_link g) (g_first g ++ [length (g_ri g)]));
      run lv <- vput (g_levels g1) l [];
      gen_levels k rk cor (S l) (mk_gen lv (g_ri g1) (g_link g1) (g_first g1))
    end
  end.
(** rootdata.cpp:143-151, the simple roots at level 1 *)
Definition unit_vec (n i : nat) : list Z := repeat 0%Z i ++ 1%Z :: repeat 0%Z (n - 1 - i).
Definition first_levels (rk : nat) : res (list (list (list Z))) :=
  upto rk 0 (fun i lv => run s <- vget lv 1; vput lv 1 (rs_insert (unit_vec rk i) s)) (repeat [] (4 * rk)).

(** rootdata.cpp:224-236, the coroots; [row] has the simple roots *)
Definition set_coroot (w : list Z) (x : root_info) : root_info :=
  mk_info (r_root x) w (r_perm x) (r_desc x) (r_asc x).
Definition link_at (link : list (list (option nat))) (a i : nat) : res nat :=
  run r <- vget link a; run o <- vget r i; of_option o.
Definition make_coroots (rk : nat) (row : list (list Z)) (link : list (list (option nat))) (ri : list root_info) : res (list root_info) :=
  run ri1 <- upto rk 0 (fun i r => run x <- vget r i; vput r i (set_coroot (r_root x) x)) ri;
  upto (length ri - rk) rk (fun alpha r =>
    run x <- vget r alpha;
    let i := nfirst (r_desc x) in
    run beta <- link_at link alpha i;
    run y <- vget r beta;
    run wi <- vget (r_coroot y) i;
    run si <- vget row i;
    run c <- dot8 0%Z (r_coroot y) si;
    run w <- vput (r_coroot y) i (s8 (wi - c));
    vput r alpha (set_coroot w x)) ri1.

(** rootdata.cpp:325-337, swap_roots_and_coroots *)
Definition swap_info (x : root_info) : root_info :=
  mk_info (r_coroot x) (r_root x) (r_perm x) (r_desc x) (r_asc x).
Definition swap_sys (rk : nat) (C : matrix Z) (ri : list root_info) : res (matrix Z * list root_info) :=
  run s <- upto rk 0 (fun i s =>
    upto (rk - S i) (S i) (fun j '(M, laced) =>
      run x <- mget M i j; run y <- mget M j i;
      if negb (x =? y)%Z then run M1 <- mswap M i j j i; Ok (M1, false) else Ok (M, laced)) s) (C, true);
  let '(M, laced) := s in
  Ok (M, if laced : bool then ri else map swap_info ri).

(** ** Numbering (rootdata.h:252-280) *)
Definition pos_nr (np a : nat) : nat := np + a.
Definition neg_nr (np a : nat) : nat := np - 1 - a.
Definition is_pos (np a : nat) : bool := np <=? a.
Definition minus_nr (np a : nat) : nat := 2 * np - 1 - a.
Definition abs_nr (np a : nat) : nat := if is_pos np a then a - np else np - 1 - a.

(** ** rootdata.cpp:243-321, permutations and bottoms of ladders *)
Definition set_perm (p : list nat) (x : root_info) : root_info :=
  mk_info (r_root x) (r_coroot x) p (r_desc x) (r_asc x).
(** rootdata.cpp:271-278: whether [v] with coefficient [i] decreased is not a root *)
Definition is_bottom (proj : root_info -> list Z) (ri : list root_info) (v : list Z) (i : nat) : res bool :=
  run c <- vget v i;
  if (c =? 0)%Z then Ok true
  else run w <- vput v i (s8 (c - 1)); run o <- look proj (length ri) 0 ri w;
       Ok (match o with None => true | Some _ => false end).
(** rootdata.cpp:246-284, for simple root [i] *)
Definition simple_perm (ri : list root_info) (link : list (list (option nat))) (i : nat) : res (list nat * bset * bset) :=
  let np := length ri in
  upto np 0 (fun alpha '(perm, bots, cobots) =>
    if alpha =? i then
      run p1 <- vput perm (pos_nr np alpha) (neg_nr np alpha);
      run p2 <- vput p1 (neg_nr np alpha) (pos_nr np alpha);
      run b1 <- bins bots (pos_nr np alpha); run b2 <- bins b1 (neg_nr np alpha);
      run c1 <- bins cobots (pos_nr np alpha); run c2 <- bins c1 (neg_nr np alpha);
      Ok (p2, b2, c2)
    else
      run beta <- link_at link alpha i;
      run p1 <- vput perm (pos_nr np alpha) (pos_nr np beta);
      run p2 <- vput p1 (neg_nr np alpha) (neg_nr np beta);
      run x <- vget ri alpha;
      run t <- is_bottom r_root ri (r_root x) i;
      run b2 <- (if t : bool then run b1 <- bins bots (pos_nr np alpha); bins b1 (neg_nr np beta) else Ok bots);
      run u <- is_bottom r_coroot ri (r_coroot x) i;
      run c2 <- (if u : bool then run c1 <- bins cobots (pos_nr np alpha); bins c1 (neg_nr np beta) else Ok cobots);
      Ok (p2, b2, c2))
    (repeat 0 (2 * np), repeat false (2 * np), repeat false (2 * np)).
(** permutations.cpp:111-118, renumber *)
Definition renumber (pi v : list nat) : res (list nat) :=
  upto (length v) 0 (fun k v1 => run x <- vget v1 k; run y <- vget pi x; vput v1 k y) v.
(** the set of the images *)
Definition image_set (np : nat) (pi : list nat) (b : bset) : res bset :=
  each b (fun x s => run y <- vget pi x; bins s y) (repeat false (2 * np)).
(** rootdata.cpp:246-321; the state has the roots, root_ladder_bot and coroot_ladder_bot *)
Definition perm_simple (link : list (list (option nat))) (ri0 : list root_info) (i : nat)
    (s : list root_info * list bset * list bset) : res (list root_info * list bset * list bset) :=
  let '(ri, bot, cobot) := s in
  run q <- simple_perm ri0 link i;
  let '(p, b, c) := q in
  run x <- vget ri i;
  run ri1 <- vput ri i (set_perm p x);
  run bot1 <- vput bot (pos_nr (length ri0) i) b;
  run cobot1 <- vput cobot (pos_nr (length ri0) i) c;
  Ok (ri1, bot1, cobot1).
Definition perm_extend (link : list (list (option nat))) (np alpha : nat)
    (s : list root_info * list bset * list bset) : res (list root_info * list bset * list bset) :=
  let '(ri, bot, cobot) := s in
  run x <- vget ri alpha;
  let i := nfirst (r_desc x) in
  run beta <- link_at link alpha i;
  run xi <- vget ri i;
  run xb <- vget ri beta;
  run p1 <- renumber (r_perm xb) (r_perm xi);
  run p2 <- renumber (r_perm xi) p1;
  run ri1 <- vput ri alpha (set_perm p2 x);
  run b <- vget bot (pos_nr np beta);
  run b1 <- image_set np (r_perm xi) b;
  run bot1 <- vput bot (pos_nr np alpha) b1;
  run c <- vget cobot (pos_nr np beta);
  run c1 <- image_set np (r_perm xi) c;
  run cobot1 <- vput cobot (pos_nr np alpha) c1;
  Ok (ri1, bot1, cobot1).
Definition perm_neg (np alpha : nat) (s : list root_info * list bset * list bset)
    : res (list root_info * list bset * list bset) :=
  let '(ri, bot, cobot) := s in
  run x <- vget ri alpha;
  run b <- vget bot (pos_nr np alpha);
  run b1 <- image_set np (r_perm x) b;
  run bot1 <- vput bot (neg_nr np alpha) b1;
  run c <- vget cobot (pos_nr np alpha);
  run c1 <- image_set np (r_perm x) c;
  run cobot1 <- vput cobot (neg_nr np alpha) c1;
  Ok (ri, bot1, cobot1).
Definition make_perms (rk : nat) (link : list (list (option nat))) (ri : list root_info)
    : res (list root_info * list bset * list bset) :=
  let np := length ri in
  run s1 <- upto rk 0 (perm_simple link ri) (ri, repeat [] (2 * np), repeat [] (2 * np));
  run s2 <- upto (np - rk) rk (perm_extend link np) s1;
  upto np 0 (perm_neg np) s2.

(** rootdata.cpp:131-323, the constructor; matrix.h:512-520 conversion of the entries to bytes *)
Definition slice (f : matrix Z -> nat -> res (list Z)) (M : matrix Z) (rk : nat) : res (list (list Z)) :=
  upto rk 0 (fun i l => run v <- f M i; Ok (l ++ [v])) [].
Definition root_system (C : matrix Z) (prefer_co : bool) : res rootsys :=
  let rk := mrows C in
  let M := mk_mat (mrows C) (mcols C) (map s8 (mdata C)) in
  if rk =? 0 then Ok (mk_sys 0 prefer_co M [] [] [])
  else
    run lv <- first_levels rk;
    run (M1, _) <- (if prefer_co then swap_sys rk M [] else Ok (M, []));
    run row <- slice mat_row M1 rk;
    run col <- slice (mat_column 0%Z) M1 rk;
    run g <- gen_levels (S (4 * rk)) rk col 1 (mk_gen lv [] [] [0]);
    run ri <- make_coroots rk row (g_link g) (g_ri g);
    run (M2, ri2) <- (if prefer_co then swap_sys rk M1 ri else Ok (M1, ri));
    run (ri3, bot, cobot) <- make_perms rk (g_link g) ri2;
    Ok (mk_sys rk prefer_co M2 ri3 bot cobot).
(** rootdata.cpp:339-348, the dual root system *)
Definition dual_system (s : rootsys) : res rootsys :=
  run (M, ri) <- swap_sys (s_rank s) (s_Cmat s) (s_ri s);
  Ok (mk_sys (s_rank s) (negb (s_prefer s)) M ri (s_cobot s) (s_bot s)).

(** ** Accessors *)
Definition num_pos (s : rootsys) : nat := length (s_ri s).
Definition num_roots (s : rootsys) : nat := 2 * num_pos s.
(** rootdata.h:178-185, root_any and coroot_any; rootdata.cpp:359-376, root_expr and coroot_expr have the same
    coefficients as integers *)
Definition neg8 (v : list Z) : list Z := map (fun x => s8 (- x)) v.
Definition any_vec (proj : root_info -> list Z) (s : rootsys) (a : nat) : res (list Z) :=
  if is_pos (num_pos s) a then run x <- vget (s_ri s) (a - num_pos s); Ok (proj x)
  else run x <- vget (s_ri s) (num_pos s - 1 - a); Ok (neg8 (proj x)).
Definition expr_vec (proj : root_info -> list Z) (s : rootsys) (a : nat) : res (list Z) :=
  run x <- vget (s_ri s) (abs_nr (num_pos s) a);
  Ok (if is_pos (num_pos s) a then proj x else map (fun z => z * -1)%Z (proj x)).
Definition root_any := any_vec r_root.
Definition coroot_any := any_vec r_coroot.
Definition root_expr := expr_vec r_root.
Definition coroot_expr := expr_vec r_coroot.
(** rootdata.cpp:378-399, level and colevel *)
Definition level_of (proj : root_info -> list Z) (s : rootsys) (a : nat) : res Z :=
  run x <- vget (s_ri s) (abs_nr (num_pos s) a);
  let r := fold_left Z.add (proj x) 0%Z in
  Ok (if is_pos (num_pos s) a then r else r * -1)%Z.
Definition level := level_of r_root.
Definition colevel := level_of r_coroot.
(** rootdata.h:299-317, descent_set and others *)
Definition descent_set (s : rootsys) (a : nat) : res Z :=
  run x <- vget (s_ri s) (abs_nr (num_pos s) a); Ok (if is_pos (num_pos s) a then r_desc x else r_asc x).
Definition ascent_set (s : rootsys) (a : nat) : res Z :=
  run x <- vget (s_ri s) (abs_nr (num_pos s) a); Ok (if is_pos (num_pos s) a then r_asc x else r_desc x).
(** rootdata.h:319-347, reflections; [reflected] is reflected_root, [simple_reflected] simple_reflected_root *)
Definition simple_reflected (s : rootsys) (i r : nat) : res nat := run x <- vget (s_ri s) i; vget (r_perm x) r.
Definition reflected (s : rootsys) (a b : nat) : res nat :=
  run x <- vget (s_ri s) (abs_nr (num_pos s) a); vget (r_perm x) b.
Definition is_descent (s : rootsys) (i a : nat) : res bool := run b <- simple_reflected s i a; Ok (b <? a).
Definition is_ascent (s : rootsys) (i a : nat) : res bool := run b <- simple_reflected s i a; Ok (a <? b).
Definition is_orthogonal (s : rootsys) (a b : nat) : res bool := run r <- reflected s a b; Ok (r =? b).
(** rootdata.h:325-337, permuted_root, both versions *)
Definition permuted_left (s : rootsys) (ww : list nat) (r : nat) : res nat :=
  downto (length ww) (fun k r1 => run i <- vget ww k; simple_reflected s i r1) r.
Definition permuted_right (s : rootsys) (r : nat) (ww : list nat) : res nat :=
  upto (length ww) 0 (fun k r1 => run i <- vget ww k; simple_reflected s i r1) r.
(** rootdata.cpp:543-561, bracket; the sums are small enough not to overflow an int *)
Definition bracket (s : rootsys) (a b : nat) : res Z :=
  run o <- is_orthogonal s a b;
  if o : bool then Ok 0%Z
  else
    run x <- vget (s_ri s) (abs_nr (num_pos s) a);
    run y <- vget (s_ri s) (abs_nr (num_pos s) b);
    run c <- upto (s_rank s) 0 (fun i c => upto (s_rank s) 0 (fun j c1 =>
               run p <- vget (r_root x) i; run m <- mget (s_Cmat s) i j; run q <- vget (r_coroot y) j;
               Ok (c1 + p * m * q)%Z) c) 0%Z;
    Ok (if Bool.eqb (is_pos (num_pos s) a) (is_pos (num_pos s) b) then c else - c)%Z.
(** rootdata.cpp:523-534, Cartan_matrix of a list of roots *)
Definition Cartan_of (s : rootsys) (rb : list nat) : res (matrix Z) :=
  let r := length rb in
  upto r 0 (fun i M => upto r 0 (fun j M1 =>
    run a <- vget rb i; run b <- vget rb j; run x <- bracket s a b; mput M1 i j x) M) (mat_fill r r 0%Z).
(** rootdata.cpp:563-588, extend_to_roots *)
Definition extend_to_roots (s : rootsys) (im : list nat) : res (list nat) :=
  let np := num_pos s in
  run r1 <- upto (s_rank s) 0 (fun i r => run x <- vget im i; vput r (pos_nr np i) x) (repeat 0 (2 * np));
  run r2 <- upto (np - s_rank s) (np + s_rank s) (fun alpha r =>
    run x <- vget (s_ri s) (alpha - np);
    let i := nfirst (r_desc x) in
    run beta <- simple_reflected s i alpha;
    run ii <- vget im i;
    run rb <- vget r beta;
    run y <- reflected s ii rb;
    vput r alpha y) r1;
  upto np 0 (fun alpha r => run x <- vget r (minus_nr np alpha); vput r alpha (minus_nr np x)) r2.
(** rootdata.cpp:590-599, root_permutation of a diagram automorphism *)
Definition twist_permutation (s : rootsys) (twist : list nat) : res (list nat) :=
  run im <- upto (length twist) 0 (fun i l => run x <- vget twist i; vput l i (pos_nr (num_pos s) x)) (repeat 0 (s_rank s));
  extend_to_roots s im.
(** rootdata.cpp:601-617, reflection_word; make_positive is at rootdata.cpp:1465-1469 *)
Definition make_positive (s : rootsys) (a : nat) : nat := if is_pos (num_pos s) a then a else minus_nr (num_pos s) a.
Definition reflection_word (s : rootsys) (a : nat) : res (list nat) :=
  let np := num_pos s in
  run q <- loop (num_roots s) (fun '(a, w) => Ok (s_rank s + np <=? a))
    (fun '(a, w) =>
      run x <- vget (s_ri s) (a - np);
      let i := nfirst (r_desc x) in
      run b <- simple_reflected s i a;
      Ok (b, w ++ [i])) (make_positive s a, []);
  let '(a, w) := q in
  let w1 := w ++ [a - np] in
  downto (length w1 - 1) (fun i r => run x <- vget r i; Ok (r ++ [x])) w1.

(** rootdata.cpp:619-652, simpleBasis: the loop over beta in the set, then over the candidates; the flag tells that
    the loop over alpha has been left *)
Fixpoint basis_inner (s : rootsys) (alpha : nat) (rs : bset) (n beta : nat) (cand : bset) : res bset :=
  match n with
  | O => Ok cand
  | S k =>
    if bmem rs beta then
      if alpha =? beta then basis_inner s alpha rs k (S beta) cand
      else
        run gamma <- reflected s alpha beta;
        if gamma <? beta then
          if is_pos (num_pos s) gamma then run c <- brem cand beta; basis_inner s alpha rs k (S beta) c
          else brem cand alpha
        else basis_inner s alpha rs k (S beta) cand
    else basis_inner s alpha rs k (S beta) cand
  end.
Fixpoint basis_outer (s : rootsys) (rs : bset) (n alpha : nat) (cand : bset) : res bset :=
  match n with
  | O => Ok cand
  | S k =>
    if bmem cand alpha then
      run c <- basis_inner s alpha rs (length rs) 0 cand;
      if bmem c alpha then basis_outer s rs k (S alpha) c else Ok c
    else basis_outer s rs k (S alpha) cand
  end.
Definition members (b : bset) : list nat := filter (bmem b) (seq 0 (length b)).
Definition simple_basis (s : rootsys) (rs : bset) : res (list nat) :=
  let np := num_pos s in
  let rs1 := repeat false np ++ skipn np rs in
  run c <- basis_outer s rs1 (length rs1) 0 rs1;
  Ok (members c).
(** rootdata.cpp:655-681, pos_simples: the set has the numbers among positive roots *)
Fixpoint simples_inner (s : rootsys) (alpha n b : nat) (cur : bset) : res (bset * bool) :=
  match n with
  | O => Ok (cur, true)
  | S k =>
    if bmem cur b then
      let beta := pos_nr (num_pos s) b in
      run gamma <- reflected s alpha beta;
      if gamma <? beta then
        if is_pos (num_pos s) gamma then run c <- brem cur b; simples_inner s alpha k (S b) c
        else Ok (cur, false)
      else simples_inner s alpha k (S b) cur
    else simples_inner s alpha k (S b) cur
  end.
Definition pos_simples (s : rootsys) (posroots : bset) : res (list nat) :=
  run q <- upto (length posroots) 0 (fun a '(cur, out) =>
    if bmem cur a then
      run t <- simples_inner s (pos_nr (num_pos s) a) (length posroots - S a) (S a) cur;
      let '(c, done) := t in
      Ok (c, if done : bool then out ++ [pos_nr (num_pos s) a] else out)
    else Ok (cur, out)) (posroots, []);
  Ok (snd q).

(** rootdata.cpp:717-733, lookup_posroot, lookup_poscoroot; 735-763, lookup_root, lookup_coroot *)
Fixpoint first_nonzero (v : list Z) : option Z :=
  match v with [] => None | x :: t => if (x =? 0)%Z then first_nonzero t else Some x end.
Definition lookup_vec (proj : root_info -> list Z) (s : rootsys) (v : list Z) : res nat :=
  let np := num_pos s in
  match first_nonzero v with
  | None => Ok (2 * np)
  | Some x =>
    let neg := (x <? 0)%Z in
    run o <- look proj np 0 (s_ri s) (if neg then neg8 v else v);
    Ok (match o with None => 2 * np | Some pr => if neg then pos_nr np pr else neg_nr np pr end)
  end.
Definition lookup_root := lookup_vec r_root.
Definition lookup_coroot := lookup_vec r_coroot.
(** rootdata.cpp:765-772, root_add and coroot_add; the sum of two byte vectors *)
Definition add8 (v w : list Z) : list Z := map (fun '(x, y) => s8 (x + y)) (combine v w).
Definition root_add (s : rootsys) (a b : nat) : res nat :=
  run v <- root_any s a; run w <- root_any s b; lookup_root s (add8 v w).
Definition coroot_add (s : rootsys) (a b : nat) : res nat :=
  run v <- coroot_any s a; run w <- coroot_any s b; lookup_coroot s (add8 v w).
(** rootdata.h:282-285, 367-370: sum_is_root, sum_is_coroot *)
Definition sum_is_root (s : rootsys) (a b : nat) : res bool :=
  run t <- vget (s_bot s) (minus_nr (num_pos s) a); Ok (negb (bmem t b)).
Definition sum_is_coroot (s : rootsys) (a b : nat) : res bool :=
  run t <- vget (s_cobot s) (minus_nr (num_pos s) a); Ok (negb (bmem t b)).
(** rootdata.cpp:467-481 simple_root_set, fundamental_alcove_walls; 491-496 posroot_set *)
Definition simple_root_set (s : rootsys) : bset :=
  map (fun a => (num_pos s <=? a) && (a <? num_pos s + s_rank s)) (seq 0 (num_roots s)).
Definition posroot_set (s : rootsys) : bset := map (fun a => num_pos s <=? a) (seq 0 (num_roots s)).
Definition alcove_walls (s : rootsys) : res bset :=
  run low <- upto (s_rank s) 0 (fun i b =>
    run t <- vget (s_cobot s) (pos_nr (num_pos s) i);
    Ok (map (fun '(x, y) => x && y) (combine b t))) (map negb (posroot_set s));
  Ok (map (fun '(x, y) => x || y) (combine low (simple_root_set s))).
(** rootdata.cpp:808-816, high_roots *)
Definition high_roots (s : rootsys) : res (list nat) :=
  upto (num_pos s) 0 (fun a h =>
    run d <- descent_set s a;
    Ok (if (d =? 0)%Z then h ++ [minus_nr (num_pos s) a] else h)) [].
