(** Model of linear algebra over the field with two elements:
    sources/structure/bitvector.h and bitvector.cpp.

    A [BitSet<dim>] is the number whose binary digits are its bits (BitsetModel.v and
    C27 treat the words in which they are stored); access to a bit at position [dim]
    or beyond is undefined in C++ and gives [Fail Range]. The iterator over a [BitSet]
    is the increasing list of the positions of its bits. Assertions are not
    part of the code (release build). Sizes and positions are [nat]. *)

From Coq Require Import List Arith NArith ZArith Bool.
From Verif Require Import VecModel RunModel.
Import ListNotations.
Open Scope nat_scope.

(** *** BitSet *)

Definition bit (s : N) (i : nat) : bool := N.testbit s (N.of_nat i).

(** position of the first bit; bitset.h firstBit (of the empty set: not used) *)
Fixpoint pos_first (p : positive) : nat :=
  match p with xO q => S (pos_first q) | _ => O end.
Definition firstBit (s : N) : nat := match s with N0 => O | Npos p => pos_first p end.

Section Dim.
Variable dim : nat.

(** s[i], s.test(i) *)
Definition test (s : N) (i : nat) : res bool := if i <? dim then Ok (bit s i) else Fail Range.
(** s.set(i,b) *)
Definition assign (s : N) (i : nat) (b : bool) : res N :=
  if i <? dim then Ok (if b then N.setbit s (N.of_nat i) else N.clearbit s (N.of_nat i)) else Fail Range.
(** the positions visited by the iterator *)
Definition positions (s : N) : list nat := filter (bit s) (seq 0 dim).
Definition bs_count (s : N) : nat := length (positions s).
(** for (it=s.begin(); it(); ++it) *)
Fixpoint each {A S} (l : list A) (body : A -> S -> res S) (s : S) : res S :=
  match l with [] => Ok s | x :: t => run s' <- body x s; each t body s' end.

(** *** BitVector *)

(** bitvector.h:142-143 *)
Record bv := mk_bv { data : N; bsize : nat }.
(** bitvector.h:147-149, 151-155 *)
Definition bv_zero (n : nat) : bv := mk_bv 0 n.
Definition bv_unit (n j : nat) : res bv := run s <- assign 0 j true; Ok (mk_bv s n).
(** bitvector.h:161-168: the vector reduced modulo 2 *)
Definition bv_mod2 (v : list Z) : res bv :=
  run s <- upto (length v) 0 (fun j s => run x <- vget v j; assign s j (negb (Z.rem x 2 =? 0)%Z)) 0%N;
  Ok (mk_bv s (length v)).
(** bitvector.h:202-206 *)
Definition bv_test (v : bv) (i : nat) : res bool := test (data v) i.
(** bitvector.h:216, 221-222 *)
Definition isZero (v : bv) : bool := (data v =? 0)%N.
Definition dot (v w : bv) : bool := Nat.odd (bs_count (N.land (data v) (data w))).
(** bitvector.h:242-254 (and +, -), 256-261 *)
Definition bv_add (v w : bv) : bv := mk_bv (N.lxor (data v) (data w)) (bsize v).
Definition bv_and (v w : bv) : bv := mk_bv (N.land (data v) (data w)) (bsize v).
(** bitvector.h:266-271, 275-282, 286, 288-293, 295 *)
Definition bv_set (v : bv) (i : nat) (b : bool) : res bv := run s <- assign (data v) i b; Ok (mk_bv s (bsize v)).
Definition bv_flip (v : bv) (i : nat) : res bv := run b <- test (data v) i; bv_set v i (negb b).
Definition bv_reset (v : bv) : bv := mk_bv 0 (bsize v).
Definition bv_resize (v : bv) (n : nat) : bv := mk_bv (data v) n.
(** bitvector.h:232-238 conversion to a vector of integers; bitvector.cpp:812-817 lift *)
Definition bv_ints (v : bv) : res (list Z) :=
  downto (bsize v) (fun i r => run b <- test (data v) i; vput r i (if b : bool then 1 else 0)%Z) (repeat 0%Z (bsize v)).
Definition lift (v : bv) : res (list Z) :=
  each (positions (data v)) (fun i r => vput r i 1%Z) (repeat 0%Z (bsize v)).
(** bitvector.cpp:45-54 *)
Definition pushBack (v : bv) (b : bool) : res bv := run s <- assign (data v) (bsize v) b; Ok (mk_bv s (S (bsize v))).
(** bitvector.cpp:70-87 slice *)
Definition bv_slice (v : bv) (t : N) : res bv :=
  run (s, c) <- upto (bsize v) 0 (fun j '(s, c) =>
     run b <- test t j;
     if b : bool then run x <- test s j; run s <- assign s c x; Ok (s, S c) else Ok (s, c)) (data v, 0);
  Ok (mk_bv (N.land s (N.ones (N.of_nat c))) c).
(** bitvector.cpp:99-107 unslice *)
Definition bv_unslice (v : bv) (t : N) (new_size : nat) : res bv :=
  run (_, r) <- each (positions t) (fun i '(d, r) =>
     run x <- test d 0; run r <- assign r i x; Ok (N.shiftr d 1, r)) (data v, 0%N);
  Ok (mk_bv r new_size).

(** *** combinations *)

(** bitvector.cpp:465-477 *)
Definition combination (b : list bv) (n : nat) (e : N) : res bv :=
  upto (length b) 0 (fun i r => run c <- test e i; if c : bool then run x <- vget b i; Ok (bv_add r x) else Ok r)
    (bv_zero n).
(** bitvector.cpp:486-495 *)
Definition set_combination (b : list N) (coef : N) : res N :=
  upto (length b) 0 (fun i r => run c <- test coef i; if c : bool then run x <- vget b i; Ok (N.lxor r x) else Ok r) 0%N.

(** *** echelon forms *)

(** the loops bitvector.cpp:745-750, 798-800: reduction of w by the vectors of a *)
Definition reduce_by (a : list bv) (f : list nat) (w : bv) : res bv :=
  upto (length a) 0 (fun j w =>
    run p <- vget f j; run b <- bv_test w p;
    if b : bool then run x <- vget a j; Ok (bv_add w x) else Ok w) w.
(** bitvector.cpp:732-765 normalSpanAdd *)
Definition normalSpanAdd (a : list bv) (f : list nat) (v : bv) : res (list bv * list nat) :=
  if isZero v then Ok (a, f)
  else
    run w <- reduce_by a f v;
    if isZero w then Ok (a, f)
    else
      let n := firstBit (data w) in
      run a <- upto (length a) 0 (fun j a =>
        run x <- vget a j; run b <- bv_test x n;
        if b : bool then vput a j (bv_add x w) else Ok a) a;
      Ok (a ++ [w], f ++ [n]).
(** bitvector.cpp:788-810 spanAdd *)
Definition spanAdd (a : list bv) (f : list nat) (v : bv) : res (list bv * list nat) :=
  if isZero v then Ok (a, f)
  else
    run w <- reduce_by a f v;
    if isZero w then Ok (a, f) else Ok (a ++ [w], f ++ [firstBit (data w)]).
(** std::sort by position of the first bit (these are distinct where it is used, so that
    the result does not depend on the algorithm) *)
Fixpoint insert_bv (x : bv) (l : list bv) : list bv :=
  match l with
  | [] => [x]
  | y :: r => if firstBit (data x) <? firstBit (data y) then x :: l else y :: insert_bv x r
  end.
Definition sort_bv (l : list bv) : list bv := fold_right insert_bv [] l.
(** bitvector.cpp:673-692 Gauss_Jordan: (t,b) *)
Definition Gauss_Jordan (b : list bv) : res (N * list bv) :=
  run (a, f) <- each b (fun v '(a, f) => normalSpanAdd a f v) ([], []);
  run t <- each f (fun p t => assign t p true) 0%N;
  Ok (t, sort_bv a).

(** bitvector.cpp:634-641 initBasis *)
Definition initBasis (n : nat) : res (list bv) :=
  upto n 0 (fun j b => run v <- vget b j; run v <- bv_set v j true; vput b j v) (repeat (bv_zero n) n).

(** bitvector.cpp:501-572 combination_exists: [None] for the result false *)
Definition combination_exists (b : list bv) (rhs : bv) : res (option N) :=
  match b with
  | [] => Ok (if isZero rhs then Some 0%N else None)
  | b0 :: _ =>
      run st <- upto (bsize b0) 0 (fun i st =>
        match st with
        | None => Ok None (* returned *)
        | Some (a, rh, f) =>
            run r <- upto (length b) 0 (fun j r => run bj <- vget b j; run y <- bv_test bj i; assign r j y) 0%N;
            run x <- bv_test rhs i;
            run (r, x) <- upto (length f) 0 (fun j '(r, x) =>
              run p <- vget f j; run y <- test r p;
              if y : bool then run aj <- vget a j; run z <- test rh j; Ok (N.lxor r aj, xorb x z) else Ok (r, x)) (r, x);
            if negb (r =? 0)%N then
              let m := firstBit r in
              run (a', rh) <- upto (length a) 0 (fun j '(a, rh) =>
                run aj <- vget a j; run y <- test aj m;
                if y : bool then
                  run a <- vput a j (N.lxor aj r); run z <- test rh j; run rh <- assign rh j (xorb z x); Ok (a, rh)
                else Ok (a, rh)) (a, rh);
              run rh <- assign rh (length a') x;
              Ok (Some (a' ++ [r], rh, f ++ [m]))
            else if x : bool then Ok None else Ok st
        end) (Some ([], 0%N, []));
      match st with
      | None => Ok None
      | Some (a, rh, f) =>
          run c <- upto (length f) 0 (fun j c => run p <- vget f j; run z <- test rh j; assign c p z) 0%N;
          Ok (Some c)
      end
  end.

(** *** BitMatrix *)

(** bitvector.h:369-375: columns and number of rows (the number of columns, stored also, is the length) *)
Record bm := mk_bm { cols : list N; rows : nat }.
Definition ncols (M : bm) : nat := length (cols M).
(** bitvector.h:380-394 *)
Definition bm_zero (m n : nat) : bm := mk_bm (repeat 0%N n) m.
(** bitvector.cpp:125-142 *)
Definition bm_of_columns (b : list bv) (m : nat) : bm := mk_bm (map data b) m.
(** bitvector.h:412-417 *)
Definition bm_test (M : bm) (i j : nat) : res bool := run c <- vget (cols M) j; test c i.
(** bitvector.h:468-484 *)
Definition bm_set (M : bm) (i j : nat) (b : bool) : res bm :=
  run c <- vget (cols M) j; run c <- assign c i b; run cs <- vput (cols M) j c; Ok (mk_bm cs (rows M)).
(** bitvector.cpp:145-154: an integer matrix reduced modulo 2, given by its entries *)
Definition bm_mod2 (m n : nat) (e : nat -> nat -> Z) : res bm :=
  upto m 0 (fun i M => upto n 0 (fun j M => bm_set M i j (negb (Z.land (e i j) 1 =? 0)%Z)) M) (bm_zero m n).
(** bitvector.h:400-405; bitvector.cpp:622-629 identityMatrix has the same loop *)
Definition bm_identity (n : nat) : res bm := upto n 0 (fun i M => bm_set M i i true) (bm_zero n n).
(** bitvector.h:433-437 *)
Definition bm_column (M : bm) (j : nat) : res bv := run c <- vget (cols M) j; Ok (mk_bv c (rows M)).
(** bitvector.cpp:165-170 matrix * vector, 174-181 vector * matrix *)
Definition bm_apply (M : bm) (v : bv) : res bv := run s <- set_combination (cols M) (data v); Ok (mk_bv s (rows M)).
Definition bm_right_act (M : bm) (v : bv) : res bv :=
  upto (ncols M) 0 (fun j r => run c <- bm_column M j; bv_set r j (dot v c)) (bv_zero (ncols M)).
(** bitvector.cpp:202-210 *)
Definition bm_row (M : bm) (i : nat) : res bv :=
  upto (ncols M) 0 (fun j r => run b <- bm_test M i j; bv_set r j b) (bv_zero (ncols M)).
(** bitvector.cpp:215-224 *)
Definition bm_image (M : bm) : res (list bv) :=
  run (b, _) <- upto (ncols M) 0 (fun j '(b, f) => run c <- bm_column M j; spanAdd b f c) ([], []);
  Ok b.
(** bitvector.cpp:269-277: the generator with a 1 at the non-pivot position j *)
Definition kernel_vector (n : nat) (t : N) (eqn : list bv) (j : nat) : res bv :=
  run v <- bv_unit n j;
  run (v, _) <- each (positions t) (fun p '(v, c) =>
    run e <- vget eqn c; run b <- bv_test e j; run v <- bv_set v p b; Ok (v, S c)) (v, 0);
  Ok v.
(** bitvector.cpp:234-280 *)
Definition bm_kernel (M : bm) : res (list bv) :=
  if ncols M =? 0 then Ok []
  else
    run eqn <- upto (rows M) 0 (fun i e => run r <- bm_row M i; Ok (e ++ [r])) [];
    run (t, eqn) <- Gauss_Jordan eqn;
    upto (ncols M) 0 (fun j result =>
      run b <- test t j;
      if negb b then run v <- kernel_vector (ncols M) t eqn j; Ok (result ++ [v]) else Ok result) [].
(** bitvector.cpp:291-299 *)
Definition bm_add (M N0 : bm) : res bm :=
  run cs <- upto (ncols M) 0 (fun j cs =>
    run x <- vget cs j; run y <- vget (cols N0) j; vput cs j (N.lxor x y)) (cols M);
  Ok (mk_bm cs (rows M)).
(** bitvector.cpp:311-325 *)
Definition bm_mul (M N0 : bm) : res bm :=
  run cs <- upto (ncols N0) 0 (fun j cs =>
    run y <- vget (cols N0) j; run c <- set_combination (cols M) y; vput cs j c) (repeat 0%N (ncols N0));
  Ok (mk_bm cs (rows M)).
(** bitvector.h:448-463 *)
Definition bm_addColumn (M : bm) (c : N) : bm := mk_bm (cols M ++ [c]) (rows M).
Definition bm_addToColumn (M : bm) (j : nat) (v : bv) : res bm :=
  run c <- vget (cols M) j; run cs <- vput (cols M) j (N.lxor c (data v)); Ok (mk_bm cs (rows M)).
(** bitvector.cpp:419-426 resize: data stay around *)
Definition bm_resize (M : bm) (m n : nat) : bm := mk_bm (firstn n (cols M) ++ repeat 0%N (n - ncols M)) m.
(** bitvector.cpp:436-446 *)
Definition bm_transpose (M : bm) : res bm :=
  upto (rows M) 0 (fun i r => upto (ncols M) 0 (fun j r => run b <- bm_test M i j; bm_set r j i b) r)
    (bm_zero (ncols M) (rows M)).

(** bitvector.cpp:373-382 and 385-390: clear row [p] in column [j] of [col] by column [k] *)
Definition clear_at (p k : nat) (ck bk : N) (j : nat) (s : list N * list N) : res (list N * list N) :=
  let '(col, basis) := s in
  run cj <- vget col j;
  run b <- test cj p;
  if b : bool then
    run col <- vput col j (N.lxor cj ck);
    run bj <- vget basis j; run basis <- vput basis j (N.lxor bj bk); Ok (col, basis)
  else Ok (col, basis).
(** bitvector.cpp:346-408 section. The array [pivot_col] has indeterminate entries until they are set. *)
Definition bm_section (M : bm) : res bm :=
  run basis <- upto (ncols M) 0 (fun i b => run x <- vget b i; run x <- assign x i true; vput b i x) (repeat 0%N (ncols M));
  run (_, basis, pivots, pivot_col) <- upto (ncols M) 0 (fun k '(col, basis, pivots, pivot_col) =>
    run ck <- vget col k;
    if (ck =? 0)%N then Ok (col, basis, pivots, pivot_col)
    else
      let cur := firstBit ck in
      run pivots <- assign pivots cur true;
      run pivot_col <- vput pivot_col cur (Some k);
      run bk <- vget basis k;
      run s <- each (filter (fun p => p <? cur) (positions pivots)) (fun p s =>
        run oj <- vget pivot_col p; run j <- of_option oj; clear_at cur k ck bk j s) (col, basis);
      run (col, basis) <- upto (ncols M - S k) (S k) (fun j s => clear_at cur k ck bk j s) s;
      Ok (col, basis, pivots, pivot_col)) (cols M, basis, 0%N, repeat None dim);
  each (positions pivots) (fun p B =>
    run oj <- vget pivot_col p; run j <- of_option oj; run x <- vget basis j;
    run cs <- vput (cols B) p x; Ok (mk_bm cs (rows B))) (bm_zero (ncols M) (rows M)).
End Dim.

(** bitvector.cpp:582-617 solvable, for equations of capacity [dimeq] and solutions of capacity [dimsol]:
    [None] for the result false *)
Definition solvable (dimeq dimsol : nat) (eqns : list bv) (sol : bv) : res (option bv) :=
  match eqns with
  | [] => Ok (Some sol)
  | e0 :: _ =>
      run (pivots, eqn) <- Gauss_Jordan dimeq eqns;
      let last := bsize e0 - 1 in
      run b <- test dimeq pivots last;
      if b : bool then Ok None
      else
        let sol := bv_reset (bv_resize sol last) in
        run (sol, _) <- each (positions dimeq pivots) (fun p '(sol, c) =>
          run e <- vget eqn c; run b <- bv_test dimeq e last; run sol <- bv_set dimsol sol p b; Ok (sol, S c)) (sol, 0);
        Ok (Some sol)
  end.
(** bitvector.h:524-531 make_equation *)
Definition make_equation (dimeq : nat) (lhs : bv) (rhs : bool) : res bv := pushBack dimeq (mk_bv (data lhs) (bsize lhs)) rhs.
