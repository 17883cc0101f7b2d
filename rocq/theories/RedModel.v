(** Reduction of integer matrices: sources/utilities/matreduc.h and matreduc.cpp, and the
    functions inverse of matrix.cpp and matrix.h.

    The code is a template in the integer type C. Its values are those with [fits];
    an operation with exact result outside this set counts as overflow. Where the code
    stores a value of type C in a variable of type int, the conversion is [as_int]. *)

From Coq Require Import List Arith ZArith Bool.
From Verif Require Import VecModel SetModel PermModel RunModel MatModel.
From Verif Require ArithModel.
Import ListNotations.
Open Scope nat_scope.

Section Reduce.
Variable fits : Z -> bool.
Variable as_int : Z -> Z.
Notation R := (zarith fits).

(** matreduc.h:72-84, the scan of gcd for the first entry of least absolute value: the
    list of indices of nonzero entries, the least absolute value and its index *)
Definition gcd_scan (row : list Z) : res (list nat * Z * nat) :=
  upto (length row) 0 (fun j '(act, mn, mi) =>
    run x <- vget row j;
    if (x =? 0)%Z then Ok (act, mn, mi) else
    run a <- chkz fits (Z.abs x);
    if ((mn =? 0) || (a <? mn))%Z then Ok (act ++ [j], a, j) else Ok (act ++ [j], mn, mi)) ([], 0%Z, 0).
(** matreduc.h:99-115, the inner loop of gcd, a traversal of the list of active entries
    with deletions; [col] is absent when gcd is called with a null pointer *)
Definition on_col (col : option (matrix Z)) (f : matrix Z -> res (matrix Z)) : res (option (matrix Z)) :=
  match col with None => Ok None | Some c => run c <- f c; Ok (Some c) end.
Fixpoint gcd_sweep (cur : nat) (d : Z) (act : list nat) (row : list Z) (col : option (matrix Z)) (mn : Z) (mi : nat)
  : res (list nat * list Z * option (matrix Z) * Z * nat) :=
  match act with
  | [] => Ok ([], row, col, mn, mi)
  | j :: t =>
      if j =? cur then
        run s <- gcd_sweep cur d t row col mn mi;
        let '(act, row, col, mn, mi) := s in Ok (j :: act, row, col, mn, mi)
      else
        run x <- vget row j;
        run q <- adivide x d;
        run col <- on_col col (fun c => run mq <- chkz fits (- q); columnOperation R c j cur mq);
        run p <- chkz fits (d * q);
        run y <- chkz fits (x - p);
        run row <- vput row j y;
        if (y =? 0)%Z then gcd_sweep cur d t row col mn mi else
        let '(mn, mi) := if (y <? mn)%Z then (y, j) else (mn, mi) in
        run s <- gcd_sweep cur d t row col mn mi;
        let '(act, row, col, mn, mi) := s in Ok (j :: act, row, col, mn, mi)
  end.
(** matreduc.h:68-125 gcd: returns the gcd, the matrix of column operations if [want], flip *)
Definition gcd (row : list Z) (want : bool) (flip : bool) (dest : nat) : res (Z * option (matrix Z) * bool) :=
  run col <- (if want then run c <- mat_id R (length row); Ok (Some c) else Ok None);
  run s <- gcd_scan row;
  let '(act, mn, mi) := s in
  match act with [] => Ok (0%Z, col, flip) | _ :: _ =>
  run x <- vget row mi;
  run s <- (if (x <? 0)%Z then
      run y <- chkz fits (- x);
      run row <- vput row mi y;
      run col <- on_col col (fun c => mput c mi mi (-1)%Z);
      Ok (row, negb flip, col)
    else Ok (row, flip, col));
  let '(row, flip, col) := s in
  run s <- loop (S (Z.to_nat mn))
     (fun '(act, _, _, _, _) => Ok (negb (length act =? 1)))
     (fun '(act, row, col, mn, mi) => run d <- vget row mi; gcd_sweep mi d act row col mn mi)
     (act, row, col, mn, mi);
  let '(_, _, col, mn, mi) := s in
  match col with
  | None => Ok (mn, None, flip)
  | Some c => if mi =? dest then Ok (mn, Some c, flip) else
              run c <- swapColumns c dest mi; Ok (mn, Some c, negb flip)
  end end.
(** gcd called with the address of a matrix *)
Definition gcd_ops (row : list Z) (flip : bool) (dest : nat) : res (Z * matrix Z * bool) :=
  run g <- gcd row true flip dest;
  match g with (d, Some c, flip) => Ok (d, c, flip) | _ => Fail Range end.

(** matreduc.h:132-167 column_echelon: returns M, col, flip and the set of pivot rows *)
Definition column_echelon (M : matrix Z) : res (matrix Z * matrix Z * bool * bset) :=
  run col <- mat_id R (mcols M);
  run s <- downto (mrows M) (fun i '(M, col, flip, piv, l) =>
     run v <- partial_row M i 0 l;
     run g <- gcd_ops v flip (l - 1);
     let '(d, ops, flip) := g in
     if (as_int d =? 0)%Z then Ok (M, col, flip, piv, l) else
     run M <- column_apply R M ops 0;
     run col <- column_apply R col ops 0;
     run piv <- of_option (bs_insert piv i);
     Ok (M, col, flip, piv, l - 1)) (M, col, false, bs_new (mrows M), mcols M);
  let '(M, col, flip, piv, l) := s in
  run s <- downto l (fun l '(M, col, flip) =>
     run M <- eraseColumn M l;
     run cc <- mat_column 0%Z col l;
     run col <- upto (mcols M - l) l (fun j col => run c <- mat_column 0%Z col (S j); set_column col j c) col;
     run col <- set_column col (mcols M) cc;
     Ok (M, col, xorb flip (Nat.odd (mcols M - l)))) (M, col, flip);
  let '(M, col, flip) := s in Ok (M, col, flip, piv).

(** matreduc.h:170-213 echelon_solve; the factor f is a big_int, so exact. The function
    gcd of arithmetic.h has value Z.gcd for positive second argument (C18). *)
Definition echelon_solve (E : matrix Z) (pivots : bset) (b : list Z) : res (list Z * Z) :=
  run s <- downto (mrows E) (fun i '(b, f, result, j) =>
    run bi <- vget b i;
    if bs_mem pivots i then
      run j <- back1 j;
      run e <- mget E i j;
      run d <- (if (0 <? e)%Z then Ok (Z.gcd bi e) else Fail Range);
      run m <- cdiv fits bi d;
      run s <- (if (d <? e)%Z then
          run q <- cdiv fits e d;
          run b <- upto (S i) 0 (fun k b => run x <- vget b k; run y <- amul R x q; vput b k y) b;
          run result <- upto (length result - S j) (S j) (fun l r => run x <- vget r l; run y <- amul R x q; vput r l y) result;
          Ok (b, (f * q)%Z, result)
        else Ok (b, f, result));
      let '(b, f, result) := s in
      run result <- vput result j m;
      run b <- upto (S i) 0 (fun k b =>
        run x <- vget b k; run e <- mget E k j; run p <- amul R e m; run y <- asub R x p; vput b k y) b;
      Ok (b, f, result, j)
    else if (bi =? 0)%Z then Ok (b, f, result, j) else Fail Thrown)
    (b, 1%Z, repeat 0%Z (mcols E), bs_size pivots);
  let '(_, f, result, _) := s in Ok (result, f).

(** bigint.cpp:142-146 int_val: throws if more than one word is needed *)
Definition int_val (z : Z) : res Z :=
  if ((-2147483648 <=? z) && (z <? 2147483648))%Z then Ok z else Fail Thrown.
(** matrix.cpp:471-502 inverse with denominator; the big_int values d and denoms are exact; the
    conversion of the last factor from int to C counts as overflow if it is not exact *)
Definition inverse (A : matrix Z) : res (matrix Z * Z) :=
  let n := mrows A in
  let result := mat_fill n n 0%Z in
  if n =? 0 then Ok (result, 1%Z) else
  run s <- column_echelon A;
  let '(A, col, flip, pivots) := s in
  if negb (forallb (fun x => x) pivots) then Ok (result, 0%Z) else
  run basis <- standard_basis R n;
  run s <- upto n 0 (fun j '(basis, denoms) =>
     run b <- vget basis j;
     run s <- echelon_solve A pivots b;
     let '(x, f) := s in
     run basis <- vput basis j x;
     run denoms <- vput denoms j f;
     Ok (basis, denoms)) (basis, repeat 0%Z n);
  let '(basis, denoms) := s in
  run d <- vget denoms 0;
  run d <- upto (n - 1) 1 (fun j d => run e <- vget denoms j; Ok (Z.lcm d e)) d;
  run result <- upto n 0 (fun j result =>
     run x <- vget basis j;
     run v <- mat_apply R col x;
     run e <- vget denoms j;
     run q <- int_val (d / e); run q <- chkz fits q;
     run v <- vec_scale R v q;
     set_column result j v) result;
  Ok (result, d).
(** matrix.h:82-87 inverse over the integers *)
Definition inverse_Z (A : matrix Z) : res (matrix Z) :=
  run s <- inverse A; let '(result, d) := s in if (d =? 1)%Z then Ok result else Fail Thrown.

(** -(a/b) *)
Definition opdiv (a b : Z) : res Z := run q <- cdiv fits a b; chkz fits (- q).
(** matreduc.cpp:27-43 column_clear. The state of the do-while loop ends with how it
    was left: [None] not yet, [Some false] by the return inside, [Some true] at the end. *)
Definition column_clear (M : matrix Z) (i j k : nat) : res (matrix Z * bool) :=
  run a <- mget M i j;
  let neg := (a <? 0)%Z in
  run M <- (if neg then columnMultiply R M j (-1)%Z else Ok M);
  run b <- mget M i k;
  run s <- loop (S (Z.to_nat b)) (fun '(_, st) => Ok (match st with None => true | Some _ => false end))
    (fun '(M, _) =>
       run a <- mget M i j; run b <- mget M i k;
       run q <- opdiv a b;
       run M <- columnOperation R M j k q;
       run a <- mget M i j;
       if (a =? 0)%Z then Ok (M, Some false) else
       run b <- mget M i k;
       run q <- opdiv b a;
       run M <- columnOperation R M k j q;
       run b <- mget M i k;
       Ok (M, if (b =? 0)%Z then Some true else None)) (M, None);
  let '(M, st) := s in
  match st with
  | Some true => run M <- swapColumns M j k; Ok (M, negb neg)
  | _ => Ok (M, neg)
  end.
(** matreduc.cpp:47-63 row_clear *)
Definition row_clear (M : matrix Z) (i j k : nat) : res (matrix Z * bool) :=
  run a <- mget M i j;
  let neg := (a <? 0)%Z in
  run M <- (if neg then rowMultiply R M i (-1)%Z else Ok M);
  run b <- mget M k j;
  run s <- loop (S (Z.to_nat b)) (fun '(_, st) => Ok (match st with None => true | Some _ => false end))
    (fun '(M, _) =>
       run a <- mget M i j; run b <- mget M k j;
       run q <- opdiv a b;
       run M <- rowOperation R M i k q;
       run a <- mget M i j;
       if (a =? 0)%Z then Ok (M, Some false) else
       run b <- mget M k j;
       run q <- opdiv b a;
       run M <- rowOperation R M k i q;
       run b <- mget M k j;
       Ok (M, if (b =? 0)%Z then Some true else None)) (M, None);
  let '(M, st) := s in
  match st with
  | Some true => run M <- swapRows M i k; Ok (M, negb neg)
  | _ => Ok (M, neg)
  end.

(** matreduc.cpp:145-226 diagonalise *)
(* the part of the loop on l after the first reduction of the column: one round of
   the do-while loop; the state ends with flip and whether to continue *)
Definition diag_state : Type := matrix Z * matrix Z * matrix Z * bool * bool * Z * bool * bool.
Definition diag_round (m n k l : nat) (s : diag_state) : res diag_state :=
  let '(M, row, col, row_minus, col_minus, d, _, _) := s in
  run v <- partial_row M k l n;
  run g <- gcd_ops v false 0;
  let '(d1, ops, flip) := g in
  run M <- column_apply R M ops l;
  run col <- column_apply R col ops l;
  if (d1 =? d)%Z then Ok (M, row, col, row_minus, xorb col_minus flip, d1, flip, false) else
  run v <- partial_column 0%Z M l k m;
  run g <- gcd_ops v false 0;
  let '(d2, ops, flip2) := g in
  run ops <- transpose 0%Z ops;
  run M <- row_apply R M ops k;
  run row <- row_apply R row ops k;
  Ok (M, row, col, xorb row_minus flip2, xorb col_minus flip, d2, flip2, (d2 <? d1)%Z).
(* the body of the loop on l *)
Definition diag_column (m n l : nat) (s : matrix Z * matrix Z * matrix Z * bool * bool * list Z * bset * nat)
  : res (matrix Z * matrix Z * matrix Z * bool * bool * list Z * bset * nat) :=
  let '(M, row, col, row_minus, col_minus, diagonal, pivots, k) := s in
  run v <- partial_column 0%Z M l k m;
  run g <- gcd_ops v false 0;
  let '(d, ops, flip) := g in
  if (d =? 0)%Z then Ok (M, row, col, row_minus, col_minus, diagonal, pivots, k) else
  run pivots <- of_option (bs_insert pivots l);
  run ops <- transpose 0%Z ops;
  run M <- row_apply R M ops k;
  run row <- row_apply R row ops k;
  run s <- diag_round m n k l (M, row, col, flip, col_minus, d, flip, true);
  run s <- loop (Z.to_nat d) (fun '(_, _, _, _, _, _, _, again) => Ok again) (diag_round m n k l) s;
  let '(M, row, col, row_minus, col_minus, d, flip, _) := s in
  Ok (M, row, col, xorb row_minus flip, col_minus, diagonal ++ [d], pivots, S k).
(** BitMap::position, bitmap.h: number of members below p *)
Definition bs_position (b : bset) (p : nat) : nat := bs_size (firstn p b).
Definition diagonalise (M : matrix Z) : res (list Z * matrix Z * matrix Z) :=
  let m := mrows M in
  let n := mcols M in
  run row <- mat_id R m;
  run col <- mat_id R n;
  if (n =? 0) || (m =? 0) then Ok ([], row, col) else
  run s <- upto n 0 (diag_column m n) (M, row, col, false, false, [], bs_new n, 0);
  let '(M, row, col, row_minus, col_minus, diagonal, pivots, _) := s in
  run s <- (let n_piv := bs_size pivots in
    if bs_position pivots n_piv <? n_piv then
      let pi := bs_elems pivots ++ bs_elems (map negb pivots) in
      run col <- pull_back_columns 0%Z col pi;
      run neg <- of_option (is_negative pi);
      Ok (col, xorb col_minus neg)
    else Ok (col, col_minus));
  let '(col, col_minus) := s in
  run diagonal <- (if (0 <? length diagonal) && negb (Bool.eqb row_minus col_minus) then
      run x <- vget diagonal 0; run y <- chkz fits (- x); vput diagonal 0 y
    else Ok diagonal);
  run row <- (if row_minus then rowMultiply R row 0 (-1)%Z else Ok row);
  run col <- (if col_minus then columnMultiply R col 0 (-1)%Z else Ok col);
  Ok (diagonal, row, col).

(** matreduc.cpp:230-242 find_small_remainder: the index, if found *)
Definition find_small_remainder (row : list Z) : res (option nat) :=
  run a <- vget row 0;
  run s <- upto (length row - 1) 1 (fun i '(mn, k) =>
    run x <- vget row i;
    run r <- aremainder x a;
    if ((0 <? r) && (r <? mn))%Z then Ok (r, Some i) else Ok (mn, k)) (a, None);
  let '(mn, k) := s in
  if (mn <? a)%Z then Ok k else Ok None.

(** matreduc.cpp:263-343 adapted_basis *)
(* one round of the while loop: [k] is the row number found *)
Definition adapt_round (m n i j k : nat) (M result : matrix Z) : res (matrix Z * matrix Z * Z) :=
  run a <- mget M k j; run b <- mget M i j;
  run q <- adivide a b;
  run M <- upto (n - j) j (fun l M =>
    run tmp <- mget M i l;
    run x <- mget M k l; run p <- amul R q tmp; run y <- asub R x p;
    run M <- mput M i l y; mput M k l tmp) M;
  run result <- upto m 0 (fun l result =>
    run tmp <- mget result l k;
    run x <- mget result l i; run p <- amul R q tmp; run y <- aadd R x p;
    run result <- mput result l k y; mput result l i tmp) result;
  run v <- partial_row M i j n;
  run g <- gcd_ops v false 0;
  let '(d, ops, _) := g in
  run M <- column_apply R M ops j;
  Ok (M, result, as_int d).
Definition small_row (m i j : nat) (M : matrix Z) : res (option nat) :=
  run v <- partial_column 0%Z M j i m; find_small_remainder v.
(* the body of the loop on i; the variable flip of the code is never used *)
Definition adapt_row (m n i : nat) (s : matrix Z * matrix Z * list Z * bset * nat)
  : res (matrix Z * matrix Z * list Z * bset * nat) :=
  let '(M, result, diagonal, kept, j) := s in
  run v <- partial_row M i j n;
  run g <- gcd_ops v false 0;
  let '(d, ops, _) := g in
  let d := as_int d in
  if (d =? 0)%Z then Ok (M, result, diagonal, kept, j) else
  run kept <- of_option (bs_insert kept i);
  run M <- column_apply R M ops j;
  run k <- small_row m i j M;
  run s <- loop (Z.to_nat d) (fun '(_, _, _, k) => Ok (match k with Some _ => true | None => false end))
    (fun '(M, result, d, k) =>
       match k with
       | Some k => run s <- adapt_round m n i j (k + i) M result;
                   let '(M, result, d) := s in
                   run k <- small_row m i j M; Ok (M, result, d, k)
       | None => Fail Fuel
       end) (M, result, d, k);
  let '(M, result, d, _) := s in
  run result <- upto (m - S i) (S i) (fun k result =>
    run a <- mget M k j; run b <- mget M i j;
    run q <- cdiv fits a b;
    columnOperation R result i k q) result;
  Ok (M, result, diagonal ++ [d], kept, S j).
Definition adapted_basis (M : matrix Z) : res (matrix Z * list Z) :=
  let m := mrows M in
  let n := mcols M in
  run result <- mat_id R m;
  run s <- upto m 0 (adapt_row m n) (M, result, [], bs_new m, 0);
  let '(_, result, diagonal, kept, _) := s in
  run result <- (if forallb (fun x => x) kept then Ok result else
    run lists <- upto m 0 (fun i '(kc, dc) =>
      run c <- mat_column 0%Z result i;
      if bs_mem kept i then Ok (kc ++ [c], dc) else Ok (kc, dc ++ [c])) ([], []);
    let '(kc, dc) := lists in
    upto m 0 (fun i result => run c <- vget (kc ++ dc) i; set_column result i c) result);
  Ok (result, diagonal).

(** matreduc.cpp:364-394 Smith_basis. The values of type Denom_t are 64-bit words; the model
    of arithmetic::lcm is that of ArithModel.v. A value outside the type C assigned
    to an entry of [diagonal] counts as overflow (the conversion is implementation defined).
    An entry read from [diagonal] is a value of type C, which is what the first test says. *)
Definition Smith_pass (start stop : nat) (s : matrix Z * list Z * nat * nat) : res (matrix Z * list Z * nat * nat) :=
  upto (stop - start) start (fun i '(result, diagonal, new_start, new_stop) =>
    run a <- vget diagonal i; run b <- vget diagonal (S i);
    run r <- crem fits b a;
    if (r =? 0)%Z then Ok (result, diagonal, new_start, new_stop) else
    run a <- chkz fits a; run b <- chkz fits b;
    run t <- of_option (ArithModel.lcm (a mod 2 ^ 64) (b mod 2 ^ 64));
    let '(l, d, pa) := t in
    run l <- chkz fits l; run diagonal <- vput diagonal (S i) l;
    run d' <- chkz fits d; run diagonal <- vput diagonal i d';
    run result <- columnOperation R result (S i) i (-1)%Z;
    run c <- chkz fits (1 - pa / d);
    run result <- columnOperation R result i (S i) c;
    let new_start := if new_start =? stop then i - 1 else new_start in
    Ok (result, diagonal, new_start, i)) s.
Definition Smith_basis (M : matrix Z) : res (matrix Z * list Z) :=
  run s <- adapted_basis M;
  let '(result, diagonal) := s in
  let stop := length diagonal - 1 in
  run s <- loop (S stop) (fun '(_, _, start, stop, _) => Ok (start <? stop))
    (fun '(result, diagonal, start, stop, new_stop) =>
       run s <- Smith_pass start stop (result, diagonal, new_stop, new_stop);
       let '(result, diagonal, new_start, new_stop) := s in
       Ok (result, diagonal, new_start, new_stop, new_stop)) (result, diagonal, 0, stop, stop);
  let '(result, diagonal, _, _, _) := s in
  Ok (result, diagonal).

(** matreduc.cpp:397-409 has_solution *)
Definition has_solution (A : matrix Z) (b : list Z) : res bool :=
  run s <- diagonalise A;
  let '(diagonal, row, col) := s in
  run b <- mat_apply R row b;
  downto (length b) (fun i ok =>
    if ok : bool then
      run x <- vget b i;
      run r <- (if i <? length diagonal then run d <- vget diagonal i; crem fits x d else Ok x);
      Ok (r =? 0)%Z
    else Ok false) true.
(** matreduc.cpp:411-438 find_solution *)
Definition find_solution (A : matrix Z) (b : list Z) : res (list Z) :=
  run s <- diagonalise A;
  let '(diagonal, row, col) := s in
  run b <- mat_apply R row b;
  run b <- upto (length diagonal) 0 (fun i b =>
    run d <- vget diagonal i;
    run x <- vget b i;
    run r <- crem fits x d;
    if (r =? 0)%Z then run y <- cdiv fits x d; vput b i y else Fail Thrown) b;
  run _ <- upto (length b - length diagonal) (length diagonal) (fun i u =>
    run x <- vget b i; if (x =? 0)%Z then Ok u else Fail Thrown) tt;
  mat_apply R col (vresize b (mrows col) 0%Z).
End Reduce.
