(** Vectors and matrices: sources/utilities/matrix.h and matrix.cpp, and the functions of
    permutations.cpp acting on matrices.

    The code is a template in the entry type [C], which is modelled by a type with
    operations that may fail (by integer overflow); see [arith]. A matrix holds
    its dimensions and the vector of its entries, by rows. The dimensions have the 32-bit
    type index_t; products of two dimensions are formed in 64 bits in most places, and
    in 32 bits where [mul32] is used below. Assertions are not modelled: the program is
    compiled with -DNDEBUG. *)

From Coq Require Import List Arith ZArith NArith Bool.
From Verif Require Import VecModel RunModel.
Import ListNotations.

(** operations of the entry type *)
Record arith (A : Type) := mk_arith {
  a0 : A; a1 : A;
  aadd : A -> A -> res A; asub : A -> A -> res A; amul : A -> A -> res A; aopp : A -> res A;
  aeqb : A -> A -> bool }.
Arguments mk_arith {A}. Arguments a0 {A}. Arguments a1 {A}. Arguments aadd {A}. Arguments asub {A}.
Arguments amul {A}. Arguments aopp {A}. Arguments aeqb {A}.

(** A signed integer type is given by its set of values: results outside it are overflow. *)
Definition chkz (fits : Z -> bool) (z : Z) : res Z := if fits z then Ok z else Fail Overflow.
Definition zarith (fits : Z -> bool) : arith Z :=
  mk_arith 0%Z 1%Z (fun a b => chkz fits (a + b)) (fun a b => chkz fits (a - b))
           (fun a b => chkz fits (a * b)) (fun a => chkz fits (- a)) Z.eqb.

Record matrix (A : Type) := mk_mat { mrows : nat; mcols : nat; mdata : list A }.
Arguments mk_mat {A}. Arguments mrows {A}. Arguments mcols {A}. Arguments mdata {A}.

(** product of two values of type index_t (uint32_t), in that type *)
Definition mul32 (a b : nat) : nat := N.to_nat ((N.of_nat a * N.of_nat b) mod 4294967296).

(** the values in a range of a vector, as for Vector(begin,end) and std::copy *)
Definition vslice {A} (v : list A) (a b : nat) : res (list A) :=
  if (a <=? b) && (b <=? length v) then Ok (firstn (b - a) (skipn a v)) else Fail Range.
(** std::copy(src.begin(),src.end(),dst.begin()+pos) *)
Definition vcopy {A} (src dst : list A) (pos : nat) : res (list A) :=
  if pos + length src <=? length dst
  then Ok (firstn pos dst ++ src ++ skipn (pos + length src) dst) else Fail Range.
(** v.resize(n,x) *)
Definition vresize {A} (v : list A) (n : nat) (x : A) : list A :=
  firstn n v ++ repeat x (n - length v).
(** v.erase(v.begin()+a,v.begin()+b) *)
Definition verase {A} (v : list A) (a b : nat) : res (list A) :=
  if (a <=? b) && (b <=? length v) then Ok (firstn a v ++ skipn b v) else Fail Range.

Section Matrix.
Context {A : Type}.
Implicit Types (M : matrix A) (v : list A).

(** matrix.h:199-202 constructors; std::vector(n) sets its entries to C() *)
Definition mat_fill (m n : nat) (x : A) : matrix A := mk_mat m n (repeat x (m * n)).
(** matrix.h:222-223, 248-249 operator(i,j), for reading and for writing *)
Definition mget M (i j : nat) : res A := vget (mdata M) (i * mcols M + j).
Definition mput M (i j : nat) (x : A) : res (matrix A) :=
  run d <- vput (mdata M) (i * mcols M + j) x; Ok (mk_mat (mrows M) (mcols M) d).

(** matrix.cpp:212-218 get_row; matrix.h:231 row *)
Definition mat_row M (i : nat) : res (list A) := vslice (mdata M) (i * mcols M) (S i * mcols M).
(** matrix.cpp:221-229 get_column; matrix.h:233-234 column *)
Definition mat_column (z : A) M (j : nat) : res (list A) :=
  upto (mrows M) 0 (fun i v => run x <- mget M i j; vput v i x) (repeat z (mrows M)).
(** matrix.h:237-238 partial_row *)
Definition partial_row M (i j l : nat) : res (list A) :=
  vslice (mdata M) (i * mcols M + j) (i * mcols M + l).
(** matrix.h:239-244 partial_column *)
Definition partial_column (z : A) M (j i k : nat) : res (list A) :=
  upto (k - i) 0 (fun p v => run x <- mget M (i + p) j; vput v p x) (repeat z (k - i)).
(** matrix.cpp:253-257 operator== *)
Definition mat_eqb (eqb : A -> A -> bool) M (N : matrix A) : bool :=
  (mrows M =? mrows N) && (mcols M =? mcols N) &&
  (fix veq v w := match v, w with
                  | [], [] => true | x :: v', y :: w' => eqb x y && veq v' w' | _, _ => false
                  end) (mdata M) (mdata N).

(** matrix.cpp:301-306 set_row *)
Definition set_row M (i : nat) v : res (matrix A) :=
  run w <- vslice v 0 (mcols M);
  run d <- vcopy w (mdata M) (i * mcols M); Ok (mk_mat (mrows M) (mcols M) d).
(** matrix.cpp:309-316 set_column *)
Definition set_column M (j : nat) v : res (matrix A) :=
  upto (mrows M) 0 (fun i M => run x <- vget v i; mput M i j x) M.
(** matrix.cpp:190-198 constructor from a list of columns *)
Definition mat_of_columns (z : A) (b : list (list A)) (n_rows : nat) : res (matrix A) :=
  upto (length b) 0 (fun j M => run v <- vget b j; set_column M j v)
       (mk_mat n_rows (length b) (repeat z (n_rows * length b))).
(** matrix.cpp:232-239 rows, 242-250 columns *)
Definition mat_rows M : res (list (list A)) :=
  upto (mrows M) 0 (fun i r => run v <- mat_row M i; vput r i v) (repeat [] (mrows M)).
Definition mat_columns (z : A) M : res (list (list A)) :=
  upto (mcols M) 0 (fun j r => run v <- mat_column z M j; vput r j v) (repeat [] (mcols M)).
(** matrix.cpp:147-155 row_matrix *)
Definition row_matrix (z : A) v : res (matrix A) :=
  upto (length v) 0 (fun j M => run x <- vget v j; mput M 0 j x) (mat_fill 1 (length v) z).
(** matrix.cpp:158-166 column_matrix *)
Definition column_matrix (z : A) v : res (matrix A) :=
  upto (length v) 0 (fun i M => run x <- vget v i; mput M i 0 x) (mat_fill (length v) 1 z).

(** matrix.cpp:319-327 add_row: the new size is computed in index_t *)
Definition add_row (z : A) M v : res (matrix A) :=
  let r := S (mrows M) in
  let d := vresize (mdata M) (mul32 r (mcols M)) z in
  run d <- vcopy v d ((r - 1) * mcols M); Ok (mk_mat r (mcols M) d).
(** matrix.cpp:331-347 add_column; [dst] and [src] are positions in the vector.
    An iterator moved before the start of its vector is undefined. *)
Definition back1 (p : nat) : res nat := match p with O => Fail Range | S q => Ok q end.
Definition add_column (z : A) M v : res (matrix A) :=
  let old_col := mcols M in
  let d := vresize (mdata M) (mul32 (mrows M) (S old_col)) z in
  if length d <? mrows M then Fail Range else
  run s <- downto (mrows M) (fun i '(d, dst, src) =>
     run dst <- back1 dst;
     run x <- vget v i;
     run d <- vput d dst x;
     downto old_col (fun j '(d, dst, src) =>
        run dst <- back1 dst;
        run src <- back1 src;
        run x <- vget d src;
        run d <- vput d dst x;
        Ok (d, dst, src)) (d, dst, src)) (d, length d, length d - mrows M);
  let '(d, _, _) := s in Ok (mk_mat (mrows M) (S old_col) d).
(** matrix.cpp:350-359 get_block, into a matrix of given dimensions *)
Definition get_block M (dst : matrix A) (k l : nat) : res (matrix A) :=
  run s <- upto (mrows dst) k (fun i '(d, p) =>
     run w <- vslice (mdata M) (i * mcols M + l) (i * mcols M + (l + mcols dst));
     run d <- vcopy w d p; Ok (d, p + length w)) (mdata dst, 0);
  Ok (mk_mat (mrows dst) (mcols dst) (fst s)).
(** matrix.cpp:362-370 set_block *)
Definition set_block M (k l : nat) (src : matrix A) : res (matrix A) :=
  upto (mrows src) 0 (fun i M =>
     run w <- vslice (mdata src) (i * mcols src) (S i * mcols src);
     run d <- vcopy w (mdata M) ((k + i) * mcols M + l);
     Ok (mk_mat (mrows M) (mcols M) d)) M.
(** matrix.cpp:516-528 block *)
Definition block (z : A) M (i0 j0 i1 j1 : nat) : res (matrix A) :=
  run s <- upto (i1 - i0) i0 (fun i '(d, p) =>
     run w <- vslice (mdata M) (i * mcols M + j0) (i * mcols M + j1);
     run d <- vcopy w d p; Ok (d, p + length w))
     (repeat z ((i1 - i0) * (j1 - j0)), 0);
  Ok (mk_mat (i1 - i0) (j1 - j0) (fst s)).
(** matrix.cpp:531-544 transposed_block *)
Definition transposed_block (z : A) M (i0 j0 i1 j1 : nat) : res (matrix A) :=
  upto (i1 - i0) 0 (fun i R =>
    upto (j1 - j0) 0 (fun j R => run x <- mget M (j0 + j) (i0 + i); mput R i j x) R)
    (mat_fill (i1 - i0) (j1 - j0) z).
(** matrix.cpp:394-402 transposed: [p] runs through the entries by rows *)
Definition transposed (z : A) M : res (matrix A) :=
  run s <- upto (mrows M) 0 (fun i '(R, p) =>
    upto (mcols M) 0 (fun j '(R, p) =>
      run x <- vget (mdata M) p; run R <- mput R j i x; Ok (R, S p)) (R, p))
    (mat_fill (mcols M) (mrows M) z, 0);
  Ok (fst s).
(** std::swap(M(i,j),M(k,l)) *)
Definition mswap M (i j k l : nat) : res (matrix A) :=
  run x <- mget M i j; run y <- mget M k l; run M <- mput M i j y; mput M k l x.
(** matrix.cpp:409-418 transpose *)
Definition transpose (z : A) M : res (matrix A) :=
  if mrows M =? mcols M then
    upto (mcols M) 0 (fun j M =>
      upto (mrows M - S j) (S j) (fun i M => mswap M i j j i) M) M
  else transposed z M.
(** matrix.cpp:589-594 swapRows, 597-602 swapColumns *)
Definition swapRows M (i0 i1 : nat) : res (matrix A) :=
  upto (mcols M) 0 (fun k M => mswap M i0 k i1 k) M.
Definition swapColumns M (j0 j1 : nat) : res (matrix A) :=
  upto (mrows M) 0 (fun k M => mswap M k j0 k j1) M.
(** matrix.cpp:605-611 eraseRow: the offset is computed in index_t *)
Definition eraseRow M (i : nat) : res (matrix A) :=
  let first := mul32 i (mcols M) in
  run d <- verase (mdata M) first (first + mcols M); Ok (mk_mat (mrows M - 1) (mcols M) d).
(** matrix.cpp:614-626 eraseColumn *)
Definition eraseColumn M (j : nat) : res (matrix A) :=
  let c := mcols M - 1 in
  run s <- upto (mrows M) 0 (fun k '(d, pos) =>
     run d <- verase d pos (S pos); Ok (d, pos + c)) (mdata M, j);
  Ok (mk_mat (mrows M) c (fst s)).

(** permutations.cpp:166-192 pull_back_columns. The body of the do-while loop is
    performed once before its condition is tested; [seen] marks columns done. *)
Definition pull_step (pi : list nat) (s : matrix A * list bool * nat) : res (matrix A * list bool * nat) :=
  let '(M, seen, l) := s in
  run p <- vget pi l;
  run M <- upto (mrows M) 0 (fun i M => run x <- mget M i p; mput M i l x) M;
  run seen <- vput seen p true;
  Ok (M, seen, p).
Definition pull_back_columns (z : A) M (pi : list nat) : res (matrix A) :=
  run s <- upto (length pi) 0 (fun j '(M, seen) =>
    run sj <- vget seen j;
    if sj : bool then Ok (M, seen) else
    run seen <- vput seen j true;
    run pj <- vget pi j;
    if pj =? j then Ok (M, seen) else
    run C_j <- mat_column z M j;
    run s1 <- pull_step pi (M, seen, j);
    run s2 <- loop (length pi) (fun '(_, _, l) => run p <- vget pi l; Ok (negb (p =? j)))
                   (pull_step pi) s1;
    let '(M, seen, l) := s2 in
    run M <- set_column M l C_j;
    Ok (M, seen)) (M, repeat false (length pi));
  Ok (fst s).
(** permutations.cpp:207-219 conjugate, 234-246 inv_conjugate *)
Definition conjugate (z : A) (pi : list nat) M : res (matrix A) :=
  let n := length pi in
  upto n 0 (fun i R => upto n 0 (fun j R =>
    run pi_i <- vget pi i; run pi_j <- vget pi j; run x <- mget M i j; mput R pi_i pi_j x) R)
    (mat_fill n n z).
Definition inv_conjugate (z : A) (pi : list nat) M : res (matrix A) :=
  let n := length pi in
  upto n 0 (fun i R => upto n 0 (fun j R =>
    run pi_i <- vget pi i; run pi_j <- vget pi j; run x <- mget M pi_i pi_j; mput R i j x) R)
    (mat_fill n n z).

(** * Arithmetic *)
Variable R : arith A.
Notation z := (a0 R).

(** matrix.cpp:46-54 operator+=, 57-65 operator-=, 68-76 negate_add, 79-85 operator*=,
    130-136 negate of vectors; running past the end of the second vector is undefined *)
Fixpoint vmap2 (f : A -> A -> res A) v (w : list A) : res (list A) :=
  match v, w with
  | [], _ => Ok []
  | x :: v', y :: w' => run c <- f x y; run r <- vmap2 f v' w'; Ok (c :: r)
  | _ :: _, [] => Fail Range
  end.
Fixpoint vmap (f : A -> res A) v : res (list A) :=
  match v with
  | [] => Ok []
  | x :: v' => run c <- f x; run r <- vmap f v'; Ok (c :: r)
  end.
Definition vec_add v w := vmap2 (aadd R) v w.
Definition vec_sub v w := vmap2 (asub R) v w.
Definition vec_negate_add v w := vmap2 (fun x y => asub R y x) v w.
Definition vec_scale v (c : A) := vmap (fun x => amul R x c) v.
Definition vec_negate v := vmap (aopp R) v.
(** matrix.h:122-130 dot *)
Definition vec_dot v (w : list A) : res A :=
  upto (length v) 0 (fun i c =>
    run x <- vget v i; run y <- vget w i; run p <- amul R x y; aadd R c p) z.
(** matrix.cpp:138-145 is_zero of vectors, 259-267 of matrices *)
Definition vec_is_zero v : bool := forallb (fun x => aeqb R x z) v.
Definition mat_is_zero M : bool := vec_is_zero (mdata M).

(** matrix.cpp:181-185 identity matrix *)
Definition mat_id (n : nat) : res (matrix A) :=
  upto n 0 (fun i M => mput M i i (a1 R)) (mat_fill n n z).
(** matrix.h:420-429 standard_basis *)
Definition standard_basis (r : nat) : res (list (list A)) :=
  upto r 0 (fun i b => run v <- vget b i; run v <- vput v i (a1 R); vput b i v)
       (repeat (repeat z r) r).
(** matrix.cpp:269-286 product of matrices *)
Definition mat_mul M (N : matrix A) : res (matrix A) :=
  upto (mrows M) 0 (fun i P =>
    upto (mcols N) 0 (fun k P =>
      run c <- upto (mcols M) 0 (fun j c =>
         run x <- mget M i j; run y <- mget N j k; run p <- amul R x y; aadd R c p) z;
      mput P i k c) P) (mat_fill (mrows M) (mcols N) z).
(** matrix.h:438-454 matrix times column vector, 461-476 row vector times matrix *)
Definition mat_apply M (w : list A) : res (list A) :=
  upto (mrows M) 0 (fun i r =>
    run c <- upto (mcols M) 0 (fun j c =>
       run x <- mget M i j; run y <- vget w j; run p <- amul R x y; aadd R c p) z;
    vput r i c) (repeat z (mrows M)).
Definition right_prod M (w : list A) : res (list A) :=
  upto (mcols M) 0 (fun j r =>
    run c <- upto (mrows M) 0 (fun i c =>
       run x <- vget w i; run y <- mget M i j; run p <- amul R x y; aadd R c p) z;
    vput r j c) (repeat z (mcols M)).
(** matrix.cpp:374-381 operator+=, 384-391 operator-= of matrices; matrix.h:317-318 scaling, negation *)
Definition mat_add M (N : matrix A) : res (matrix A) :=
  run d <- vec_add (mdata M) (mdata N); Ok (mk_mat (mrows M) (mcols M) d).
Definition mat_sub M (N : matrix A) : res (matrix A) :=
  run d <- vec_sub (mdata M) (mdata N); Ok (mk_mat (mrows M) (mcols M) d).
Definition mat_scale M (c : A) : res (matrix A) :=
  run d <- vec_scale (mdata M) c; Ok (mk_mat (mrows M) (mcols M) d).
Definition mat_negate M : res (matrix A) :=
  run d <- vec_negate (mdata M); Ok (mk_mat (mrows M) (mcols M) d).
(** matrix.h:522-529 operator+= adding a scalar matrix *)
Definition add_scalar M (c : A) : res (matrix A) :=
  downto (Nat.min (mrows M) (mcols M)) (fun i M =>
    run x <- mget M i i; run y <- aadd R x c; mput M i i y) M.

(** matrix.cpp:548-554 rowOperation, 559-565 columnOperation *)
Definition rowOperation M (i k : nat) (c : A) : res (matrix A) :=
  if aeqb R c z then Ok M else
  upto (mcols M) 0 (fun j M =>
    run x <- mget M i j; run y <- mget M k j; run p <- amul R c y; run s <- aadd R x p; mput M i j s) M.
Definition columnOperation M (j k : nat) (c : A) : res (matrix A) :=
  if aeqb R c z then Ok M else
  upto (mrows M) 0 (fun i M =>
    run x <- mget M i j; run y <- mget M i k; run p <- amul R c y; run s <- aadd R x p; mput M i j s) M.
(** matrix.cpp:570-576 rowMultiply, 579-585 columnMultiply *)
Definition rowMultiply M (i : nat) (f : A) : res (matrix A) :=
  if aeqb R f (a1 R) then Ok M else
  upto (mcols M) 0 (fun j M => run x <- mget M i j; run y <- amul R x f; mput M i j y) M.
Definition columnMultiply M (j : nat) (f : A) : res (matrix A) :=
  if aeqb R f (a1 R) then Ok M else
  upto (mrows M) 0 (fun i M => run x <- mget M i j; run y <- amul R x f; mput M i j y) M.

(** matrix.h:478-492 row_apply, 495-510 column_apply *)
Definition row_apply M (ops : matrix A) (i : nat) : res (matrix A) :=
  let r := mrows ops in
  run s <- upto (mcols M) 0 (fun j '(M, tmp) =>
    run tmp <- upto r 0 (fun k tmp => run x <- mget M (i + k) j; vput tmp k x) tmp;
    run tmp <- mat_apply ops tmp;
    run M <- upto r 0 (fun k M => run x <- vget tmp k; mput M (i + k) j x) M;
    Ok (M, tmp)) (M, repeat z r);
  Ok (fst s).
Definition column_apply M (ops : matrix A) (j : nat) : res (matrix A) :=
  let r := mrows ops in
  run s <- upto (mrows M) 0 (fun i '(M, tmp) =>
    run tmp <- upto r 0 (fun l tmp => run x <- mget M i (j + l); vput tmp l x) tmp;
    run tmp <- right_prod ops tmp;
    run M <- upto r 0 (fun l M => run x <- vget tmp l; mput M i (j + l) x) M;
    Ok (M, tmp)) (M, repeat z r);
  Ok (fst s).

(** matrix.cpp:420-443 inverse_upper_triangular; the sum runs over k=j,j-1,...,i+1 *)
Definition inverse_upper_triangular M : res (matrix A) :=
  let n := mcols M in
  if negb (mrows M =? n) then Fail Thrown else
  upto n 0 (fun j P =>
    run x <- mget M j j;
    if negb (aeqb R x (a1 R)) then Fail Thrown else
    run P <- mput P j j (a1 R);
    downto j (fun i P =>
      run s <- downto (j - i) (fun k s =>
        run x <- mget M i (S (i + k)); run y <- mget P (S (i + k)) j; run p <- amul R x y; aadd R s p) z;
      run c <- aopp R s;
      mput P i j c) P) (mat_fill n n z).
(** matrix.cpp:445-468 inverse_lower_triangular *)
Definition inverse_lower_triangular M : res (matrix A) :=
  let n := mcols M in
  if negb (mrows M =? n) then Fail Thrown else
  upto n 0 (fun i P =>
    run x <- mget M i i;
    if negb (aeqb R x (a1 R)) then Fail Thrown else
    run P <- mput P i i (a1 R);
    downto i (fun j P =>
      run s <- downto (i - j) (fun k s =>
        run x <- mget P i (S (j + k)); run y <- mget M (S (j + k)) j; run p <- amul R x y; aadd R s p) z;
      run c <- aopp R s;
      mput P i j c) P) (mat_fill n n z).
End Matrix.

(** * Integer entries *)
Section Integer.
Variable fits : Z -> bool.
Notation R := (zarith fits).
(** C++ division and remainder of signed integers: truncating; by zero undefined *)
Definition cdiv (a b : Z) : res Z := if (b =? 0)%Z then Fail Range else chkz fits (Z.quot a b).
Definition crem (a b : Z) : res Z :=
  if (b =? 0)%Z then Fail Range else run q <- chkz fits (Z.quot a b); Ok (Z.rem a b).
(** arithmetic.h:248-253 divide and 273-280 remainder with positive second argument; with
    this argument the model of arithmetic.h has the value used here (ArithProps.v, C17) *)
Definition adivide (a b : Z) : res Z := if (0 <? b)%Z then Ok (a / b)%Z else Fail Range.
Definition aremainder (a b : Z) : res Z := if (0 <? b)%Z then Ok (a mod b)%Z else Fail Range.

(** matrix.cpp:91-101 operator/= of vectors: throws unless each division is exact *)
Definition vec_div (v : list Z) (c : Z) : res (list Z) :=
  if (c =? 0)%Z then Fail Thrown else
  vmap (fun x => run r <- crem x c; if (r =? 0)%Z then cdiv x c else Fail Thrown) v.
(** matrix.cpp:103-117 divide of vectors *)
Definition vec_divide (v : list Z) (c : Z) : res (list Z) :=
  if (c =? 0)%Z then Fail Thrown else
  if (0 <? c)%Z then vmap (fun x => adivide x c) v else
  run c <- chkz fits (- c); vmap (fun x => run q <- adivide x c; chkz fits (- q)) v.
(** matrix.cpp:119-128 operator%= of vectors *)
Definition vec_mod (v : list Z) (c : Z) : res (list Z) :=
  if (c =? 0)%Z then Fail Thrown else
  run c <- chkz fits (Z.abs c); vmap (fun x => aremainder x c) v.
(** matrix.h:365-366 operator/= of matrices *)
Definition mat_div (M : matrix Z) (c : Z) : res (matrix Z) :=
  if (c =? 1)%Z then Ok M else
  run d <- vec_div (mdata M) c; Ok (mk_mat (mrows M) (mcols M) d).
(** matrix.cpp:504-512 divisible *)
Definition divisible (M : matrix Z) (c : Z) : res bool :=
  (fix go l := match l with
               | [] => Ok true
               | x :: t => run r <- crem x c; if (r =? 0)%Z then go t else Ok false
               end) (mdata M).
End Integer.
