(** Model of rational vectors: sources/utilities/ratvec.h and ratvec.cpp.

    Only the instance RationalVector<Numer_t> is generated (ratvec.cpp:215): numerators are
    of type long long int, the common denominator of type unsigned long long int. Signed
    operations are checked for overflow; unsigned ones, and the signed operands of
    operations with an unsigned operand, are reduced modulo 2^64 (ArithModel.v). The integers of
    type big_int used in comparisons are exact. Assertions are not part of the code. *)

From Coq Require Import List Arith ZArith Bool.
From Verif Require Import VecModel RunModel MatModel ArithModel.
Import ListNotations.
Open Scope Z_scope.

(** values of Numer_t *)
Definition fits64 (z : Z) : bool := (- H63 <=? z) && (z <? H63).
Notation RV := (zarith fits64).

(** ratvec.h:39-40 *)
Record rvec := mk_rv { num : list Z; den : Z }.
(** ratvec.h:45 the zero vector; 69 the empty one *)
Definition rv_zero (r : nat) : rvec := mk_rv (repeat 0 r) 1.
(** ratvec.h:48-53 and 62-66: numerator and denominator given *)
Definition rv_make (v : list Z) (d : Z) : res rvec :=
  run a <- chkz fits64 (Z.abs d);
  run n <- (if d <? 0 then vec_negate RV v else Ok v);
  Ok (mk_rv n a).
(** ratvec.h:55-60: a vector times a rational number *)
Definition rv_of_rational (v : list Z) (r : rational) : res rvec :=
  run n <- vec_scale RV v (rnum r); Ok (mk_rv n (rden r)).

(** gcd(entry,d) and the normalisation of a fraction: with a nonzero denominator, the only undefined
    operation in them is the negation of the least number *)
Definition of_neg {A} (o : option A) : res A := match o with Some x => Ok x | None => Fail Overflow end.
(** the loop ratvec.cpp:179-184: the gcd, or [None] on early return *)
Fixpoint norm_gcd (l : list Z) (d : Z) : res (option Z) :=
  match l with
  | [] => Ok (Some d)
  | x :: t => run d <- of_neg (gcd_s x d); if d =? 1 then Ok None else norm_gcd t d
  end.
(** ratvec.cpp:172-192 normalize *)
Definition rv_normalize (v : rvec) : res rvec :=
  if den v =? 0 then Fail Thrown
  else
    run o <- norm_gcd (num v) (den v);
    match o with
    | None => Ok v
    | Some d => run n <- vec_div fits64 (num v) (s64 d); Ok (mk_rv n (den v / d))
    end.

(** ratvec.h:78-81 *)
Definition rv_denominator (v : rvec) : Z := s64 (den v).
Definition rv_size (v : rvec) : nat := length (num v).
Definition rv_is_zero (v : rvec) : bool := vec_is_zero RV (num v).

(** ratvec.cpp:31-43 operator== *)
Fixpoint cross_eq (v w : list Z) (dv dthis : Z) : res bool :=
  match v, w with
  | [], _ => Ok true
  | x :: v', y :: w' => if negb (x * dv =? y * dthis) then Ok false else cross_eq v' w' dv dthis
  | _ :: _, [] => Fail Range
  end.
Definition rv_eqb (v w : rvec) : res bool :=
  if negb (rv_size v =? rv_size w)%nat then Ok false else cross_eq (num v) (num w) (den w) (den v).
(** ratvec.cpp:45-61 operator< *)
Fixpoint cross_lt (v w : list Z) (dv dthis : Z) : res bool :=
  match v, w with
  | [], _ => Ok false
  | x :: v', y :: w' =>
      let d := x * dv - y * dthis in
      if negb (d =? 0) then Ok (d <? 0) else cross_lt v' w' dv dthis
  | _ :: _, [] => Fail Range
  end.
Definition rv_ltb (v w : rvec) : res bool :=
  if negb (rv_size v =? rv_size w)%nat then Ok (rv_size v <? rv_size w)%nat
  else cross_lt (num v) (num w) (den w) (den v).

(** ratvec.cpp:63-74 operator+=, 76-87 operator-=, 89-100 negate_add: the entry is [op] of the products *)
Definition rv_combine (op : Z -> Z -> Z) (v w : rvec) : res rvec :=
  run (m, g, _) <- of_option (lcm (den v) (den w));
  let f0 := den w / g in
  let f1 := den v / g in
  run n <- downto (length (num v)) (fun i n =>
    run x <- vget n i; run y <- vget (num w) i;
    vput n i (s64 (op (u64 (u64 x * f0)) (u64 (u64 y * f1))))) (num v);
  rv_normalize (mk_rv n m).
Definition rv_add : rvec -> rvec -> res rvec := rv_combine Z.add.
Definition rv_sub : rvec -> rvec -> res rvec := rv_combine Z.sub.
Definition rv_negate_add : rvec -> rvec -> res rvec := rv_combine (fun x y => y - x).
(** ratvec.h:90 negate *)
Definition rv_negate (v : rvec) : res rvec := run n <- vec_negate RV (num v); Ok (mk_rv n (den v)).

(** ratvec.cpp:104-118 operator*= by an integer *)
Definition rv_mul_n (v : rvec) (n : Z) : res rvec :=
  run exact <- (if n =? 0 then Ok false else run r <- crem fits64 (s64 (den v)) n; Ok (r =? 0));
  if exact : bool then
    if 0 <? n then Ok (mk_rv (num v) (den v / n))
    else
      run x <- vec_negate RV (num v);
      run m <- chkz fits64 (- n);
      Ok (mk_rv x (den v / m))
  else run x <- vec_scale RV (num v) n; Ok (mk_rv x (den v)).
(** ratvec.cpp:123-135 operator/= by an integer *)
Definition rv_div_n (v : rvec) (n : Z) : res rvec :=
  if 0 <? n then Ok (mk_rv (num v) (u64 (den v * n)))
  else run x <- vec_negate RV (num v); Ok (mk_rv x (u64 (den v * u64 (- u64 n)))).
(** ratvec.cpp:137-145 operator%= *)
Definition rv_mod_n (v : rvec) (n : Z) : res rvec :=
  run a <- chkz fits64 (Z.abs n);
  let modulus := s64 (u64 (den v * a)) in
  run x <- vmap (fun x => of_option (remainder x modulus)) (num v);
  Ok (mk_rv x (den v)).
(** ratvec.cpp:147-150 *= by a rational, 159-163 /= ; the denominator is read as signed *)
Definition rv_mul_r (v : rvec) (r : rational) : res rvec := run w <- rv_div_n v (s64 (rden r)); rv_mul_n w (rnum r).
Definition rv_div_r (v : rvec) (r : rational) : res rvec := run w <- rv_div_n v (rnum r); rv_mul_n w (s64 (rden r)).
(** ratvec.cpp:152-157 operator* and 165-170 operator/ by a rational number *)
Definition rv_times_r (v : rvec) (r : rational) : res rvec :=
  run x <- vec_scale RV (num v) (rnum r); rv_make x (s64 (u64 (den v * u64 (s64 (rden r))))).
Definition rv_over_r (v : rvec) (r : rational) : res rvec :=
  run x <- vec_scale RV (num v) (s64 (rden r)); rv_make x (s64 (u64 (den v * u64 (rnum r)))).

(** matrix.h:115-121 add(b,c), 122 subtract *)
Definition vec_add_scaled (v w : list Z) (c : Z) : res (list Z) :=
  if c =? 0 then Ok v else vmap2 (fun x y => run p <- amul RV y c; aadd RV x p) v w.
(** ratvec.h:119-124 += and -= with an integer vector; 132-134, 141-143 subtract_from *)
Definition rv_add_vec (v : rvec) (w : list Z) : res rvec :=
  run x <- vec_add_scaled (num v) w (rv_denominator v); Ok (mk_rv x (den v)).
Definition rv_sub_vec (v : rvec) (w : list Z) : res rvec :=
  run c <- chkz fits64 (- rv_denominator v);
  run x <- vec_add_scaled (num v) w c; Ok (mk_rv x (den v)).
Definition rv_subtract_from (v : rvec) (w : list Z) : res rvec := run u <- rv_negate v; rv_add_vec u w.

(** ratvec.h:160-166 dot, for an integral value; 169-174 dot_Q *)
Definition rv_dot (v : rvec) (w : list Z) : res Z :=
  run s <- vec_dot RV w (num v); cdiv fits64 s (s64 (den v)).
Definition rv_dot_Q (v : rvec) (w : list Z) : res rational :=
  run s <- vec_dot RV w (num v); of_neg (rat_make s (den v)).
(** ratvec.h:178-191 integer_diff: the arguments are normalised as well; [conv] is the conversion
    to the type of the entries of the result *)
Definition rv_integer_diff (conv : Z -> Z) (v w : rvec) : res (list Z * rvec * rvec) :=
  run v <- rv_normalize v; run w <- rv_normalize w;
  let d := rv_denominator v in
  run r <- upto (rv_size v) 0 (fun i r =>
    run x <- vget (num v) i; run y <- vget (num w) i;
    run s <- asub RV x y; run q <- cdiv fits64 s d; vput r i (conv q)) (repeat 0 (rv_size v));
  Ok (r, v, w).

(** ratvec.cpp:195-200, 202-207 products with a matrix *)
Definition rv_mat (M : matrix Z) (v : rvec) : res rvec :=
  run x <- mat_apply RV M (num v); rv_make x (rv_denominator v).
Definition rv_right (v : rvec) (M : matrix Z) : res rvec :=
  run x <- right_prod RV M (num v); rv_make x (rv_denominator v).
(** ratvec.h:225-231, 234-240 symmetrise *)
Definition rv_symmetrise (M : matrix Z) (v : rvec) : res rvec :=
  run x <- mat_apply RV M (num v); run y <- vec_add RV (num v) x;
  run w <- rv_div_n (mk_rv y (den v)) 2; rv_normalize w.
Definition rv_symmetrise_right (v : rvec) (M : matrix Z) : res rvec :=
  run x <- right_prod RV M (num v); run y <- vec_add RV (num v) x;
  run w <- rv_div_n (mk_rv y (den v)) 2; rv_normalize w.
