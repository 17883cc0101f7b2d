(** Model of sources/utilities/size.h, size.cpp (positive numbers as products of powers of
    small primes) and of sources/structure/weylsize.cpp.

    unsigned long is Z modulo 2^64; the exponents are of type signed char (size_fwd.h:20),
    whose conversion from int reduces modulo 2^8. The array of PRIMES_MAX exponents is a
    list. error::NumericOverflow prints a message and returns (error.cpp:49-53); a
    boolean in the results below tells whether a message was printed. *)

From Coq Require Import List Arith ZArith Bool Ascii.
From Verif Require Import VecModel RunModel BitsetModel.
Import ListNotations.
Open Scope Z_scope.

Definition u64 (x : Z) : Z := x mod 2 ^ 64.
(** conversion to signed char *)
Definition s8 (x : Z) : Z := (x + 128) mod 256 - 128.

(** PRIMES_MAX for RANK_MAX=32 (size.h:72-75, 94; constants.h:60) *)
Definition PRIMES_MAX : nat := 11.
Definition RANK_MAX : Z := 32.

(** The inner loop of PrimeHelper::PrimeHelper, size.cpp:182-191: result is whether the loop
    ends with i==count. [ps] is the part of d_primes set so far. *)
Fixpoint no_divisor (ps : list Z) (j : Z) : bool :=
  match ps with
  | [] => true
  | p :: ps' => if j <? u64 (p * p) then true else if j mod p =? 0 then false else no_divisor ps' j
  end.
(** PrimeHelper::PrimeHelper, size.cpp:176-201; the array has room for [cap] primes, and
    storing one more (after the message) is out of range. *)
Definition prime_helper (cap : nat) (n : Z) : res (list Z) :=
  upto (Z.to_nat (n - 1)) 2 (fun k ps =>
    let j := Z.of_nat k in
    if no_divisor ps j then
      if (length ps =? cap)%nat then Fail Range else Ok (ps ++ [j])
    else Ok ps) [].
(** prime, size.cpp:143-147 *)
Definition prime_table : res (list Z) := prime_helper PRIMES_MAX (RANK_MAX + 1).
Definition prime (j : nat) : res Z := run ps <- prime_table; vget ps j.

(** SizeType::SizeType(), size.h:128; reset, size.h:154 *)
Definition size_one : list Z := repeat 0 PRIMES_MAX.

(** size.cpp:60-61: for (d_exp[n]=0; a%p==0; ++d_exp[n]) a/=p; [fuel] bounds the rounds *)
Definition extract (fuel : nat) (p a : Z) : res (Z * Z) :=
  loop fuel (fun '(a, e) => if p =? 0 then Fail Range else Ok (a mod p =? 0)) (fun '(a, e) => Ok (a / p, s8 (e + 1))) (a, 0).
(** SizeType::SizeType(unsigned long), size.cpp:54-66 *)
Definition size_of (fuel : nat) (a : Z) : res (list Z * bool) :=
  let said := a =? 0 in
  run (a', d) <- upto PRIMES_MAX 0 (fun n '(a, d) =>
    run p <- prime n;
    run (a', e) <- extract fuel p a;
    Ok (a', d ++ [e])) (a, []);
  Ok (d, said || (1 <? a')).

(** SizeType::piece, size.cpp:75-91; the exponent is converted to unsigned long *)
Definition power_loop (p : Z) (r : two) (n : nat) : res Z :=
  downto n (fun i c =>
    let c := u64 (c * c) in
    Ok (if test2 r (Z.of_nat i) then u64 (c * p) else c)) 1.
Definition piece (d : list Z) (k : nat) : res Z :=
  run p <- prime k;
  run e <- vget d k;
  let r := of_ulong2 (u64 e) in
  power_loop p r (Z.to_nat (lastBit2 r)).
(** SizeType::toUlong, size.cpp:99-108 *)
Definition toUlong (d : list Z) : res Z :=
  upto PRIMES_MAX 0 (fun i c => run x <- piece d i; Ok (u64 (c * x))) 1.

(** d_exp[i] = d_exp[i] op a.d_exp[i] for all i *)
Definition exponents (op : Z -> Z -> Z) (d a : list Z) : res (list Z) :=
  upto PRIMES_MAX 0 (fun i d => run x <- vget d i; run y <- vget a i; vput d i (s8 (op x y))) d.
(** SizeType::operator*=, size.cpp:111-118; operator/=, size.cpp:122-129 *)
Definition size_mul (d a : list Z) : res (list Z) := exponents Z.add d a.
Definition size_div (d a : list Z) : res (list Z) := exponents Z.sub d a.
(** operator*= with a number, size.h:150 *)
Definition size_mul_n (fuel : nat) (d : list Z) (n : Z) : res (list Z * bool) :=
  run (a, said) <- size_of fuel n; run d' <- size_mul d a; Ok (d', said).
(** twoShift, size.h:156-157, and c[0] += n (weylsize.cpp:64, 70); [n] is already of the type of the exponents
    in the first case and an unsigned long in the second, which comes to the same modulo 2^8 *)
Definition two_shift (d : list Z) (n : Z) : res (list Z) := run x <- vget d 0; vput d 0 (s8 (x + n)).
(** ==, size.h:137-140 *)
Definition size_eq (d a : list Z) : bool := if list_eq_dec Z.eq_dec d a then true else false.

(** rounds for the loops of size_of; enough for every number but 0 (theorem C51_of_number) *)
Definition rounds : nat := 64.
(** factorial, size.cpp:150-158 *)
Definition factorial (n : nat) : res (list Z * bool) :=
  run (one, said) <- size_of rounds 1;
  downto (n - 1) (fun i '(r, said) =>
    run (a, said') <- size_of rounds (Z.of_nat (i + 2));
    run r' <- size_mul r a;
    Ok (r', said || said')) (one, said).

(** weylSize(const SimpleLieType&), weylsize.cpp:52-109; the letter and the rank of the type *)
Definition put_all (d : list Z) (l : list (nat * Z)) : res (list Z) :=
  fold_left (fun r '(i, x) => run d <- r; vput d i (s8 x)) l (Ok d).
Definition weyl_size_simple (x : ascii) (r : nat) : res (list Z * bool) :=
  (match x with
   | "A" => factorial (r + 1)
   | "B" | "C" =>
     run (c, said) <- factorial r; run c <- two_shift c (Z.of_nat r); Ok (c, said)
   | "D" =>
     run (c, said) <- factorial r; run c <- two_shift c (Z.of_nat r - 1); Ok (c, said)
   | "E" =>
     run (c, said) <- size_of rounds 1;
     run c <- match r with
              | 6%nat => put_all c [(0%nat, 7); (1%nat, 4); (2%nat, 1)]
              | 7%nat => put_all c [(0%nat, 10); (1%nat, 4); (2%nat, 1); (3%nat, 1)]
              | 8%nat => put_all c [(0%nat, 14); (1%nat, 5); (2%nat, 2); (3%nat, 1)]
              | _ => Ok c
              end;
     Ok (c, said)
   | "F" | "f" => size_of rounds 1152
   | "G" | "g" => size_of rounds 12
   | _ => size_of rounds 1
   end)%char.
(** weylSize(const LieType&), weylsize.cpp:35-43 *)
Definition weyl_size (lt : list (ascii * nat)) : res (list Z * bool) :=
  run start <- size_of rounds 1;
  fold_left (fun r '(x, rk) =>
    run (c, said) <- r;
    run (a, said') <- weyl_size_simple x rk;
    run c' <- size_mul c a;
    Ok (c', said || said')) lt (Ok start).
