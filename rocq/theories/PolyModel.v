(** Model of sources/utilities/polynomials.h and polynomials_def.h: the class
    templates [Polynomial<C>] and [Safe_Poly<C>]. A polynomial is its vector
    |d_data| of coefficients, lowest degree first; the class keeps the last
    entry nonzero. Coefficients of [Polynomial] are integers without overflow;
    those of [Safe_Poly] are unsigned of width [w]. Degrees and sizes are [nat]:
    the 32-bit sums of degrees are taken not to wrap around. Pointers that run
    through a vector are written as indices. *)

From Coq Require Import List Arith ZArith Bool.
From Verif Require Import VecModel.
Import ListNotations.
Open Scope Z_scope.
Open Scope vec_scope.

Definition poly := list Z.

(** polynomials.h:88 coef *)
Definition coef (p : poly) (i : nat) : Z := if (length p <=? i)%nat then 0 else nth i p 0.
(** polynomials.h:111 is_zero *)
Definition is_zero (p : poly) : bool := (length p =? 0)%nat.
(** polynomials.h:114 degree_less_than *)
Definition degree_less_than (p : poly) (d : nat) : bool := (length p <=? d)%nat.
(** polynomials.h:91 operator== on the coefficient vectors *)
Fixpoint peq (p q : poly) : bool :=
  match p, q with
  | [], [] => true
  | x :: p, y :: q => (x =? y) && peq p q
  | _, _ => false
  end.
(** polynomials.h:101 operator<, the one of std::vector *)
Fixpoint pless (p q : poly) : bool :=
  match p, q with
  | _, [] => false
  | [], _ => true
  | x :: p, y :: q => if x <? y then true else if y <? x then false else pless p q
  end.

(** polynomials.h:160 resize(d): truncate, or extend by zeros *)
Definition resize (p : poly) (d : nat) : poly := firstn d p ++ repeat 0 (d - length p).

(** polynomials_def.h:104-110 adjustSize, with j the index one past the one tested *)
Fixpoint adjust_loop (j : nat) (p : poly) : poly :=
  match j with
  | O => p
  | S k => if nth k p 0 =? 0 then adjust_loop k (removelast p) else p
  end.
Definition adjustSize (p : poly) : poly := adjust_loop (length p) p.

(** polynomials_def.h:48-53 Polynomial(C c) *)
Definition constant (c : Z) : poly := if c =? 0 then [] else [c].
(** polynomials_def.h:62-67 Polynomial(d,c) *)
Definition monomial (d : nat) (c : Z) : option poly := put (repeat 0 (d + 1)) d c.
(** polynomials_def.h:70-79 Polynomial(d,Q), the product of Q with the d-th power of X *)
Definition shifted (d : nat) (q : poly) : poly := if is_zero q then [] else repeat 0 d ++ q.

(** polynomials_def.h:112-128 operator+=. The argument may be the object itself:
    [alias q p] is what reading it gives when the object holds [p]. *)
Definition alias (q : option poly) (p : poly) : poly := match q with Some q => q | None => p end.
Definition plus_assign (p : poly) (q : option poly) : option poly :=
  let q0 := alias q p in
  if is_zero q0 then Some p else
  let p := if (length p <? length q0)%nat then resize p (length q0) else p in
  do p <- for_down (length q0) (fun j p => do s <- get (alias q p) j; do d <- get p j; put p j (d + s)) p;
  Some (adjustSize p).
(** polynomials_def.h:130-144 operator-= *)
Definition minus_assign (p : poly) (q : option poly) : option poly :=
  let q0 := alias q p in
  if is_zero q0 then Some p else
  let p := if (length p <? length q0)%nat then resize p (length q0) else p in
  do p <- for_down (length q0) (fun j p => do s <- get (alias q p) j; do d <- get p j; put p j (d - s)) p;
  Some (adjustSize p).
(** polynomials_def.h:146-161 subtract_from: the coefficients from the size of
    the argument on are negated, going down, then the remaining ones are
    subtracted from those of the argument *)
Definition subtract_from (p : poly) (q : option poly) : option poly :=
  let n := length (alias q p) in
  let p := if (length p <? n)%nat then resize p n else p in
  do p <- for_down (length p - n) (fun j p => do d <- get p (n + j); put p (n + j) (- d)) p;
  do p <- for_down n (fun j p => do s <- get (alias q p) j; do d <- get p j; put p j (s - d)) p;
  Some (adjustSize p).
(** polynomials_def.h:163-171 operator*= for a scalar *)
Definition scale (p : poly) (c : Z) : option poly :=
  if c =? 0 then Some [] else
  for_down (length p) (fun j p => do d <- get p j; put p j (d * c)) p.

(** How a function may end: normally, by an exception (with the state in which
    that leaves the object), or with undefined behaviour. *)
Inductive outcome (S : Type) := Done (s : S) | Threw (s : S) | Undefined.
Arguments Done {S}. Arguments Threw {S}. Arguments Undefined {S}.
(** for (j=n; j-->0; ) body(j), stopping at an exception *)
Fixpoint down {S} (n : nat) (body : nat -> S -> outcome S) (s : S) : outcome S :=
  match n with
  | O => Done s
  | Datatypes.S m => match body m s with Done s' => down m body s' | r => r end
  end.

(** polynomials_def.h:173-185 operator/= *)
Definition divide (p : poly) (c : Z) : outcome poly :=
  if c =? 0 then Threw p else
  down (length p) (fun j p =>
    match get p j with
    | None => Undefined
    | Some d => if Z.rem d c =? 0
                then match put p j (Z.quot d c) with Some p => Done p | None => Undefined end
                else Threw p
    end) p.

(** polynomials_def.h:187-205 operator* of two polynomials *)
Definition mult (p q : poly) : option poly :=
  if is_zero p || is_zero q then Some [] else
  do r <- monomial (length p - 1 + (length q - 1)) 1;
  do r <- put r (length r - 1) 0;
  for_down (length p) (fun j r =>
    do c <- get p j;
    for_down (length q) (fun i r => do s <- get q i; do d <- get r (i + j)%nat; put r (i + j)%nat (d + c * s)) r) r.
(** polynomials.h:135 operator*= of a polynomial *)
Definition mult_assign (p q : poly) : option poly := mult p q.
(** polynomials.h:140-144 operator+, adding to a copy of the longer operand *)
Definition plus (p q : poly) : option poly :=
  if (length q <=? length p)%nat then plus_assign p (Some q) else plus_assign q (Some p).
(** polynomials.h:145-149 operator- *)
Definition minus (p q : poly) : option poly :=
  if (length q <=? length p)%nat then minus_assign p (Some q)
  else do n <- scale q (-1); plus_assign n (Some p).
(** polynomials.h:150 unary operator- *)
Definition negate (p : poly) : option poly := scale p (-1).

(** polynomials_def.h:208-217 up_remainder *)
Definition up_remainder (p : poly) (c : Z) (d : nat) : option Z :=
  if is_zero p then Some 0 else
  do r <- get p 0;
  for_up d 1 (fun i r => Some (coef p i - c * r)) r.
(** polynomials_def.h:220-233 factor_by_1_plus_q: quotient and remainder *)
Definition factor_by_1_plus_q (p : poly) (d : nat) : option (poly * Z) :=
  if is_zero p then Some (p, 0) else
  let p := if (length p - 1 <? d)%nat then resize p (d + 1) else p in
  do r <- get p 0;
  do (p, r) <- for_up d 1 (fun i '(p, r) => do x <- get p i; do p <- put p i (x - r); Some (p, x - r)) (p, r);
  do p <- put p d 0;
  Some (adjustSize p, r).
(** polynomials_def.h:240-255 factor_by_1_plus_q_to_the; the index d-i of the
    second loop is unsigned, so that it is out of range when i>d *)
Definition factor_by_1_plus_q_to_the (p : poly) (k d : nat) : option (poly * Z) :=
  if is_zero p then Some (p, 0) else
  let p := if (length p - 1 <? d)%nat then resize p (d + 1) else p in
  do p <- for_up (d + 1 - k) k (fun i p => do x <- get p i; do y <- get p (i - k); put p i (x - y)) p;
  do r <- get p d;
  do p <- for_down k (fun i p => if (d <? i)%nat then None else put p (d - i) 0) p;
  Some (adjustSize p, r).
(** polynomials_def.h:257-266 multi_term *)
Fixpoint any_below (p : poly) (i : nat) : bool :=
  match i with O => false | S k => if negb (nth k p 0 =? 0) then true else any_below p k end.
Definition multi_term (p : poly) : bool := if is_zero p then false else any_below p (length p - 1).
(** polynomials_def.h:274-288 compare *)
Fixpoint compare_from (p q : poly) (j : nat) : bool :=
  match j with
  | O => false
  | S k => if negb (nth k p 0 =? nth k q 0) then nth k p 0 <? nth k q 0 else compare_from p q k
  end.
Definition compare (p q : poly) : bool :=
  if negb (length p =? length q)%nat then (length p <? length q)%nat
  else compare_from p q (length p).
(** polynomials.h:233-240 and 260-267, PolEntry::operator!=; degrees are compared
    modulo the range of the unsigned type, here by size *)
Fixpoint differs_from (p q : poly) (n i : nat) : bool :=
  match n with
  | O => false
  | S m => if negb (nth i p 0 =? nth i q 0) then true else differs_from p q m (S i)
  end.
Definition entry_differs (p e : poly) : bool :=
  if negb (length p =? length e)%nat then true
  else if is_zero p then false
  else differs_from p e (length p) 0.

(** The functions below are those of [Safe_Poly<C>] for an unsigned type [C] of
    width [w]. *)
(** numeric_limits<C>::max() *)
Definition cmax (w : Z) : Z := 2 ^ w - 1.
(** polynomials_def.h:346-351 safe_add; [None] is the exception *)
Definition safe_add (w a b : Z) : option Z := if cmax w - a <? b then None else Some (a + b).
(** polynomials_def.h:354-360 safe_subtract; assertions are off, so that the
    unsigned subtraction wraps around *)
Definition safe_subtract (w a b : Z) : Z := (a - b) mod 2 ^ w.
(** polynomials_def.h:367-375 safe_multiply; [None] is the exception *)
Definition safe_multiply (w a b : Z) : option Z :=
  if a =? 0 then Some a else if cmax w / a <? b then None else Some (a * b).
(** polynomials_def.h:377-382 safe_divide; [None] is division by zero *)
Definition safe_divide (a b : Z) : option Z := if b =? 0 then None else Some (a / b).

(** polynomials_def.h:392-411 safeAdd(q,d,c) *)
Definition safeAdd_mult (w : Z) (p : poly) (q : option poly) (d : nat) (c : Z) : outcome poly :=
  let q0 := alias q p in
  if is_zero q0 || (c =? 0) then Done p else
  let qs := length q0 in
  let p := if (length p <? qs + d)%nat then resize p (qs + d) else p in
  down qs (fun j p =>
    match get (alias q p) j, get p (d + j)%nat with
    | Some a, Some b =>
        match safe_multiply w a c with
        | None => Threw p
        | Some a =>
            match safe_add w b a with
            | None => Threw p
            | Some s => match put p (d + j)%nat s with Some p => Done p | None => Undefined end
            end
        end
    | _, _ => Undefined
    end) p.
(** polynomials_def.h:415-430 safeAdd(q,d) *)
Definition safeAdd (w : Z) (p : poly) (q : option poly) (d : nat) : outcome poly :=
  let q0 := alias q p in
  if is_zero q0 then Done p else
  let qs := length q0 in
  let p := if (length p <? qs + d)%nat then resize p (qs + d) else p in
  down qs (fun j p =>
    match get (alias q p) j, get p (d + j)%nat with
    | Some a, Some b =>
        match safe_add w b a with
        | None => Threw p
        | Some s => match put p (d + j)%nat s with Some p => Done p | None => Undefined end
        end
    | _, _ => Undefined
    end) p.
(** polynomials_def.h:438-458 safeSubtract(q,d,c) *)
Definition safeSubtract_mult (w : Z) (p : poly) (q : option poly) (d : nat) (c : Z) : outcome poly :=
  let q0 := alias q p in
  if is_zero q0 || (c =? 0) then Done p else
  match down (length q0) (fun j p =>
    match get (alias q p) j, get p (d + j)%nat with
    | Some a, Some b =>
        match safe_multiply w a c with
        | None => Threw p
        | Some a => match put p (d + j)%nat (safe_subtract w b a) with Some p => Done p | None => Undefined end
        end
    | _, _ => Undefined
    end) p with
  | Done p => Done (adjustSize p)
  | r => r
  end.
(** polynomials_def.h:462-478 safeSubtract(q,d) *)
Definition safeSubtract (w : Z) (p : poly) (q : option poly) (d : nat) : outcome poly :=
  let q0 := alias q p in
  if is_zero q0 then Done p else
  match down (length q0) (fun j p =>
    match get (alias q p) j, get p (d + j)%nat with
    | Some a, Some b => match put p (d + j)%nat (safe_subtract w b a) with Some p => Done p | None => Undefined end
    | _, _ => Undefined
    end) p with
  | Done p => Done (adjustSize p)
  | r => r
  end.
(** polynomials_def.h:481-486 safeDivide; [None] is division by zero *)
Fixpoint safeDivide (p : poly) (c : Z) : option poly :=
  match p with
  | [] => Some []
  | x :: t => do y <- safe_divide x c; do t' <- safeDivide t c; Some (y :: t')
  end.
(** polynomials_def.h:512-527 safe_quotient_by_1_plus_q; its argument only serves in assertions *)
Definition safe_quotient_by_1_plus_q (w : Z) (p : poly) : option poly :=
  if is_zero p then Some p else
  do p <- for_up (length p - 1) 1 (fun j p =>
            do a <- get p j; do b <- get p (j - 1); put p j (safe_subtract w a b)) p;
  do l <- get p (length p - 1);
  Some (if l =? 0 then adjustSize p else p).
