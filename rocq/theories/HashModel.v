(** Model of sources/utilities/hashtable.h and hashtable_def.h: [HashTable],
    open addressing with linear probing. The entry type, its inequality test and
    its hash function are parameters. The sequence number type is unsigned of
    width [w] (the one use with a signed type, [HashTable<partition,int>], is
    not covered). The modulus and the sizes are [nat]: they are taken not to reach
    the range of size_t. Reading outside a vector, and a search that does not
    end within as many steps as there are slots, give [None]. *)

From Coq Require Import List Arith NArith Bool.
From Verif Require Import VecModel.
Import ListNotations.
Open Scope nat_scope.
Open Scope vec_scope.

Section Table.
Variable E : Type.
(** Entry::operator!= *)
Variable differs : E -> E -> bool.
(** Entry::hashCode, and hash_code for the entries of the pool (hashtable.h:72-73) *)
Variable hash : E -> nat -> nat.
(** number of bits of Number *)
Variable w : N.

(** hashtable_def.h:9 empty *)
Definition empty : N := (2 ^ w - 1)%N.
(** conversion from size_t to Number *)
Definition number (i : nat) : N := (N.of_nat i mod 2 ^ w)%N.

(** hashtable.h:79-81 the data members *)
Record table := mk { d_mod : nat; d_hash : list N; d_pool : list E }.

(** hashtable.h:109-110 max_fill, hashtable_def.h:12. The float constant 0.8 is 13421773/2^24, and
    the product by a power of two is exact. *)
Definition max_fill (m : nat) : nat := N.to_nat (13421773 * N.of_nat m / 2 ^ 24).

(** if (++h==d_mod) h=0 *)
Definition next (m h : nat) : nat := if S h =? m then 0 else S h.

(** while (d_hash[h]!=empty) advance h; hashtable_def.h:35-36 and 104-105 *)
Fixpoint free_slot (fuel m : nat) (slots : list N) (h : nat) : option nat :=
  do i <- get slots h;
  if (i =? empty)%N then Some h
  else match fuel with O => None | S f => free_slot f m slots (next m h) end.
(** hashtable_def.h:24-40 rehash *)
Definition rehash (m : nat) (pool : list E) : option (list N) :=
  for_up (length pool) 0 (fun i slots =>
    do e <- get pool i;
    do h <- free_slot m m slots (hash e m);
    put slots h (number i)) (repeat empty m).
(** hashtable_def.h:44-50 reconstruct; fuel bounds the number of doublings *)
Fixpoint expand (fuel m size : nat) : option nat :=
  if max_fill m <=? size
  then match fuel with O => None | S f => expand f (m * 2) size end
  else Some m.
Definition reconstruct (m : nat) (pool : list E) : option table :=
  do m <- expand (S (length pool)) m (length pool);
  do slots <- rehash m pool;
  Some (mk m slots pool).
(** hashtable_def.h:16-21 the constructor *)
Definition construct (pool : list E) (n : nat) : option table := reconstruct (2 ^ n) pool.

(** hashtable_def.h:60-61 and 77-78: slot at which the search ends, and its contents *)
Fixpoint probe (fuel : nat) (t : table) (x : E) (h : nat) : option (nat * N) :=
  do i <- get (d_hash t) h;
  if (i =? empty)%N then Some (h, i)
  else
    do e <- get (d_pool t) (N.to_nat i);
    if differs x e
    then match fuel with O => None | S f => probe f t x (next (d_mod t) h) end
    else Some (h, i).
(** hashtable_def.h:55-64 find *)
Definition find (t : table) (x : E) : option N :=
  do (h, i) <- probe (d_mod t) t x (hash x (d_mod t)); Some i.

(** the result of match: the number, or the exception *)
Inductive answer := Number (i : N) | Overflow.
(** hashtable_def.h:72-115 and 120-163: the two versions of match differ in
    copying or moving x *)
Definition match_ (t : table) (x : E) : option (table * answer) :=
  do (h, i) <- probe (d_mod t) t x (hash x (d_mod t));
  if negb (i =? empty)%N then Some (t, Number i) else
  if negb (number (length (d_pool t)) =? N.of_nat (length (d_pool t)))%N then Some (t, Overflow) else
  do (m, slots, h) <-
    (if max_fill (d_mod t) <=? length (d_pool t)
     then
       let m := d_mod t * 2 in
       do slots <- rehash m (d_pool t);
       do h <- free_slot m m slots (hash x m);
       Some (m, slots, h)
     else Some (d_mod t, d_hash t, h));
  do slots <- put slots h (number (length (d_pool t)));
  do r <- get slots h;
  Some (mk m slots (d_pool t ++ [x]), Number r).

(** a series of calls of match *)
Fixpoint match_all (t : table) (xs : list E) : option (table * list answer) :=
  match xs with
  | [] => Some (t, [])
  | x :: r =>
      do (t, a) <- match_ t x;
      do (t, l) <- match_all t r;
      Some (t, a :: l)
  end.
End Table.
Arguments mk {E}. Arguments d_mod {E}. Arguments d_hash {E}. Arguments d_pool {E}.
