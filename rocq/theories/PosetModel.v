(** Model of sources/utilities/poset.h and poset.cpp. Elements (unsigned int) are
    [nat]; bitmaps are the sets of SetModel.v. A poset has less than 2^32 elements,
    so that the counts of pairs, which are at most n(n+1)/2, fit in 64 bits. *)

From Coq Require Import List Arith Bool ZArith.
From Verif Require Import VecModel SetModel.
Import ListNotations.
Open Scope nat_scope.
Open Scope vec_scope.

(** poset.h:56 d_below *)
Notation poset := (list bset).
(** poset.cpp:39-46 *)
Definition discrete (n : nat) : poset := map bs_new (seq 0 n).

(** poset.h:139-140 new_cover *)
Definition new_cover (p : poset) (x y : nat) : option poset :=
  do by_ <- get p y; do bx <- get p x;
  do b <- bs_or by_ bx; do b <- bs_insert b x;
  put p y b.
(** poset.h:120-124 extend *)
Definition extend (p : poset) (lks : list (nat * nat)) : option poset :=
  for_each lks (fun '(x, y) p => new_cover p x y) p.
(** poset.h:127-135 new_max *)
Definition new_max (p : poset) (container : list nat) : option poset :=
  let y := length p in
  for_each container (fun x p => new_cover p x y) (p ++ [bs_new y]).
(** poset.cpp:48-56 *)
Definition from_links (n : nat) (lk : list (nat * nat)) : option poset := extend (discrete n) lk.
(** poset.h:160-171: the bitmaps start with capacity 0 and are sized in turn *)
Definition from_hasse (hasse : list (list nat)) : option poset :=
  for_up (length hasse) 0 (fun i p =>
    do p <- put p i (bs_new i);
    do l <- get hasse i;
    for_each l (fun x p => new_cover p x i) p) (repeat [] (length hasse)).

(** poset.h:81-82 lesseq *)
Definition lesseq (p : poset) (i j : nat) : option bool :=
  if i <? j then do b <- get p j; Some (bs_mem b i) else Some (i =? j).
(** poset.cpp:58-71, the dual; |n| is p.size()-1 in 32-bit arithmetic *)
Definition dual (p : poset) : option poset :=
  let n := Z.to_nat ((Z.of_nat (length p) - 1) mod 2 ^ 32) in
  for_up (S n) 0 (fun i d =>
    do below_i <- for_up i 0 (fun j b =>
      do r <- lesseq p (n - i) (n - j);
      if r : bool then bs_insert b j else Some b) (bs_new i);
    Some (d ++ [below_i])) [].
(** poset.cpp:76-86 *)
Definition poset_eqb (p q : poset) : option bool :=
  if length p =? length q then
    for_up (length p) 0 (fun i r => do a <- get p i; do b <- get q i; Some (r && bs_eqb a b)) true
  else Some false.
(** poset.h:88 below *)
Definition below (p : poset) (y : nat) : option bset := get p y.
(** poset.cpp:88-96 above *)
Definition above (p : poset) (x : nat) : option bset :=
  for_up (length p - S x) (S x) (fun s r => do b <- get p s; if bs_mem b x then bs_insert r s else Some r) (bs_new (length p)).
(** poset.cpp:104-113 maxima; x decreases in every round *)
Fixpoint maxima_loop (p : poset) (fuel : nat) (r : bset) (x : nat) : option bset :=
  match bs_back r x with
  | None => Some r
  | Some y =>
    match fuel with
    | O => None
    | S k => do b <- get p y; do r <- bs_andnot r b; maxima_loop p k r y
    end
  end.
Definition maxima (p : poset) (b : bset) : option bset := maxima_loop p (length b) b (length b).
(** poset.cpp:115-123 minima *)
Definition minima (p : poset) (b : bset) : option bset :=
  for_each (bs_elems b) (fun i r => do d <- get p i; if bs_disjoint d b then bs_insert r i else Some r) (bs_new (length p)).
(** poset.h:94-95 *)
Definition covered_by (p : poset) (y : nat) : option bset := do b <- below p y; maxima p b.
Definition covers_of (p : poset) (x : nat) : option bset := do b <- above p x; minima p b.
(** poset.cpp:134-143 hasseDiagram *)
Definition hasseDiagram (p : poset) : option (list (list nat)) :=
  for_up (length p) 0 (fun x h => do t <- covered_by p x; put h x (bs_elems t)) (repeat [] (length p)).
(** poset.cpp:153-166 hasseDiagram(max) *)
Definition hasseDiagram_to (p : poset) (max : nat) : option (list (list nat)) :=
  do b <- get p max;
  do cl <- bs_or (bs_new (S max)) b; do cl <- bs_insert cl max;
  for_each (bs_elems cl) (fun i h => do t <- covered_by p i; put h i (bs_elems t)) (repeat [] (S max)).
(** poset.cpp:168-175 n_comparable *)
Definition n_comparable (p : poset) : option nat :=
  for_up (length p) 0 (fun i n => do b <- get p i; Some (n + bs_size b)) (length p).
(** poset.cpp:180-187 resize *)
Definition resize (p : poset) (n : nat) : poset :=
  firstn n p ++ map bs_new (seq (length p) (n - length p)).

(** poset.cpp:197-231 n_comparable_from_Hasse. In the last loop set_capacity(0)
    empties the bitmap. *)
Definition n_comparable_from_Hasse (hasse : list (list nat)) : option nat :=
  let n := length hasse in
  do min_after <- put (repeat 0 (S n)) n n;
  do min_after <- for_down n (fun i ma =>
    do m <- get ma (S i);
    do l <- get hasse i;
    let m := fold_left (fun m e => if e <? m then e else m) l m in
    put ma i m) min_after;
  do (_, count) <- for_up n 0 (fun i '(closure, count) =>
    do cl <- bs_insert (bs_new (S i)) i;
    do l <- get hasse i;
    do cl <- for_each l (fun x cl => do c <- get closure x; bs_or cl c) cl;
    do closure <- put closure i cl;
    do a <- get min_after i; do b <- get min_after (S i);
    do closure <- for_up (b - a) a (fun j c => put c j []) closure;
    Some (closure, count + bs_size cl)) (repeat [] n, 0);
  Some count.
