(** Permutations: /repo/sources/utilities/permutations.h, permutations_def.h,
    permutations.cpp. A [Permutation] is a vector of indices. The auxiliary
    [bitmap::BitMap seen] of known capacity is a vector of booleans here (the
    class itself is treated in the Bitmap files). *)

From Coq Require Import List Arith Bool ZArith.
From Verif Require Import VecModel BitmapModel BitsetModel.
Import ListNotations.
Open Scope vec_scope.
Open Scope nat_scope.

(** permutations.cpp:29-33, Permutation(n,unused), downward loop *)
Definition identity (n : nat) : option (list nat) :=
  for_down n (fun i v => put v i i) (repeat 0 n).
(** permutations.cpp:35-39, Permutation(pi,unused) *)
Definition inverse (pi : list nat) : option (list nat) :=
  for_down (length pi) (fun i v => do p <- get pi i; put v p i) (repeat 0 (length pi)).
(** permutations.cpp:56-63, compose(a,b,n). The range constructor reads
    a[n],...,a[n+b.size()-1], which must exist. *)
Definition compose (a b : list nat) (n : nat) : option (list nat) :=
  let c := firstn (length b) (skipn n a) in
  if n + length b <=? length a then
    for_up (length b) 0 (fun j a => do bj <- get b j; do x <- get c bj; put a (j + n) x) a
  else None.
(** permutations_def.h:32-43, pull_back *)
Definition pull_back {A} (pi : list nat) (v : list A) : option (list A) :=
  for_each pi (fun x r => do y <- get v x; Some (r ++ [y])) [].
(** permutations.cpp:65-76, pull_back for a one-chunk BitSet *)
Definition pull_back_bits (pi : list nat) (v : Z) : option Z :=
  for_up (length pi) 0 (fun i r => do p <- get pi i; Some (set_to1 r (Z.of_nat i) (test1 v (Z.of_nat p)))) 0%Z.
(** permutations.cpp:78-89, permute_bits *)
Definition permute_bits (pi : list nat) (v : Z) : option Z :=
  for_up (length pi) 0 (fun i r => do p <- get pi i; Some (set_to1 r (Z.of_nat p) (test1 v (Z.of_nat i)))) 0%Z.
(** permutations.cpp:91-100, renumbering of a vector *)
Definition renumbering (pi v : list nat) : option (list nat) :=
  for_each v (fun x r => do y <- get pi x; Some (r ++ [y])) [].
(** permutations.cpp:102-109, renumbering of a bitmap; the range-for loop visits
    the positions produced by the BitMap iterator *)
Definition renumbering_map (pi : list nat) (b : bitmap) : option bitmap :=
  do (l, _) <- traverse (S (Z.to_nat (cap b))) (fun _ c => c) b (bm_begin b);
  for_each l (fun x r => do y <- get pi (Z.to_nat x); insert r (Z.of_nat y)) (bm_make (Z.of_nat (length pi))).
(** permutations.cpp:111-118, renumber *)
Definition renumber (pi v : list nat) : option (list nat) :=
  for_up (length v) 0 (fun i v => do x <- get v i; do y <- get pi x; put v i y) v.
(** permutations.cpp:120-129, renumber with exception value *)
Definition renumber_except (pi v : list nat) (except : nat) : option (list nat) :=
  for_up (length v) 0 (fun i v => do x <- get v i;
    if negb (x =? except) then do y <- get pi x; put v i y else Some v) v.
(** permutations_def.h:61-83, permute. The inner loop state is (tmp,v,seen,j). *)
Definition permute {A} (pi : list nat) (v : list A) : option (list A) :=
  let n := length pi in
  do (v, seen) <- for_up n 0 (fun i '(v, seen) =>
    do s <- get seen i;
    if negb s then
      do seen <- put seen i true;
      do p <- get pi i;
      if negb (p =? i) then
        do tmp <- get v i;
        do (tmp, v, seen, _) <- while n (fun '(_, _, _, j) => Some (negb (j =? i)))
          (fun '(tmp, v, seen, j) =>
             do x <- get v j; do v <- put v j tmp; do seen <- put seen j true; do j <- get pi j;
             Some (x, v, seen, j)) (tmp, v, seen, p);
        do v <- put v i tmp;
        Some (v, seen)
      else Some (v, seen)
    else Some (v, seen)) (v, repeat false n);
  Some v.
(** permutations.cpp:131-138, is_identity *)
Fixpoint is_id_from (i : nat) (pi : list nat) : bool :=
  match pi with
  | [] => true
  | x :: t => if negb (x =? i) then false else is_id_from (S i) t
  end.
Definition is_identity (pi : list nat) : bool := is_id_from 0 pi.
(** permutations.cpp:140-155, is_negative. The do-while loop performs its body
    once before the first test; its state is (result,seen,j). *)
Definition is_negative (pi : list nat) : option bool :=
  let n := length pi in
  do (r, seen) <- for_up n 0 (fun i '(r, seen) =>
    do s <- get seen i;
    do j <- get pi i;
    if negb s && negb (j =? i) then
      let body := fun '(r, seen, j) =>
        do seen <- put seen j true; do j <- get pi j; Some (negb r, seen, j) in
      do st <- body (r, seen, j);
      do (r, seen, _) <- while n (fun '(_, _, j) => Some (negb (j =? i))) body st;
      Some (r, seen)
    else Some (r, seen)) (false, repeat false n);
  Some r.
(** permutations.cpp:157-163, fixed_points *)
Definition fixed_points (pi : list nat) : option bitmap :=
  for_up (length pi) 0 (fun i r => do p <- get pi i;
    if p =? i then insert r (Z.of_nat i) else Some r) (bm_make (Z.of_nat (length pi))).

(** permutations.cpp:256-284, standardization(a,bound,stops). Counters do not
    wrap: the length of a is below 2^32. Returns the permutation and stops. *)
Definition standardization (a : list nat) (bound : nat) : option (list nat * list nat) :=
  do count <- for_down (length a) (fun i c => do x <- get a i; do k <- get c x; put c x (S k)) (repeat 0 bound);
  do (count, sum) <- for_up bound 0 (fun i '(c, sum) => do ci <- get c i; do c <- put c i sum; Some (c, sum + ci)) (count, 0);
  let stops := count ++ [sum] in
  do (r, _) <- for_up (length a) 0 (fun i '(r, c) =>
    do x <- get a i; do k <- get c x; do c <- put c x (S k); do r <- put r i k; Some (r, c)) (repeat 0 (length a), count);
  Some (r, stops).

(** Specification-level stand-in for std::stable_sort with comparison less: stable
    insertion, an element goes after all those it is not less than. *)
Section Sort.
Context {A : Type} (less : A -> A -> bool).
Fixpoint insert_sorted (x : A) (l : list A) : list A :=
  match l with
  | [] => [x]
  | y :: t => if less x y then x :: l else y :: insert_sorted x t
  end.
Definition stable_sort (l : list A) : list A := fold_left (fun r x => insert_sorted x r) l [].
End Sort.
(** permutations_def.h:91-110, standardization(first,last,less) *)
Definition standardization_by {A} (less : A -> A -> bool) (a : list A) : option (list nat) :=
  let aux := combine a (seq 0 (length a)) in
  let sorted := stable_sort (fun x y => less (fst x) (fst y)) aux in
  for_up (length sorted) 0 (fun k r => do p <- get sorted k; put r (snd p) k) (repeat 0 (length sorted)).
