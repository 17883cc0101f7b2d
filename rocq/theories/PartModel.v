(** Model of sources/utilities/partition.h, partition.cpp and partition_def.h:
    partitions of [0,n[ and the orbit computation. Values of type unsigned long
    are [nat]. A std::map is a list of key/value pairs with lookup; a bitmap over
    [0,n[ is a list of booleans. *)

From Coq Require Import List Arith Bool.
From Verif Require Import VecModel PermModel.
Import ListNotations.
Open Scope nat_scope.
Open Scope vec_scope.

(** partition.h:53-54 the data members *)
Record partition := mk { d_class : list nat; d_classRep : list nat }.
(** partition.h:64 Partition(n) *)
Definition empty_partition (n : nat) : partition := mk (repeat 0 n) [].
(** partition.h:76 class_of *)
Definition class_of (p : partition) (j : nat) : option nat := get (d_class p) j.
(** partition.h:82 classCount *)
Definition classCount (p : partition) : nat := length (d_classRep p).
(** partition.h:85 classRep *)
Definition classRep (p : partition) (c : nat) : option nat := get (d_classRep p) c.
(** partition.h:117-121 addToClass *)
Definition addToClass (p : partition) (c j : nat) : option partition :=
  do l <- put (d_class p) j c; Some (mk l (d_classRep p)).
(** partition.cpp:96-101 new_class; the class number is returned too *)
Definition new_class (p : partition) (j : nat) : option (partition * nat) :=
  do l <- put (d_class p) j (length (d_classRep p));
  do c <- get l j;
  Some (mk l (d_classRep p ++ [j]), c).

(** std::map::find *)
Fixpoint lookup (m : list (nat * nat)) (k : nat) : option nat :=
  match m with
  | [] => None
  | (k', v) :: t => if k' =? k then Some v else lookup t k
  end.
(** std::map::insert: the map, and the value found if the key was present *)
Definition map_insert (m : list (nat * nat)) (k v : nat) : list (nat * nat) * option nat :=
  match lookup m k with
  | Some v' => (m, Some v')
  | None => ((k, v) :: m, None)
  end.

(** partition.cpp:40-63 Partition(f) *)
Definition of_function (f : list nat) : option partition :=
  do (p, s, val) <- for_up (length f) 0 (fun i '(p, s, val) =>
    do x <- get f i;
    match map_insert val x s with
    | (val, None) => do (p, _) <- new_class p i; Some (p, S s, val)
    | (val, Some c) => do p <- addToClass p c i; Some (p, s, val)
    end) (empty_partition (length f), 0, []);
  Some p.
(** partition.cpp:65-83 Partition(f,UnnormalizedTag); the map is traversed in
    the order of our list, its keys being distinct *)
Definition of_classes (f : list nat) : option partition :=
  do val <- for_up (length f) 0 (fun j val => do x <- get f j; Some (fst (map_insert val x j))) [];
  do rep <- for_each val (fun kv rep => put rep (fst kv) (snd kv)) (repeat 0 (length val));
  Some (mk f rep).

(** partition.cpp:109-118 classSize *)
Definition classSize (p : partition) (c : nat) : nat :=
  fold_left (fun n elt => if elt =? c then S n else n) (d_class p) 0.
(** partition.cpp:120-127 class_sizes *)
Definition class_sizes (p : partition) : option (list nat) :=
  for_each (d_class p) (fun elt r => do x <- get r elt; put r elt (S x)) (repeat 0 (classCount p)).

(** partition.h:174-183 PartitionIterator; iterators into |d_data| and |d_stop| are indices *)
Record iterator := mk_it { d_data : list nat; d_stop : list nat; first : nat; second : nat; currentEnd : nat }.
(** partition.h:226-230 rewind *)
Definition rewind (data stop : list nat) : option iterator :=
  do a <- get stop 0; do b <- get stop 1; Some (mk_it data stop a b 1).
(** partition.cpp:148-179 PartitionIterator(pi); [stable_sort] stands for std::stable_sort *)
Definition iterate (p : partition) : option iterator :=
  let n := length (d_class p) in
  if n =? 0 then rewind [] [0; 0] else
  let data := stable_sort (fun x y => nth x (d_class p) 0 <? nth y (d_class p) 0) (seq 0 n) in
  do x0 <- get data 0; do c0 <- class_of p x0;
  do (stop, _) <- for_up n 0 (fun i '(stop, this) =>
    do x <- get data i; do c <- class_of p x;
    Some (if negb (c =? this) then (stop ++ [i], c) else (stop, this))) ([0], c0);
  rewind data (stop ++ [n; n]).
(** partition.h:213-215 operator() *)
Definition it_valid (it : iterator) : bool := negb (first it =? length (d_data it)).
(** partition.h:205-207 the range of the iterator: the members of the current class *)
Definition it_class (it : iterator) : list nat := firstn (second it - first it) (skipn (first it) (d_data it)).
(** partition.cpp:181-189 operator++ *)
Definition it_next (it : iterator) : option iterator :=
  do e <- get (d_stop it) (S (currentEnd it));
  Some (mk_it (d_data it) (d_stop it) (second it) e (S (currentEnd it))).
(** for (PartitionIterator it(pi); it(); ++it): the classes seen *)
Definition all_classes (p : partition) : option (list (list nat)) :=
  do it <- iterate p;
  do (_, l) <- while (S (length (d_class p))) (fun '(it, _) => Some (it_valid it))
    (fun '(it, l) => do it' <- it_next it; Some (it', l ++ [it_class it])) (it, []);
  Some l.

(** partition_def.h:69-102 orbits, for generators 0,...,c-1 acting by [a]. The
    bitmap iterator goes to the next member at or after its position in the
    bitmap as it then is; here all positions are tried in turn. The stack has
    its top at the head of the list. *)
Definition orbit_step (a : nat -> nat -> nat) (c cls : nat) (s : partition * list bool * list nat)
  : option (partition * list bool * list nat) :=
  let '(p, b, to_do) := s in
  match to_do with
  | [] => None
  | x :: to_do =>
      for_up c 0 (fun i '(p, b, to_do) =>
        let y := a i x in
        do m <- get b y;
        if m : bool then
          do b <- put b y false;
          do p <- addToClass p cls y;
          Some (p, b, y :: to_do)
        else Some (p, b, to_do)) (p, b, to_do)
  end.
Definition orbits (a : nat -> nat -> nat) (c n : nat) : option partition :=
  do (p, _) <- for_up n 0 (fun root '(p, b) =>
    do m <- get b root;
    if m : bool then
      do (p, cls) <- new_class p root;
      do b <- put b root false;
      do s <- orbit_step a c cls (p, b, [root]);
      do (p, b, _) <- while n (fun '(_, _, to_do) => Some (negb (length to_do =? 0))) (orbit_step a c cls) s;
      Some (p, b)
    else Some (p, b)) (empty_partition n, repeat true n);
  Some p.
