(** Functions of root systems outside the class: sources/structure/rootdata.cpp:1366-1540 and 1741-1760.

    Conventions are those of [RootModel].  A function that changes one of its arguments returns the new value as well.
    The lists (sl_list) are modelled by lists, splicing by moving elements. *)

From Coq Require Import List Arith ZArith Bool.
From Verif Require Import VecModel RunModel MatModel SizeModel DynkinModel RootModel.
Import ListNotations.
Local Open Scope nat_scope.

(** for (beta in set) if (not rs.is_orthogonal(alpha,beta)) break; whether the loop was left by break *)
Fixpoint sticks (s : rootsys) (alpha : nat) (l : list nat) : res bool :=
  match l with
  | [] => Ok false
  | beta :: t => run o <- is_orthogonal s alpha beta; if o : bool then sticks s alpha t else Ok true
  end.
(** rootdata.cpp:1366-1388, makeOrthogonal *)
Definition bdiff (a b : bset) : bset := map (fun '(x, y) => x && negb y) (combine a b).
Definition make_orthogonal (s : rootsys) (o sub : bset) : res bset :=
  let cand := bdiff sub o in
  each cand (fun alpha r => run q <- sticks s alpha (members o); if q : bool then brem r alpha else Ok r) cand.

(** rootdata.cpp:1404-1423, to_positive_system: the first negative root of the list, with its position *)
Fixpoint first_neg (np k : nat) (D : list nat) : option (nat * nat) :=
  match D with
  | [] => None
  | a :: t => if is_pos np a then first_neg np (S k) t else Some (k, a)
  end.
Fixpoint reflect_each (s : rootsys) (a : nat) (D : list nat) : res (list nat) :=
  match D with
  | [] => Ok []
  | b :: t => run x <- reflected s a b; run l <- reflect_each s a t; Ok (x :: l)
  end.
Fixpoint positive_steps (fuel : nat) (s : rootsys) (D : list nat) (steps : list (nat * nat))
    : res (list nat * list (nat * nat)) :=
  match first_neg (num_pos s) 0 D with
  | None => Ok (D, steps)
  | Some (k, a) =>
    match fuel with
    | O => Fail Fuel
    | S m => run D1 <- reflect_each s a D; positive_steps m s D1 (steps ++ [(k, a)])
    end
  end.
Definition to_positive_system (fuel : nat) (s : rootsys) (D : list nat) : res (list nat * list (nat * nat)) :=
  positive_steps fuel s D [].
(** rootdata.cpp:1451-1463, wrt_distinguished; simpleRootIndex is rootdata.h:267, its subtraction is in unsigned numbers
    and the assertion is not compiled: a root that is not positive is [Fail Range] here *)
Definition simple_index (s : rootsys) (a : nat) : res nat := if is_pos (num_pos s) a then Ok (a - num_pos s) else Fail Range.
Fixpoint letters (s : rootsys) (D : list nat) (steps : list (nat * nat)) : res (list nat) :=
  match steps with
  | [] => Ok []
  | (k, _) :: t => run a <- vget D k; run i <- simple_index s a; run l <- letters s D t; Ok (i :: l)
  end.
Definition wrt_distinguished (s : rootsys) (D : list nat) : res (list nat * list nat) :=
  run q <- to_positive_system (num_roots s) s D;
  let '(D1, steps) := q in
  run w <- letters s D1 (rev steps);
  Ok (D1, w).

(** rootdata.cpp:1473-1487, conjugate_to_simple; find_descent is rootdata.h:310-311 *)
Definition find_descent (s : rootsys) (a : nat) : res nat := run d <- descent_set s a; Ok (nfirst d).
Definition conjugate_to_simple (s : rootsys) (a : nat) : res (nat * list nat) :=
  run q <- loop (num_roots s)
    (fun '(a, w) => run i <- find_descent s a; Ok (negb (a =? pos_nr (num_pos s) i)))
    (fun '(a, w) => run i <- find_descent s a; run b <- simple_reflected s i a; Ok (b, w ++ [i]))
    (make_positive s a, []);
  let '(a, w) := q in
  run i <- find_descent s a;
  Ok (i, w).

(** rootdata.cpp:1489-1515, pos_to_neg: the permutations of the positive roots other than the simple one *)
Definition pos_perm (s : rootsys) (i : nat) : res (list nat) :=
  let np := num_pos s in
  upto np 0 (fun j p =>
    if j =? i then vput p j i
    else run a <- simple_reflected s i (pos_nr np j);
         if is_pos np a then vput p j (a - np) else Fail Range) (repeat 0 np).
Fixpoint pos_perms (s : rootsys) (k i : nat) : res (list (list nat)) :=
  match k with
  | O => Ok []
  | S m => run p <- pos_perm s i; run l <- pos_perms s m (S i); Ok (p :: l)
  end.
Definition bflip (b : bset) (x : nat) : res bset := vput b x (negb (bmem b x)).
Definition pos_to_neg (s : rootsys) (w : list nat) : res bset :=
  let np := num_pos s in
  run perms <- pos_perms s (s_rank s) 0;
  run cur <- upto (length w) 0 (fun k cur =>
    run i <- vget w k;
    run p <- vget perms i;
    run tmp <- each cur (fun r t => run x <- vget p r; bins t x) (repeat false np);
    bflip tmp i) (repeat false np);
  Ok (repeat false np ++ cur).

(** rootdata.cpp:1517-1543, components: the components connected to alpha, and the others *)
Fixpoint adhering (s : rootsys) (alpha : nat) (l : list bset) : res (list bset * list bset) :=
  match l with
  | [] => Ok ([], [])
  | c :: t =>
    run q <- sticks s alpha (members c);
    run r <- adhering s alpha t;
    let '(yes, no) := r in
    Ok (if q : bool then (c :: yes, no) else (yes, c :: no))
  end.
Definition bunion (a b : bset) : bset := map (fun '(x, y) => x || y) (combine a b).
Definition components (s : rootsys) (roots : bset) : res (list bset) :=
  each roots (fun alpha l =>
    run r <- adhering s alpha l;
    let '(yes, no) := r in
    run one <- bins (repeat false (length roots)) alpha;
    Ok (no ++ [fold_left bunion yes one])) [].

(** rootdata.cpp:1741-1759, is_long_root and is_long_coroot: whether a bracket with a negative root is below -1 *)
Fixpoint some_below (k j : nat) (br : nat -> res Z) : res bool :=
  match k with
  | O => Ok false
  | S m => run x <- br j; if (x <? -1)%Z then Ok true else some_below m (S j) br
  end.
Definition is_long_root (s : rootsys) (a : nat) : res bool :=
  run q <- conjugate_to_simple s a;
  let neg := num_pos s - 1 - fst q in
  some_below (num_pos s) 0 (fun j => bracket s neg j).
Definition is_long_coroot (s : rootsys) (a : nat) : res bool :=
  run q <- conjugate_to_simple s a;
  let neg := num_pos s - 1 - fst q in
  some_below (num_pos s) 0 (fun i => bracket s i neg).
