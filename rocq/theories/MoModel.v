(** Orthogonal sets of roots: long_orthogonalize of sources/structure/rootdata.cpp and max_orth of
    sources/structure/gradings.cpp.

    Sets are lists of bits as in [RootModel], where an iterator over a set looks at the current bits. *)

From Coq Require Import List Arith ZArith Bool.
From Verif Require Import VecModel RunModel MatModel RootModel.
Import ListNotations.
Local Open Scope nat_scope.

(** rootdata.cpp:788-789, the search by the inner loop; the set does not change before the loop is left *)
Fixpoint partner (s : rootsys) (it : nat) (l : list nat) : res (option nat) :=
  match l with
  | [] => Ok None
  | jt :: t => run u <- sum_is_root s it jt; if u : bool then Ok (Some jt) else partner s it t
  end.
(** rootdata.cpp:791-796: both terms of the sum look at the sign of [*it].  rootdata.h:270-274, posroot_index and
    negroot_index are differences of unsigned numbers, so that posroot_index of a negative root is outside the table *)
Definition term (s : rootsys) (it a : nat) : res (list Z) :=
  if is_pos (num_pos s) it
  then if is_pos (num_pos s) a then run x <- vget (s_ri s) (a - num_pos s); Ok (r_root x) else Fail Range
  else if is_pos (num_pos s) a then Fail Range else run x <- vget (s_ri s) (num_pos s - 1 - a); Ok (neg8 (r_root x)).
(** rootdata.cpp:790-802, the replacement of [*it] and [*jt] *)
Definition replace (s : rootsys) (it jt : nat) (result : bset) : res bset :=
  run v <- term s it it;
  run w <- term s it jt;
  run gamma <- lookup_root s (add8 v w);
  run r1 <- bins result gamma;
  run d <- reflected s jt gamma;
  run r2 <- bins r1 d;
  run r3 <- brem r2 it;
  brem r3 jt.
(** rootdata.cpp:784-805, long_orthogonalize *)
Definition long_orthogonalize (s : rootsys) (rset : bset) : res bset :=
  upto (length rset) 0 (fun it result =>
    if bmem result it then
      run p <- partner s it (filter (bmem result) (seq 0 it));
      match p with None => Ok result | Some jt => replace s it jt result end
    else Ok result) rset.

(** bitmap.h:227-231, flip; bitmap.cpp, the operation &= *)
Definition bflip (b : bset) (x : nat) : res bset := run t <- vget b x; vput b x (negb t).
Definition band (b c : bset) : bset := map (fun '(x, y) => x && y) (combine b c).
(** gradings.cpp:66-71, the loop over [sub] *)
Definition orth_pass (s : rootsys) (alpha : nat) (ncr sub : bset) : res (bset * bset) :=
  upto (length sub) 0 (fun it '(ncr, sub) =>
    if bmem sub it then
      run o <- is_orthogonal s alpha it;
      if o : bool then
        run u <- sum_is_root s alpha it;
        if u : bool then run ncr1 <- bflip ncr it; Ok (ncr1, sub) else Ok (ncr, sub)
      else run sub1 <- brem sub it; Ok (ncr, sub1)
    else Ok (ncr, sub)) (ncr, sub).
(** gradings.cpp:61-74, the loop that selects roots *)
Fixpoint orth_loop (s : rootsys) (fuel : nat) (ncr sub result : bset) : res bset :=
  match fuel with
  | 0 => Fail Fuel
  | S fuel =>
    match members ncr with
    | [] => Ok result
    | alpha :: _ =>
      run result1 <- bins result alpha;
      run (ncr1, sub1) <- orth_pass s alpha ncr sub;
      orth_loop s fuel (band ncr1 sub1) sub1 result1
    end
  end.
(** gradings.cpp:50-77, max_orth *)
Definition max_orth (s : rootsys) (non_compact subsys : bset) : res bset :=
  run l <- orth_loop s (S (num_roots s)) (band non_compact (posroot_set s)) (band subsys (posroot_set s)) (repeat false (num_roots s));
  long_orthogonalize s l.
