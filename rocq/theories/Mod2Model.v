(** Model of incremental linear systems over the field with two elements:
    sources/utilities/mod2_system.h and mod2_system.cpp.

    A [BitMap] of capacity [n] is the number whose binary digits are its bits (BitmapModel.v
    treats the words in which they are stored); setting a bit at a position [n] or beyond
    is outside the contract and gives [Fail Range]. Of right hand sides only the parity
    is kept, as a boolean (the field [rhs] is 0 or 1, and the sums formed in [add] and
    [a_solution] are used only modulo 2). Assertions are not part of the code. *)

From Coq Require Import List Arith NArith Bool.
From Verif Require Import VecModel RunModel F2Model.
Import ListNotations.
Open Scope nat_scope.

(** mod2_system.h:26-30: [lhs] lists the unknowns *)
Record equation := mk_eq { lhs : list nat; rhs : bool }.
(** mod2_system.h:32-34: [None] is [no_pivot] *)
Record system := mk_sys { eqns : list equation; pivot_index : list (option nat) }.
(** mod2_system.h:38 *)
Definition m2_empty : system := mk_sys [] [].
(** mod2_system.cpp:32-33 *)
Definition m2_size (s : system) : nat := length (pivot_index s).
(** mod2_system.cpp:35-40 *)
Definition extend (s : system) (n : nat) : nat * system :=
  (m2_size s, mk_sys (eqns s) (pivot_index s ++ repeat None n)).
(** mod2_system.cpp:70-74 *)
Definition consistent (s : system) : bool :=
  match rev (eqns s) with [] => true | e :: _ => match lhs e with [] => false | _ => true end end.

(** bitmap.h:137-142, 206-210, 227-231 *)
Definition isMember (n : nat) (b : N) (i : nat) : bool := (i <? n) && bit b i.
Definition bmap_insert (n : nat) (b : N) (i : nat) : res N := assign n b i true.
Definition bmap_flip (n : nat) (b : N) (i : nat) : res N := run c <- test n b i; assign n b i (negb c).
(** the first unknown eqn.lhs[0] *)
Definition pivot (e : equation) : res nat := vget (lhs e) 0.

(** mod2_system.cpp:76-86: the new [dst], and the right hand side *)
Definition eliminate (s : system) (inx : nat) (dst : N) : res (N * bool) :=
  run e <- vget (eqns s) inx;
  run dst <- each (lhs e) (fun i dst => bmap_flip (m2_size s) dst i) dst;
  Ok (dst, rhs e).

(** mod2_system.cpp:43-68 *)
Definition add (s : system) (l : list nat) (r : bool) : res (bool * system) :=
  if negb (consistent s) then Ok (false, s)
  else
    run row <- each l (fun i b => bmap_insert (m2_size s) b i) 0%N;
    run (row, r) <- upto (length (eqns s)) 0 (fun i '(row, r) =>
      run e <- vget (eqns s) i; run p <- pivot e;
      if isMember (m2_size s) row p then run (row, r') <- eliminate s i row; Ok (row, xorb r r') else Ok (row, r)) (row, r);
    if (row =? 0)%N && negb r then Ok (true, s)
    else
      let our_index := length (eqns s) in
      let eq := mk_eq [] r in
      let s := mk_sys (eqns s ++ [eq]) (pivot_index s) in
      match lhs eq with (* "if (eq.lhs.empty())" *)
      | [] => Ok (false, s)
      | _ =>
          let eq := mk_eq (positions (m2_size s) row) r in
          run es <- vput (eqns s) our_index eq;
          run p <- pivot eq;
          run pi <- vput (pivot_index s) p (Some our_index);
          Ok (true, mk_sys es pi)
      end.

(** mod2_system.cpp:88-96: [None] is ~0ul *)
Definition m2_rank (s : system) : option nat := if consistent s then Some (length (eqns s)) else None.
Definition m2_dimension (s : system) : option nat := if consistent s then Some (m2_size s - length (eqns s)) else None.

(** mod2_system.cpp:98-114 *)
Definition a_solution (s : system) : res N :=
  downto (length (eqns s)) (fun inx result =>
    run e <- vget (eqns s) inx;
    match lhs e with
    | [] => Fail Range
    | p :: others => assign (m2_size s) result p (fold_left (fun v i => xorb v (isMember (m2_size s) result i)) others (rhs e))
    end) 0%N.

(** mod2_system.cpp:116-143 *)
Definition reduce (s : system) : res system :=
  run (s, _) <- downto (length (eqns s)) (fun inx '(s, cols) =>
    run e <- vget (eqns s) inx;
    run row <- each (lhs e) (fun i b => bmap_insert (m2_size s) b i) 0%N;
    let to_clear := N.land row cols in
    run cols <- bmap_insert (m2_size s) cols (firstBit row);
    match positions (m2_size s) to_clear with
    | [] => Ok (s, cols)
    | l =>
        run (row, r) <- each l (fun p '(row, r) =>
          run oj <- vget (pivot_index s) p; run j <- of_option oj;
          run (row, r') <- eliminate s j row; Ok (row, xorb r r')) (row, rhs e);
        run es <- vput (eqns s) inx (mk_eq (positions (m2_size s) row) r);
        Ok (mk_sys es (pivot_index s), cols)
    end) (s, 0%N);
  Ok s.

(** mod2_system.cpp:145-174 *)
Definition solution_basis (s : system) : res (list N * system) :=
  run s <- reduce s;
  let n := m2_size s in
  run (result, result_inx) <- upto n 0 (fun j '(result, result_inx) =>
    run o <- vget (pivot_index s) j;
    match o with
    | Some _ => Ok (result, result_inx)
    | None =>
        run ri <- vput result_inx j (Some (length result));
        run v <- bmap_insert n 0%N j;
        Ok (result ++ [v], ri)
    end) ([], repeat None n);
  run result <- upto (length (eqns s)) 0 (fun i result =>
    run e <- vget (eqns s) i;
    match lhs e with
    | [] => Fail Range
    | p :: others => each others (fun q result =>
        run o <- vget result_inx q; run k <- of_option o;
        run v <- vget result k; run v <- bmap_insert n v p; vput result k v) result
    end) result;
  Ok (result, s).
