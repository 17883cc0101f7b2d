(** Checked access to [std::vector] and counted loops, shared by the models below.
    Reading or writing outside a vector is undefined behaviour in C++; here it
    gives [None], and so does running out of fuel in a [while] loop. Indices are
    [nat]: the vectors concerned are shorter than the range of their index type. *)

From Coq Require Import List Arith.
Import ListNotations.

Declare Scope vec_scope.
Notation "'do' x <- a ; b" := (match a with Some x => b | None => None end)
  (at level 200, x pattern, a at level 100, b at level 200) : vec_scope.
Open Scope vec_scope.

(** v[i] as a value *)
Definition get {A} (v : list A) (i : nat) : option A := nth_error v i.
(** v[i]=x *)
Fixpoint put {A} (v : list A) (i : nat) (x : A) : option (list A) :=
  match v, i with
  | [], _ => None
  | _ :: t, O => Some (x :: t)
  | h :: t, S k => do t' <- put t k x; Some (h :: t')
  end.
(** for (i=from; i<from+n; ++i) s=body(i,s) *)
Fixpoint for_up {S} (n from : nat) (body : nat -> S -> option S) (s : S) : option S :=
  match n with
  | O => Some s
  | Datatypes.S m => do s' <- body from s; for_up m (Datatypes.S from) body s'
  end.
(** for (i=n; i-->0; ) s=body(i,s) *)
Fixpoint for_down {S} (n : nat) (body : nat -> S -> option S) (s : S) : option S :=
  match n with
  | O => Some s
  | Datatypes.S m => do s' <- body m s; for_down m body s'
  end.
(** for (auto x : l) s=body(x,s) *)
Fixpoint for_each {A S} (l : list A) (body : A -> S -> option S) (s : S) : option S :=
  match l with
  | [] => Some s
  | x :: t => do s' <- body x s; for_each t body s'
  end.
(** while (cond(s)) s=body(s); [None] if more than fuel rounds are needed *)
Fixpoint while {S} (fuel : nat) (cond : S -> option bool) (body : S -> option S) (s : S) : option S :=
  do c <- cond s;
  if c : bool then
    match fuel with
    | O => None
    | Datatypes.S k => do s' <- body s; while k cond body s'
    end
  else Some s.
(** std::swap(v[i],v[j]) *)
Definition vswap {A} (v : list A) (i j : nat) : option (list A) :=
  do x <- get v i; do y <- get v j; do w <- put v i y; put w j x.
