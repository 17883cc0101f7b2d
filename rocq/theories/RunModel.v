(** Computations that may end abnormally, for the models of matrices below.

    [Fail Range] stands for access outside a vector, or a division by zero (both
    undefined behaviour in C++); [Fail Overflow] for a signed integer operation whose
    exact result is not a value of its type (undefined as well); [Fail Thrown] for a
    C++ exception; [Fail Fuel] for a loop that would need more rounds than it was given.
    Indices and sizes are [nat]. *)

From Coq Require Import List Arith.
From Verif Require Import VecModel.
Import ListNotations.

Inductive err := Range | Overflow | Thrown | Fuel.
Inductive res (A : Type) := Ok (a : A) | Fail (e : err).
Arguments Ok {A}. Arguments Fail {A}.

Definition bind {A B} (m : res A) (k : A -> res B) : res B :=
  match m with Ok a => k a | Fail e => Fail e end.
Declare Scope run_scope.
Notation "'run' x <- a ; b" := (bind a (fun x => b))
  (at level 200, x pattern, a at level 100, b at level 200) : run_scope.
Open Scope run_scope.

(** v[i], v[i]=x *)
Definition vget {A} (v : list A) (i : nat) : res A :=
  match get v i with Some x => Ok x | None => Fail Range end.
Definition vput {A} (v : list A) (i : nat) (x : A) : res (list A) :=
  match put v i x with Some w => Ok w | None => Fail Range end.
(** a computation of VecModel (or of another area) *)
Definition of_option {A} (o : option A) : res A :=
  match o with Some x => Ok x | None => Fail Range end.

(** for (i=from; i<from+n; ++i) s=body(i,s) *)
Fixpoint upto {S} (n from : nat) (body : nat -> S -> res S) (s : S) : res S :=
  match n with
  | O => Ok s
  | Datatypes.S m => run s' <- body from s; upto m (Datatypes.S from) body s'
  end.
(** for (i=n; i-->0; ) s=body(i,s) *)
Fixpoint downto {S} (n : nat) (body : nat -> S -> res S) (s : S) : res S :=
  match n with
  | O => Ok s
  | Datatypes.S m => run s' <- body m s; downto m body s'
  end.
(** while (cond(s)) s=body(s) *)
Fixpoint loop {S} (fuel : nat) (cond : S -> res bool) (body : S -> res S) (s : S) : res S :=
  run c <- cond s;
  if c : bool then
    match fuel with
    | O => Fail Fuel
    | Datatypes.S k => run s' <- body s; loop k cond body s'
    end
  else Ok s.

(** normal results satisfy [P], abnormal endings satisfy [E] *)
Definition gives {A} (m : res A) (P : A -> Prop) (E : err -> Prop) : Prop :=
  match m with Ok a => P a | Fail e => E e end.
