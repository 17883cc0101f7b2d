(** Numbers as products of powers of the first primes; orders of Weyl groups. *)

From Coq Require Import List Arith ZArith Znumtheory Ascii.
Import ListNotations.
Open Scope Z_scope.

(** the primes below 37 *)
Definition the_primes : list Z := [2; 3; 5; 7; 11; 13; 17; 19; 23; 29; 31].

Fixpoint prod_powers (ps es : list Z) : Z :=
  match ps, es with
  | p :: ps', e :: es' => p ^ e * prod_powers ps' es'
  | _, _ => 1
  end.
(** [d] stands for the positive number [v] *)
Definition stands_for (d : list Z) (v : Z) : Prop :=
  length d = 11%nat /\ (forall e, In e d -> 0 <= e < 128) /\ prod_powers the_primes d = v.
(** all prime divisors of [a] are below 37 *)
Definition smooth (a : Z) : Prop := forall p, prime p -> (p | a) -> p < 37.

Definition product (l : list Z) : Z := fold_right Z.mul 1 l.
Fixpoint zfact (n : nat) : Z := match n with O => 1 | S m => Z.of_nat n * zfact m end.

(** Degrees of the basic polynomial invariants of the Weyl group; its order is their product.
    (Bourbaki, Lie V.6.2 and VI, tables) *)
Definition evens (n : nat) : list Z := map (fun i => 2 * Z.of_nat i) (seq 1 n).
Definition degrees (x : ascii) (r : nat) : list Z :=
  (match x with
   | "A" => map Z.of_nat (seq 2 r)
   | "B" | "C" => evens r
   | "D" => Z.of_nat r :: evens (r - 1)
   | "E" => match r with
            | 6 => [2; 5; 6; 8; 9; 12]%Z
            | 7 => [2; 6; 8; 10; 12; 14; 18]%Z
            | 8 => [2; 8; 12; 14; 18; 20; 24; 30]%Z
            | _ => []
            end%nat
   | "F" | "f" => [2; 6; 8; 12]%Z
   | "G" | "g" => [2; 6]%Z
   | _ => []
   end)%char.
Definition weyl_order (lt : list (ascii * nat)) : Z := product (map (fun '(x, r) => product (degrees x r)) lt).
(** simple types and one-dimensional tori, with their ranks *)
Definition is_simple (x : ascii) (r : nat) : Prop :=
  (match x with
   | "A" | "T" => 1 <= r
   | "B" | "C" => 2 <= r
   | "D" => 4 <= r
   | "E" => 6 <= r <= 8
   | "F" | "f" => r = 4
   | "G" | "g" => r = 2
   | _ => False
   end)%char%nat.
Definition total_rank (lt : list (ascii * nat)) : nat := fold_right (fun '(_, r) n => (r + n)%nat) 0%nat lt.
