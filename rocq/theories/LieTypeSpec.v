(** Cartan matrices of the simple types, and what a finite type is. *)

From Coq Require Import List Arith ZArith Bool Permutation.
From Verif Require Import LieTypeModel MatSpec.
Import ListNotations.
Local Open Scope Z_scope.

(** ** The Dynkin diagrams, in the numbering of Bourbaki shifted to start at 0.
    An entry is 2 on the diagonal; off it, the number of lines times -1 in the direction
    from the longer to the shorter root, and -1 in the other direction. *)
(** nodes joined in a line 0 - 1 - 2 - ... *)
Definition line (i j : nat) : bool := Nat.eqb (S i) j || Nat.eqb (S j) i.
(** the pair is (a,b), in this order; in some order *)
Definition is_pair (a b i j : nat) : bool := Nat.eqb i a && Nat.eqb j b.
Definition is_edge (a b i j : nat) : bool := is_pair a b i j || is_pair b a i j.
Definition bond (b : bool) : Z := if b then -1 else 0.
(** the simple Cartan matrix of type [X] and rank [n] *)
Definition std (X : letter) (n i j : nat) : Z :=
  if Nat.eqb i j then 2 else
  match X with
  | tA => bond (line i j)
  | tB => if is_pair (n - 2) (n - 1) i j then -2 else bond (line i j)
  | tC => if is_pair (n - 1) (n - 2) i j then -2 else bond (line i j)
  | tD => if is_edge (n - 2) (n - 1) i j then 0
          else if is_edge (n - 3) (n - 1) i j then -1 else bond (line i j)
  | tE => bond (existsb (fun e => is_edge (fst e) (snd e) i j) [(0, 2); (1, 3); (2, 3); (3, 4); (4, 5); (5, 6); (6, 7)]%nat)
  | tF => if is_pair 1 2 i j then -2 else bond (line i j)
  | tf => if is_pair 2 1 i j then -2 else bond (line i j)
  | tG => if is_pair 1 0 i j then -3 else bond (line i j)
  | tg => if is_pair 0 1 i j then -3 else bond (line i j)
  | tT => 0
  end.
(** torus factors have the zero matrix *)
Definition simple_matrix (s : simple) (i j : nat) : Z :=
  match fst s with tT => 0 | X => std X (snd s) i j end.
(** the ranks for which a letter names a simple type *)
Definition valid_rank (X : letter) (n : nat) : Prop :=
  match X with
  | tA => (1 <= n)%nat
  | tB | tC => (2 <= n)%nat
  | tD => (4 <= n)%nat
  | tE => (6 <= n <= 8)%nat
  | tF | tf => n = 4%nat
  | tG | tg => n = 2%nat
  | tT => (1 <= n)%nat
  end.
Definition valid_type (lt : lietype) : Prop := Forall (fun s => valid_rank (fst s) (snd s)) lt.
Definition semisimple (lt : lietype) : Prop := Forall (fun s => fst s <> tT) lt.

(** ** Products: block diagonal matrices *)
Fixpoint total (lt : lietype) : nat := match lt with [] => 0%nat | s :: rest => (snd s + total rest)%nat end.
Fixpoint block_diagonal (lt : lietype) (i j : nat) : Z :=
  match lt with
  | [] => 0
  | s :: rest =>
    if Nat.ltb i (snd s) && Nat.ltb j (snd s) then simple_matrix s i j
    else if Nat.ltb i (snd s) || Nat.ltb j (snd s) then 0
    else block_diagonal rest (i - snd s) (j - snd s)
  end.
(** without the torus factors *)
Definition derived (lt : lietype) : lietype := filter (fun s => negb (leqb (fst s) tT)) lt.

(** ** Cartan matrices *)
(** the conditions on a generalised Cartan matrix *)
Definition Cartan_like (n : nat) (f : nat -> nat -> Z) : Prop :=
  (forall i, (i < n)%nat -> f i i = 2) /\
  (forall i j, (i < n)%nat -> (j < n)%nat -> i <> j -> f i j <= 0) /\
  (forall i j, (i < n)%nat -> (j < n)%nat -> f i j = 0 -> f j i = 0).
(** [pi] lists the numbers below [n] *)
Definition permutes (n : nat) (pi : list nat) : Prop := Permutation pi (seq 0 n).
(** renumbering its indices by [pi] turns [f] into the matrix of [lt] *)
Definition straightens (n : nat) (f : nat -> nat -> Z) (lt : lietype) (pi : list nat) : Prop :=
  total lt = n /\ permutes n pi /\
  forall i j, (i < n)%nat -> (j < n)%nat -> f (nth i pi 0%nat) (nth j pi 0%nat) = block_diagonal lt i j.
(** different names for one type, up to the order of the nodes: B2 is C2, and [tf], [tg] are
    [tF], [tG] with the nodes in the opposite order *)
Definition canonical (s : simple) : simple :=
  match s with
  | (tC, 2%nat) => (tB, 2%nat)
  | (tf, n) => (tF, n)
  | (tg, n) => (tG, n)
  | _ => s
  end.
(** a Cartan matrix of finite type *)
Definition finite_type (n : nat) (f : nat -> nat -> Z) : Prop :=
  exists lt pi, valid_type lt /\ semisimple lt /\ straightens n f lt pi.

(** the quadratic form given by a matrix *)
Definition qform (n : nat) (f : nat -> nat -> Z) (x : nat -> Z) : Z :=
  zsum n (fun i => zsum n (fun j => f i j * x i * x j)).
(** positive definite after multiplying the rows by positive numbers that make it symmetric *)
Definition positive_definite (n : nat) (f : nat -> nat -> Z) : Prop :=
  exists d : nat -> Z,
    (forall i, (i < n)%nat -> 0 < d i) /\
    (forall i j, (i < n)%nat -> (j < n)%nat -> d i * f i j = d j * f j i) /\
    (forall x, (exists i, (i < n)%nat /\ x i <> 0) -> 0 < qform n (fun i j => d i * f i j) x).

(** ** Inner classes *)
(** minus the longest element of the Weyl group, as a permutation of the nodes *)
Definition opposition (X : letter) (r i : nat) : nat :=
  match X with
  | tA => r - 1 - i
  | tD => if Nat.odd r then (if Nat.eqb i (r - 2) then r - 1 else if Nat.eqb i (r - 1) then r - 2 else i) else i
  | tE => if Nat.eqb r 6 then nth i [5; 1; 4; 3; 2; 0] i else i
  | _ => i
  end%nat.
(** letters that fit the factors: C for two equal factors, u for D with an even rank *)
Fixpoint valid_inner (ict : list icl) (lt : lietype) : Prop :=
  match ict, lt with
  | [], [] => True
  | (ic | is) :: ict', _ :: lt' => valid_inner ict' lt'
  | iC :: ict', s :: s' :: lt' => s = s' /\ valid_inner ict' lt'
  | iu :: ict', (tD, r) :: lt' => Nat.even r = true /\ valid_inner ict' lt'
  | _, _ => False
  end.
(** the distinguished involution permutes the nodes, up to a sign for the torus factors *)
Fixpoint inner_map (ict : list icl) (lt : lietype) (i : nat) : nat * Z :=
  match ict, lt with
  | x :: ict', (X, r) :: lt' =>
    let next k lt1 := let '(j, e) := inner_map ict' lt1 (i - k) in ((k + j)%nat, e) in
    match x with
    | ic => if Nat.ltb i r then (i, 1) else next r lt'
    | is => if Nat.ltb i r then (opposition X r i, match X with tT => -1 | _ => 1 end) else next r lt'
    | iu => if Nat.ltb i r then ((if Nat.eqb i (r - 2) then r - 1 else if Nat.eqb i (r - 1) then r - 2 else i)%nat, 1)
            else next r lt'
    | iC => if Nat.ltb i r then ((r + i)%nat, 1) else if Nat.ltb i (r + r) then ((i - r)%nat, 1) else next (r + r)%nat (tl lt')
    | ie => (i, 1)
    end
  | _, _ => (i, 1)
  end.
(** the simple types with an involution that is not inner; of the tori only the one of rank 1 *)
Definition unequal_exists (s : simple) : Prop :=
  match fst s with tA => (1 <= snd s)%nat | tD => (4 <= snd s)%nat | tE => snd s = 6%nat | tT => snd s = 1%nat | _ => False end.
