(** Coxeter groups given by generators and relations, and reflection actions *)

From Coq Require Import List Arith ZArith Bool Ascii Permutation.
From Verif Require Import RunModel WeylModel.
Import ListNotations.
Open Scope nat_scope.

(** the word of [k] letters s, t, s, t, ... *)
Fixpoint alt (k s t : nat) : list nat := match k with O => [] | S k => s :: alt k t s end.
(** Words in the generators [0..n-1] representing the same element of the group with
    relations ss=1 and sts... = tst... ([m s t] letters on both sides) *)
Inductive same (n : nat) (m : nat -> nat -> nat) : list nat -> list nat -> Prop :=
| same_refl u : same n m u u
| same_sym u v : same n m u v -> same n m v u
| same_trans u v w : same n m u v -> same n m v w -> same n m u w
| same_app u u' v v' : same n m u u' -> same n m v v' -> same n m (u ++ v) (u' ++ v')
| same_square s : s < n -> same n m [s; s] []
| same_braid s t : s < n -> t < n -> s <> t -> same n m (alt (m s t) s t) (alt (m s t) t s).

Definition over (n : nat) (u : list nat) : Prop := forall s, In s u -> s < n.
(** [k] is the least number of letters of a word representing the same element as [u] *)
Definition shortest (n : nat) (m : nat -> nat -> nat) (u : list nat) (k : nat) : Prop :=
  (exists v, over n v /\ same n m u v /\ length v = k) /\ forall v, over n v -> same n m u v -> k <= length v.

(** Coxeter matrix of a Cartan matrix of finite type *)
Definition bond (x : Z) : nat := match x with 0%Z => 2 | 1%Z => 3 | 2%Z => 4 | 3%Z => 6 | _ => 0 end.
Definition coxeter (A : nat -> nat -> Z) (i j : nat) : nat := bond (A i j * A j i)%Z.
(** reflection number [i] for a weight with coordinates [v] (values on the simple coroots);
    [A i j] is the value of simple root [i] on simple coroot [j] *)
Definition reflect (A : nat -> nat -> Z) (i : nat) (v : nat -> Z) : nat -> Z := fun j => (v j - v i * A i j)%Z.
(** the letters act from left to right *)
Definition reflect_word (A : nat -> nat -> Z) (u : list nat) (v : nat -> Z) : nat -> Z :=
  fold_left (fun v i => reflect A i v) u v.

(** Cartan matrices of simple types, in the numbering of Bourbaki (from 0) *)
Definition edge (l : list (nat * nat)) (i j : nat) : bool :=
  existsb (fun '(a, b) => ((a =? i) && (b =? j)) || ((a =? j) && (b =? i))) l.
Definition next_to (i j : nat) : bool := (S i =? j) || (S j =? i).
Definition cartan (type : ascii) (r i j : nat) : Z :=
  if i =? j then 2%Z
  else
    (match type with
     | "A"%char => if next_to i j then -1 else 0
     | "B"%char => if next_to i j then (if (S j =? r)%nat then -2 else -1) else 0
     | "C"%char => if next_to i j then (if (S i =? r)%nat then -2 else -1) else 0
     | "D"%char => if (next_to i j && (S i <? r)%nat && (S j <? r)%nat) || edge [(r - 3, r - 1)]%nat i j then -1 else 0
     | "E"%char => if edge [(0, 2); (1, 3); (2, 3); (3, 4); (4, 5); (5, 6); (6, 7)]%nat i j then -1 else 0
     | "F"%char => if next_to i j then (if (i =? 1)%nat && (j =? 2)%nat then -2 else -1) else 0
     | "G"%char => if (i =? 1)%nat && (j =? 0)%nat then -3 else if (i =? 0)%nat && (j =? 1)%nat then -1 else 0
     | _ => 0
     end)%Z.
Definition simple_type (type : ascii) (r : nat) : Prop :=
  match type with
  | "A"%char => 1 <= r
  | "B"%char | "C"%char => 2 <= r
  | "D"%char => 4 <= r
  | "E"%char => r = 6 \/ r = 7 \/ r = 8
  | "F"%char => r = 4
  | "G"%char => r = 2
  | _ => False
  end.

(** *** decomposition of a Cartan matrix into components *)
(** type letter, first number, and generators in the order of Bourbaki *)
Definition consecutive {C} (offset : C -> nat) (position : C -> list nat) : nat -> list C -> Prop :=
  fix f a l := match l with [] => True | c :: l => offset c = a /\ f (a + length (position c)) l end.
(** [comps] describes the Cartan matrix [A] of size [n] *)
Definition describes (n : nat) (A : nat -> nat -> Z) (comps : list component) : Prop :=
  consecutive c_offset c_position 0 comps /\ Permutation (concat (map c_position comps)) (seq 0 n) /\
  (forall c, In c comps -> simple_type (c_type c) (length (c_position c)) /\
     forall i j p q, nth_error (c_position c) i = Some p -> nth_error (c_position c) j = Some q -> A p q = cartan (c_type c) (length (c_position c)) i j) /\
  (forall c d p q, In c comps -> In d comps -> c_offset c <> c_offset d -> In p (c_position c) -> In q (c_position d) -> A p q = 0%Z).

(** renaming of the letters of a word by a table *)
Definition relabel (f u : list nat) : list nat := map (fun s => nth s f 0) u.
(** [W] is the model of the Weyl group of the Cartan matrix [A] of size [n] *)
Definition weyl_of (n : nat) (A : nat -> nat -> Z) (W : weyl_group) : Prop :=
  exists comps, describes n A comps /\ n <= 32 /\ make_weyl n comps = Ok W.
