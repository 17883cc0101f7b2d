(** Specification vocabulary for BitMap: sets of numbers as boolean functions. *)

From Coq Require Import ZArith List Bool.
From Verif Require Import BitsSpec BitmapModel.
Import ListNotations.
Open Scope Z_scope.

(** Number of i in [0,k) with P i. *)
Fixpoint count (P : Z -> bool) (k : nat) : Z :=
  match k with
  | O => 0
  | S j => count P j + (if P (Z.of_nat j) then 1 else 0)
  end.

(** The i in [lo,lo+k) with P i, in increasing order. *)
Fixpoint select (P : Z -> bool) (lo : Z) (k : nat) : list Z :=
  match k with
  | O => []
  | S j => if P lo then lo :: select P (lo + 1) j else select P (lo + 1) j
  end.

(** Bit n of the vector, whatever the capacity. *)
Definition raw (b : bitmap) (n : Z) : bool :=
  Z.testbit (nth (Z.to_nat (n / 64)) (words b) 0) (n mod 64).

(** Class invariant: number of words, words are 64-bit, unused bits are clear. *)
Definition wf (b : bitmap) : Prop :=
  0 <= cap b /\ Z.of_nat (length (words b)) = (cap b + 63) / 64 /\ Forall word (words b) /\
  forall n, cap b <= n -> raw b n = false.

(** The call succeeds with a well-formed bitmap of capacity c whose members are
    exactly the n with P n. *)
Definition gives (o : option bitmap) (c : Z) (P : Z -> bool) : Prop :=
  exists b, o = Some b /\ wf b /\ cap b = c /\ forall n, 0 <= n -> isMember b n = P n.

(** a is the least number >= lo with P a, or c if there is none below c. *)
Definition first_from (P : Z -> bool) (lo c a : Z) : Prop :=
  lo <= a <= c /\ (forall i, lo <= i < a -> P i = false) /\ (a < c -> P a = true).

(** Histories of modifying operations and their meaning on a pair
    (capacity, set of members). *)
Inductive op :=
| OInsert (n : Z) | ORemove (n : Z) | OFlip (n : Z) | OSetTo (n : Z) (v : bool)
| OInsertList (l : list Z)
| OAnd (b : bitmap) | OOr (b : bitmap) | OXor (b : bitmap) | OAndNot (b : bitmap)
| OComplement | OFill | OReset
| OFillRange (s e : Z) | OClearRange (s e : Z)
| OSetRange (n r a : Z)
| OSetCapacity (n : Z) | OExtend (v : bool).

Definition set_state := (Z * (Z -> bool))%type.
Definition op_set (o : op) (st : set_state) : set_state :=
  let '(c, P) := st in
  match o with
  | OInsert n => (c, fun i => (i =? n) || P i)
  | ORemove n => (c, fun i => negb (i =? n) && P i)
  | OFlip n => (c, fun i => xorb (i =? n) (P i))
  | OSetTo n v => (c, fun i => if i =? n then v else P i)
  | OInsertList l => (c, fun i => existsb (Z.eqb i) l || P i)
  | OAnd b => (c, fun i => P i && isMember b i)
  | OOr b => (c, fun i => P i || isMember b i)
  | OXor b => (c, fun i => xorb (P i) (isMember b i))
  | OAndNot b => (c, fun i => P i && negb (isMember b i))
  | OComplement => (c, fun i => (i <? c) && negb (P i))
  | OFill => (c, fun i => i <? c)
  | OReset => (c, fun _ => false)
  | OFillRange s e => (c, fun i => (s <=? i) && (i <? e) || P i)
  | OClearRange s e => (c, fun i => negb ((s <=? i) && (i <? e)) && P i)
  | OSetRange n r a => (c, fun i => if (n <=? i) && (i <? n + r) then Z.testbit a (i - n) else P i)
  | OSetCapacity n => (n, fun i => (i <? n) && P i)
  | OExtend v => (c + 1, fun i => if i =? c then v else P i)
  end.
(** Preconditions: the assertions and documented requirements of the source. *)
Definition op_legal (o : op) (c : Z) : Prop :=
  match o with
  | OInsert n | ORemove n | OFlip n | OSetTo n _ => 0 <= n < c
  | OInsertList l => Forall (fun n => 0 <= n < c) l
  | OAnd b | OOr b | OXor b | OAndNot b => wf b /\ cap b <= c
  | OComplement | OFill | OReset | OExtend _ => True
  | OFillRange s e | OClearRange s e => 0 <= s /\ e <= c
  | OSetRange n r a => 0 <= n < c /\ 0 <= r /\ 0 <= a /\ n mod 64 + r <= 64 /\ n + r <= c
  | OSetCapacity n => 0 <= n
  end.
Fixpoint legal_history (l : list op) (st : set_state) : Prop :=
  match l with
  | [] => True
  | o :: t => op_legal o (fst st) /\ legal_history t (op_set o st)
  end.
Definition history_set (l : list op) (st : set_state) : set_state :=
  fold_left (fun st o => op_set o st) l st.

(** The body of a traversal may change the bitmap at positions up to the
    current one only. *)
Definition mild (body : Z -> bitmap -> bitmap) : Prop :=
  forall a b, wf b -> 0 <= a < cap b -> wf (body a b) /\ cap (body a b) = cap b /\
    forall n, a < n -> isMember (body a b) n = isMember b n.
