(** Class BitMap: sources/utilities/bitmap.h and bitmap.cpp.

    A bitmap is its capacity and its vector of 64-bit words (d_capacity, d_map).
    All indices are size_t; they are integers here and assumed not to exceed
    2^64 (a vector of that many bits cannot exist).  An access d_map[j] outside
    the vector is undefined behaviour and gives [None]. *)

From Coq Require Import ZArith List Bool.
From Verif Require Import BitsModel.
Import ListNotations.
Open Scope Z_scope.

Record bitmap := mkb { cap : Z; words : list Z }.

(** constants.cpp:60-67: eq_mask[j] = 1ul<<j; lt_mask[0] = 0,
    lt_mask[j+1] = lt_mask[j] | eq_mask[j]. *)
Definition eq_mask (j : Z) : Z := 2 ^ j.
Fixpoint lt_mask_nat (j : nat) : Z :=
  match j with O => 0 | S k => Z.lor (lt_mask_nat k) (2 ^ Z.of_nat k) end.
Definition lt_mask (j : Z) : Z := lt_mask_nat (Z.to_nat j).

(** n >> baseShift and n & posBits *)
Definition base (n : Z) : Z := n / 64.
Definition pos (n : Z) : Z := n mod 64.
(** (n+posBits) >> baseShift *)
Definition n_words (n : Z) : nat := Z.to_nat ((n + 63) / 64).

(** d_map[j], d_map[j] = f(d_map[j]) *)
Definition wget (m : list Z) (j : Z) : option Z := nth_error m (Z.to_nat j).
Definition wmod (f : Z -> Z) (m : list Z) (j : Z) : option (list Z) :=
  match wget m j with Some w => Some (upd m (Z.to_nat j) (f w)) | None => None end.
Definition shl (w k : Z) : Z := wrap64 (w * 2 ^ k).
Definition shr (w k : Z) : Z := w / 2 ^ k.

(** bitmap.h:85-87, the constructor. *)
Definition bm_make (n : Z) : bitmap := mkb n (repeat 0 (n_words n)).

(** bitmap.h:137-142, isMember.  Total: for n below the capacity the word exists
    by the class invariant; a missing word reads as 0. *)
Definition isMember (b : bitmap) (n : Z) : bool :=
  if cap b <=? n then false
  else negb (Z.land (nth (Z.to_nat (base n)) (words b) 0) (eq_mask (pos n)) =? 0).

(** bitmap.h:206-231, insert, remove, set_to, set_mod2, flip. *)
Definition on_map (b : bitmap) (o : option (list Z)) : option bitmap :=
  match o with Some m => Some (mkb (cap b) m) | None => None end.
Definition insert (b : bitmap) (n : Z) : option bitmap :=
  on_map b (wmod (fun w => Z.lor w (eq_mask (pos n))) (words b) (base n)).
Definition remove (b : bitmap) (n : Z) : option bitmap :=
  on_map b (wmod (fun w => Z.land w (not64 (eq_mask (pos n)))) (words b) (base n)).
Definition flip (b : bitmap) (n : Z) : option bitmap :=
  on_map b (wmod (fun w => Z.lxor w (eq_mask (pos n))) (words b) (base n)).
Definition set_to (b : bitmap) (n : Z) (v : bool) : option bitmap :=
  if v then insert b n else remove b n.
Definition set_mod2 (b : bitmap) (n v : Z) : option bitmap :=
  set_to b n (negb (Z.land v 1 =? 0)).

(** bitmap.h:90-107 and bitmap.cpp:526-533, insertion of a sequence. *)
Fixpoint insert_list (b : bitmap) (l : list Z) : option bitmap :=
  match l with
  | [] => Some b
  | n :: t => match insert b n with Some b' => insert_list b' t | None => None end
  end.
Definition bm_of_list (n : Z) (l : list Z) : option bitmap := insert_list (bm_make n) l.

(** bitmap.cpp:368-377, take_complement. *)
Fixpoint last_mod (f : Z -> Z) (m : list Z) : list Z :=
  match m with [] => [] | [w] => [f w] | w :: t => w :: last_mod f t end.
Definition take_complement (b : bitmap) : bitmap :=
  let m := map not64 (words b) in
  mkb (cap b) (if pos (cap b) =? 0 then m
               else last_mod (fun w => Z.land w (lt_mask (pos (cap b)))) m).

(** bitmap.cpp:380-427: &=, |=, ^=, andnot.  The loop runs over the words of
    [b]; if [b] is longer, the access to d_map is undefined. *)
Fixpoint zip_words (f : Z -> Z -> Z) (m b : list Z) : option (list Z) :=
  match b, m with
  | [], _ => Some m
  | y :: b', x :: m' => match zip_words f m' b' with Some r => Some (f x y :: r) | None => None end
  | _ :: _, [] => None
  end.
Definition bm_zip (f : Z -> Z -> Z) (a b : bitmap) : option bitmap :=
  on_map a (zip_words f (words a) (words b)).
Definition bm_or := bm_zip Z.lor.
Definition bm_xor := bm_zip Z.lxor.
Definition bm_andnot := bm_zip (fun x y => Z.land x (not64 y)).
(** &= also clears the rest and tells whether some word became nonzero *)
Fixpoint and_words (m b : list Z) : option (list Z * bool) :=
  match b, m with
  | [], _ => Some (map (fun _ => 0) m, false)
  | y :: b', x :: m' =>
      match and_words m' b' with
      | Some (r, any) => Some (Z.land x y :: r, negb (Z.land x y =? 0) || any)
      | None => None
      end
  | _ :: _, [] => None
  end.
Definition bm_and (a b : bitmap) : option (bitmap * bool) :=
  match and_words (words a) (words b) with
  | Some (m, any) => Some (mkb (cap a) m, any)
  | None => None
  end.

(** bitmap.cpp:429-449, operator<<=: words moved up by copy_backward and fill
    (undefined when delta exceeds the vector), then bits, from the top down. *)
Fixpoint shl_bits (r prev : Z) (m : list Z) : list Z :=
  match m with
  | [] => []
  | w :: t => Z.lor (shl w r) (shr prev (64 - r)) :: shl_bits r w t
  end.
(** the lowest word has nothing shifted in *)
Definition shl_all (r : Z) (m : list Z) : list Z :=
  match m with [] => [] | w :: t => shl w r :: shl_bits r w t end.
Definition shift_up (b : bitmap) (delta : Z) : option bitmap :=
  let r := pos delta in
  let d := Z.to_nat (base delta) in
  let m := words b in
  if (length m <? d)%nat then None
  else
    let m1 := repeat 0 d ++ firstn (length m - d) m in
    Some (mkb (cap b) (if r =? 0 then m1 else shl_all r m1)).

(** bitmap.cpp:451-471, operator>>=; the last word is shifted up ([<<=]) in the
    source, and so it is here. *)
Fixpoint shr_bits (r : Z) (m : list Z) : list Z :=
  match m with
  | [] => []
  | [w] => [shl w r]
  | w :: ((w' :: _) as t) => Z.lor (shr w r) (shl w' (64 - r)) :: shr_bits r t
  end.
Definition shift_down (b : bitmap) (delta : Z) : option bitmap :=
  let r := pos delta in
  let d := Z.to_nat (base delta) in
  let m := words b in
  if (length m <? d)%nat then None
  else
    let m1 := skipn d m ++ repeat 0 d in
    Some (mkb (cap b) (if r =? 0 then m1 else shr_bits r m1)).

(** bitmap.cpp:478-484, fill(); bitmap.h:235, reset. *)
Definition fill (b : bitmap) : bitmap :=
  let m := map (fun _ => not64 0) (words b) in
  mkb (cap b) (if pos (cap b) =? 0 then m else last_mod (fun _ => lt_mask (pos (cap b))) m).
Definition reset (b : bitmap) : bitmap := mkb (cap b) (map (fun _ => 0) (words b)).

(** bitmap.cpp:487-520, fill(start,stop) and clear(start,stop).
    [wmod_range f m i k]: k words from word i. *)
Fixpoint wmod_range (f : Z -> Z) (m : list Z) (i : Z) (k : nat) : option (list Z) :=
  match k with
  | O => Some m
  | S k' => match wmod f m i with Some m' => wmod_range f m' (i + 1) k' | None => None end
  end.
Definition range_op (one head : Z -> Z -> Z) (whole : Z -> Z) (b : bitmap) (start stop : Z) : option bitmap :=
  if stop <=? start then Some b
  else
    let bg := base start in
    let en := base stop in
    on_map b
      (if bg =? en then wmod (fun w => one w (shl (lt_mask (stop - start)) (pos start))) (words b) bg
       else
         match wmod (fun w => head w (lt_mask (pos start))) (words b) bg with
         | None => None
         | Some m1 =>
             match wmod_range whole m1 (bg + 1) (Z.to_nat (en - (bg + 1))) with
             | None => None
             | Some m2 =>
                 if pos stop =? 0 then Some m2
                 else wmod (fun w => one w (lt_mask (pos stop))) m2 en
             end
         end).
Definition fill_range : bitmap -> Z -> Z -> option bitmap :=
  range_op Z.lor (fun w msk => Z.lor w (not64 msk)) (fun _ => not64 0).
Definition clear_range : bitmap -> Z -> Z -> option bitmap :=
  range_op (fun w msk => Z.land w (not64 msk)) Z.land (fun _ => 0).

(** bitmap.cpp:542-550, set_capacity: resize keeps the first words and appends
    zeros. *)
Definition resize (m : list Z) (k : nat) : list Z := firstn k m ++ repeat 0 (k - length m).
Definition set_capacity (b : bitmap) (n : Z) : option bitmap :=
  let m := if (n <? cap b) && negb (pos n =? 0)
           then wmod (fun w => Z.land w (lt_mask (pos n))) (words b) (base n)
           else Some (words b) in
  match m with Some m => Some (mkb n (resize m (n_words n))) | None => None end.
(** bitmap.cpp:553-558, extend_capacity. *)
Definition extend_capacity (b : bitmap) (v : bool) : option bitmap :=
  let m := if cap b =? Z.of_nat (length (words b)) * 64 then words b ++ [0] else words b in
  set_to (mkb (cap b + 1) m) (cap b) v.

(** bitmap.cpp:568-575, setRange; 336-342, range. *)
Definition setRange (b : bitmap) (n r a : Z) : option bitmap :=
  on_map b (wmod (fun w =>
     Z.lor (Z.land w (not64 (shl (lt_mask r) (pos n)))) (shl (Z.land a (lt_mask r)) (pos n)))
     (words b) (base n)).
Definition range (b : bitmap) (n r : Z) : option Z :=
  match wget (words b) (base n) with
  | Some w => Some (Z.land (shr w (pos n)) (lt_mask r))
  | None => None
  end.

(** bitmap.cpp:350-359, size. *)
Definition size (b : bitmap) : Z := fold_left (fun c w => c + bitCount w) (words b) 0.

(** bitmap.cpp:310-322, position. *)
Fixpoint pos_loop (m : list Z) (j : Z) (k : nat) (p : Z) : option Z :=
  match k with
  | O => Some p
  | S k' => match wget m j with Some w => pos_loop m (j + 1) k' (p + bitCount w) | None => None end
  end.
Definition position (b : bitmap) (n : Z) : option Z :=
  match pos_loop (words b) 0 (Z.to_nat (base n)) 0 with
  | None => None
  | Some p =>
      if pos n =? 0 then Some p
      else match wget (words b) (base n) with
           | Some w => Some (p + bitCount (Z.land w (lt_mask (pos n))))
           | None => None
           end
  end.

(** bitmap.cpp:272-303, n_th. *)
Fixpoint clear_low (k : nat) (f : Z) : Z :=
  match k with O => f | S k' => clear_low k' (Z.land f (f - 1)) end.
Fixpoint nth_loop (m : list Z) (i p c : Z) : Z :=
  match m with
  | [] => c
  | w :: t =>
      let chunk := bitCount w in
      if i <? chunk then p + firstBit (clear_low (Z.to_nat i) w)
      else nth_loop t (i - chunk) (p + 64) c
  end.
Definition n_th (b : bitmap) (i : Z) : Z := nth_loop (words b) i 0 (cap b).

(** bitmap.cpp:228-238, front; 214-221, empty. *)
Fixpoint front_loop (m : list Z) (bt c : Z) : Z :=
  match m with
  | [] => c
  | w :: t => if w =? 0 then front_loop t (bt + 1) c else bt * 64 + firstBit w
  end.
Definition front (b : bitmap) : Z := front_loop (words b) 0 (cap b).
Definition empty (b : bitmap) : bool := forallb (fun w => w =? 0) (words b).

(** bitmap.cpp:245-261, full. *)
Definition full (b : bitmap) : bool :=
  if negb (pos (cap b) =? 0) && negb (List.last (words b) 0 =? lt_mask (pos (cap b))) then false
  else forallb (fun w => not64 w =? 0) (firstn (Z.to_nat (base (cap b))) (words b)).

(** bitmap.cpp:154-166, back_up.  The word index [i] is an unsigned int, and so
    is the value assigned to n: both are reduced modulo 2^32.  The result is the
    new n, or [None] inside for failure; outer [None] is undefined behaviour. *)
Definition w32 (x : Z) : Z := x mod 2 ^ 32.
Fixpoint back_loop (m : list Z) (i : nat) : option (option (nat * Z)) :=
  match i with
  | O => Some None
  | S i' =>
      match nth_error m i' with
      | None => None
      | Some w => if w =? 0 then back_loop m i' else Some (Some (i', w))
      end
  end.
Definition back_up (b : bitmap) (n : Z) : option (option Z) :=
  let i := w32 (base n) in
  let result (i w : Z) := Some (Some (w32 (i * 64 + lastBit w - 1))) in
  let down := match back_loop (words b) (Z.to_nat i) with
              | None => None
              | Some None => Some None
              | Some (Some (j, w)) => result (Z.of_nat j) w
              end in
  if pos n =? 0 then down
  else match wget (words b) i with
       | None => None
       | Some w => let m := Z.land w (lt_mask (pos n)) in if m =? 0 then down else result i m
       end.
(** bitmap.cpp:168-178, last (release build: the success flag is ignored). *)
Definition last (b : bitmap) : option Z :=
  match back_up b (cap b) with
  | None => None
  | Some None => Some (cap b)
  | Some (Some n) => Some n
  end.

(** bitmap.cpp:187-206, contains and disjoint. *)
Fixpoint contains_words (m b : list Z) : option bool :=
  match b, m with
  | [], _ => Some true
  | y :: b', x :: m' => if Z.land y (not64 x) =? 0 then contains_words m' b' else Some false
  | _ :: _, [] => None
  end.
Definition contains (a b : bitmap) : option bool := contains_words (words a) (words b).
Fixpoint disjoint_words (m b : list Z) : bool :=
  match m, b with
  | x :: m', y :: b' => if Z.land x y =? 0 then disjoint_words m' b' else false
  | _, _ => true
  end.
Definition disjoint (a b : bitmap) : bool := disjoint_words (words a) (words b).

(** bitmap.h:124-126: == compares the word vectors only; < is lexicographic. *)
Fixpoint words_eqb (m b : list Z) : bool :=
  match m, b with
  | [], [] => true
  | x :: m', y :: b' => (x =? y) && words_eqb m' b'
  | _, _ => false
  end.
Definition bm_eqb (a b : bitmap) : bool := words_eqb (words a) (words b).

(** bitmap.h:274-317, class BitMap::iterator: index of the current chunk, bit
    address, capacity. *)
Record iter := mki { chunk : Z; addr : Z; icap : Z }.
(** bitmap.cpp:124-128, begin. *)
Definition bm_begin (b : bitmap) : iter := mki (base (front b)) (front b) (cap b).
(** bitmap.h:307, operator()(): not at end. *)
Definition it_valid (i : iter) : bool := negb (addr i =? icap i).
(** bitmap.cpp:630-662, operator++; [m] is the current content of the vector the
    chunk pointer points into.  Every round of the do-loop moves to a new word,
    so length m + 1 rounds suffice; [None] is an access outside the vector. *)
Fixpoint inc_loop (m : list Z) (fuel : nat) (ch ad c : Z) : option iter :=
  match fuel with
  | O => None
  | S k =>
      let ad' := ad + 64 in
      if ad' <? c then
        match wget m (ch + 1) with
        | None => None
        | Some f => if f =? 0 then inc_loop m k (ch + 1) ad' c
                    else Some (mki (ch + 1) (ad' + firstBit f) c)
        end
      else Some (mki ch c c)
  end.
Definition it_next (m : list Z) (i : iter) : option iter :=
  match wget m (chunk i) with
  | None => None
  | Some w =>
      let f := shr (shr w (pos (addr i))) 1 in
      if f =? 0 then inc_loop m (S (length m)) (chunk i) (addr i - pos (addr i)) (icap i)
      else Some (mki (chunk i) (addr i + (firstBit f + 1)) (icap i))
  end.

(** The loop [for (it=b.begin(); it(); ++it) body( *it )] where the body may
    change the bitmap; returns the list of visited values and the final bitmap. *)
Fixpoint traverse (fuel : nat) (body : Z -> bitmap -> bitmap) (b : bitmap) (i : iter)
  : option (list Z * bitmap) :=
  match fuel with
  | O => None
  | S k =>
      if it_valid i then
        let b' := body (addr i) b in
        match it_next (words b') i with
        | None => None
        | Some i' => match traverse k body b' i' with
                     | Some (l, r) => Some (addr i :: l, r)
                     | None => None
                     end
        end
      else Some ([], b)
  end.
