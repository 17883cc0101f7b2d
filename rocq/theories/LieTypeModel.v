(** Lie types: sources/structure/lietype.h and lietype.cpp.

    An [unsigned int] rank or index is a [nat]; a subtraction that can go below zero is
    taken modulo 2^32 ([sub32]), and so is the product of determinants.  Matrices are
    those of [MatModel]; writing outside a matrix or vector is [Fail Range].  The calls
    [assert] are not compiled in the release build, so what follows them is modelled. *)

From Coq Require Import List Arith ZArith Bool.
From Verif Require Import VecModel RunModel MatModel.
Import ListNotations.

(** TypeLetter, sources/Atlas.h (a char): the ten letters in use *)
Inductive letter := tA | tB | tC | tD | tE | tF | tG | tT | tf | tg.
(** the character codes, for the comparison [tp<'D'] *)
Definition code (x : letter) : Z :=
  match x with tA => 65 | tB => 66 | tC => 67 | tD => 68 | tE => 69 | tF => 70 | tG => 71
             | tT => 84 | tf => 102 | tg => 103 end.
Definition leqb (x y : letter) : bool := (code x =? code y)%Z.

(** lietype.h:74-87, SimpleLieType: a letter and a rank; lietype.h:89-106, LieType *)
Definition simple := (letter * nat)%type.
Definition lietype := list simple.

(** a-b for unsigned int *)
Definition sub32 (a b : nat) : Z := ((Z.of_nat a - Z.of_nat b) mod 4294967296)%Z.

(** lietype.cpp:119-130, dispatch: [min] is the smaller index, [d] the distance,
    [lower] tells whether the row index is the smaller one *)
Definition dispatch (tp : letter) (r min d : nat) (lower : bool) : Z :=
  (let m := Z.of_nat min in
  if Nat.eqb d 0 then 2
  else if leqb tp tD then
    (if (if m <? sub32 r 3 then Nat.eqb d 1 else m =? sub32 r 3) then -1 else 0)
  else if leqb tp tE then (if Nat.eqb d (if Nat.ltb min 2 then 2 else 1) then -1 else 0)
  else if Nat.eqb d 2 then 0
  else if code tp <? code tD then
    (if leqb tp tA || (m <? sub32 r 2) || Bool.eqb lower (leqb tp tC) then -1 else -2)
  else if leqb tp tF || leqb tp tf then
    (if negb (Nat.eqb min 1) || Bool.eqb lower (leqb tp tf) then -1 else -2)
  else (if Bool.eqb lower (leqb tp tG) then -1 else -3))%Z.

(** lietype.cpp:132-141, SimpleLieType::Cartan_entry *)
Definition simple_entry (s : simple) (i j : nat) : Z :=
  if leqb (fst s) tT then 0%Z
  else let '(min, d) := if i <? j then (i, j - i) else (j, i - j) in
       if 2 <? d then 0%Z else dispatch (fst s) (snd s) min d (i <? j).

(** lietype.cpp:144-167, LieType::Cartan_entry: the loop over the factors; an index
    out of bounds gives 0 *)
Fixpoint lt_scan (lt : lietype) (min d : nat) (lower : bool) : Z :=
  match lt with
  | [] => 0%Z
  | (tp, r) :: rest =>
    if r <=? min then lt_scan rest (min - r) d lower
    else if (r <=? min + d) || leqb tp tT then 0%Z
    else dispatch tp r min d lower
  end.
Definition lt_entry (lt : lietype) (i j : nat) : Z :=
  let '(min, d) := if i <? j then (i, j - i) else (j, i - j) in
  if 2 <? d then 0%Z else lt_scan lt min d (i <? j).

(** a matrix filled entry by entry: for (i<r) for (j<r) result(i,j)=f(i,j) *)
Definition fill_block (off r : nat) (f : nat -> nat -> Z) (M : matrix Z) : res (matrix Z) :=
  upto r 0 (fun i M1 => upto r 0 (fun j M2 => mput M2 (off + i) (off + j) (f i j)) M1) M.

(** lietype.cpp:169-177, 192-200, SimpleLieType::Cartan_matrix, transpose_Cartan_matrix *)
Definition simple_Cartan (s : simple) : res (matrix Z) :=
  fill_block 0 (snd s) (simple_entry s) (mat_fill (snd s) (snd s) 0%Z).
Definition simple_transpose_Cartan (s : simple) : res (matrix Z) :=
  fill_block 0 (snd s) (fun i j => simple_entry s j i) (mat_fill (snd s) (snd s) 0%Z).

(** lietype.cpp:179-190, SimpleLieType::Cartan_determinant *)
Definition simple_det (s : simple) : Z :=
  match fst s with
  | tA => ((Z.of_nat (snd s) + 1) mod 4294967296)%Z
  | tB | tC => 2%Z
  | tD => 4%Z
  | tE => sub32 9 (snd s)
  | _ => 1%Z
  end.

(** lietype.h:82, semisimple_rank of a simple factor; lietype.cpp:236-251, rank and
    semisimple_rank of a Lie type *)
Definition simple_ss_rank (s : simple) : nat := if leqb (fst s) tT then 0 else snd s.
Definition lt_rank (lt : lietype) : nat := fold_left (fun r s => r + snd s) lt 0.
Definition lt_ss_rank (lt : lietype) : nat := fold_left (fun r s => r + simple_ss_rank s) lt 0.

(** lietype.cpp:202-216, LieType::true_Cartan_matrix *)
Fixpoint true_Cartan_from (lt : lietype) (offset : nat) (M : matrix Z) : res (matrix Z) :=
  match lt with
  | [] => Ok M
  | s :: rest =>
    if leqb (fst s) tT then true_Cartan_from rest offset M
    else run M1 <- fill_block offset (snd s) (simple_entry s) M;
         true_Cartan_from rest (offset + snd s) M1
  end.
Definition true_Cartan (lt : lietype) : res (matrix Z) :=
  true_Cartan_from lt 0 (mat_fill (lt_ss_rank lt) (lt_ss_rank lt) 0%Z).

(** lietype.cpp:218-224, LieType::Cartan_determinant, an unsigned int *)
Definition lt_det (lt : lietype) : Z :=
  fold_left (fun r s => (r * simple_det s) mod 4294967296)%Z lt 1%Z.

(** lietype.cpp:226-234, LieType::transpose_Cartan_matrix *)
Definition lt_transpose_Cartan (lt : lietype) : res (matrix Z) :=
  fill_block 0 (lt_rank lt) (fun i j => lt_entry lt j i) (mat_fill (lt_rank lt) (lt_rank lt) 0%Z).

(** lietype.cpp:316-341, dual_type of a Lie type *)
Definition dual_letter (x : letter) : letter :=
  match x with tB => tC | tC => tB | tF => tf | tf => tF | tG => tg | tg => tG | _ => x end.
Definition dual_type (lt : lietype) : lietype := map (fun s => (dual_letter (fst s), snd s)) lt.

(** inner class letters (lietype.h:41-70); the letter e is replaced by c on input *)
Inductive icl := iC | ic | ie | is | iu.

(** lietype.cpp:348-393, dual_type of an inner class type; reading past the end of [lt]
    is [Fail Range] *)
Fixpoint dual_ict (ict : list icl) (lt : lietype) : res (list icl) :=
  match ict with
  | [] => Ok []
  | iC :: rest =>
    match lt with
    | _ :: _ :: lt' => run r <- dual_ict rest lt'; Ok (iC :: r)
    | _ => run r <- dual_ict rest []; Ok (iC :: r)
    end
  | x :: rest =>
    match lt with
    | [] => Fail Range
    | (tp, rk) :: lt' =>
      let y := match tp with
               | tB | tC | tF | tf | tG | tg => x
               | tA | tE | tT => match x with is => ic | _ => is end
               | tD => if Nat.odd rk then match x with is | iu => ic | _ => is end else x
               end in
      run r <- dual_ict rest lt'; Ok (y :: r)
    end
  end.

(** lietype.h:125-150, Layout *)
Record layout := mk_layout { l_type : lietype; l_inner : list icl; l_perm : list nat }.

(** std::swap(v[i],v[j]) *)
Definition vswap (v : list nat) (i j : nat) : res (list nat) :=
  run x <- vget v i; run y <- vget v j; run v1 <- vput v i y; vput v1 j x.

(** lietype.cpp:414-427, dual of a layout, the loop over the factors *)
Fixpoint dual_factors (lt : lietype) (k : nat) (pi : list nat) : res (lietype * list nat) :=
  match lt with
  | [] => Ok ([], pi)
  | (tp, r) :: rest =>
    run pi1 <- match tp with
               | tF => run p <- vswap pi k (k + 3); vswap p (k + 1) (k + 2)
               | tG => vswap pi k (k + 1)
               | _ => Ok pi
               end;
    let tp1 := match tp with tB => tC | tC => tB | _ => tp end in
    run q <- dual_factors rest (k + r) pi1;
    Ok ((tp1, r) :: fst q, snd q)
  end.
(** lietype.cpp:429-452, dual of a layout, the loop over the inner class letters *)
Fixpoint dual_inner (inner : list icl) (lt : lietype) : res (list icl) :=
  match inner with
  | [] => Ok []
  | iC :: rest =>
    match lt with
    | _ :: _ :: lt' => run r <- dual_inner rest lt'; Ok (iC :: r)
    | _ => run r <- dual_inner rest []; Ok (iC :: r)
    end
  | x :: rest =>
    match lt with
    | [] => Fail Range
    | (tp, rk) :: lt' =>
      let swap_sc := match tp with
                     | tA => 1 <? rk
                     | tD => Nat.odd rk
                     | tE => rk =? 6
                     | tT => true
                     | _ => false
                     end in
      let y := if swap_sc then match x with ic => is | is => ic | _ => x end else x in
      run r <- dual_inner rest lt'; Ok (y :: r)
    end
  end.
(** lietype.cpp:412-455, dual of a layout *)
Definition dual_layout (lo : layout) : res layout :=
  run q <- dual_factors (l_type lo) 0 (l_perm lo);
  run inn <- dual_inner (l_inner lo) (l_type lo);
  Ok (mk_layout (fst q) inn (snd q)).

(** lietype.cpp:459-478, checkRank; constants::RANK_MAX is 32 *)
Definition check_rank (x : letter) (l : nat) : bool :=
  if 32 <? l then false
  else match x with
       | tA => 1 <=? l
       | tB => 2 <=? l
       | tC => 2 <=? l
       | tD => 4 <=? l
       | tE => (6 <=? l) && (l <=? 8)
       | tF | tf => l =? 4
       | tG | tg => l =? 2
       | tT => 1 <=? l
       end.

(** lietype.cpp:480-520, simple_involution; lietype.h:72, simple_ict *)
Inductive simple_ict := equal_rank | unequal_rank | complex.
(** std::swap(result(i,j),result(k,l)) is [MatModel.mswap] *)
Definition simple_involution (s : simple) (tp : simple_ict) : res (matrix Z) :=
  let r := snd s in
  run Id <- mat_id (zarith (fun _ => true)) (match tp with complex => 2 * r | _ => r end);
  match tp with
  | complex =>
    upto r 0 (fun i M => run M1 <- mswap M i i i (i + r); mswap M1 (i + r) i (i + r) (i + r)) Id
  | equal_rank => Ok Id
  | unequal_rank =>
    match fst s with
    | tA =>
      (* for (i=0; 2*i<r-1; ++i): r/2 rounds, for r at least 1 *)
      upto (r / 2) 0 (fun i M => run M1 <- mswap M i i i (r - 1 - i);
                                 mswap M1 (r - 1 - i) i (r - 1 - i) (r - 1 - i)) Id
    | tD => run M1 <- mswap Id (r - 2) (r - 2) (r - 2) (r - 1);
            mswap M1 (r - 1) (r - 2) (r - 1) (r - 1)
    | tE => run M1 <- mswap Id 0 0 0 5; run M2 <- mswap M1 5 0 5 5;
            run M3 <- mswap M2 2 2 2 4; mswap M3 4 2 4 4
    | tT => mput Id 0 0 (-1)%Z
    | _ => Ok Id
    end
  end.

(** lietype.cpp:624-659, the functions placing a block; m(pi[a],pi[b])=x *)
Definition pput (pi : list nat) (M : matrix Z) (a b : nat) (x : Z) : res (matrix Z) :=
  run i <- vget pi a; run j <- vget pi b; mput M i j x.
Definition add_compact (M : matrix Z) (r rs : nat) (pi : list nat) : res (matrix Z) :=
  upto rs 0 (fun i M1 => pput pi M1 (r + i) (r + i) 1%Z) M.
(** [rs-2] rounds; a rank below 2 (where rs-2 wraps) is [Fail Range] *)
Definition add_D (M : matrix Z) (r rs : nat) (pi : list nat) : res (matrix Z) :=
  if rs <? 2 then Fail Range
  else run M1 <- upto (rs - 2) 0 (fun i M1 => pput pi M1 (r + i) (r + i) 1%Z) M;
       run M2 <- pput pi M1 (r + rs - 2) (r + rs - 1) 1%Z;
       pput pi M2 (r + rs - 1) (r + rs - 2) 1%Z.
Definition add_minus (M : matrix Z) (r rs : nat) (pi : list nat) : res (matrix Z) :=
  upto rs 0 (fun i M1 => pput pi M1 (r + i) (r + i) (-1)%Z) M.

(** lietype.cpp:528-602, involution of a layout: the loop over the inner class letters,
    at position [pos] of [lt] and [r] of the diagram; an invalid letter adds nothing *)
Definition add_split (M : matrix Z) (r : nat) (s : simple) (pi : list nat) : res (matrix Z) :=
  let rs := snd s in
  match fst s with
  | tA => upto rs 0 (fun i M1 => pput pi M1 (r + i) (r + rs - 1 - i) 1%Z) M
  | tD => if Nat.odd rs then add_D M r rs pi else add_compact M r rs pi
  | tE => if rs =? 6 then
            run M1 <- pput pi M (r + 1) (r + 1) 1%Z;
            run M2 <- pput pi M1 (r + 3) (r + 3) 1%Z;
            run M3 <- pput pi M2 r (r + 5) 1%Z;
            run M4 <- pput pi M3 (r + 5) r 1%Z;
            run M5 <- pput pi M4 (r + 2) (r + 4) 1%Z;
            pput pi M5 (r + 4) (r + 2) 1%Z
          else add_compact M r rs pi
  | tT => add_minus M r rs pi
  | _ => add_compact M r rs pi
  end.
Definition add_complex (M : matrix Z) (r rs : nat) (pi : list nat) : res (matrix Z) :=
  upto rs 0 (fun i M1 => run M2 <- pput pi M1 (r + i) (r + rs + i) 1%Z;
                         pput pi M2 (r + rs + i) (r + i) 1%Z) M.
Fixpoint involution_from (ict : list icl) (lt : lietype) (r : nat) (pi : list nat) (M : matrix Z)
    : res (matrix Z) :=
  match ict with
  | [] => Ok M
  | x :: rest =>
    match lt with
    | [] => Fail Range
    | s :: lt' =>
      let rs := snd s in
      match x with
      | ic => run M1 <- add_compact M r rs pi; involution_from rest lt' (r + rs) pi M1
      | is => run M1 <- add_split M r s pi; involution_from rest lt' (r + rs) pi M1
      | iC => run M1 <- add_complex M r rs pi; involution_from rest (tl lt') (r + rs + rs) pi M1
      | iu => run M1 <- add_D M r rs pi; involution_from rest lt' (r + rs) pi M1
      | ie => involution_from rest lt' (r + rs) pi M
      end
    end
  end.
Definition involution (lo : layout) : res (matrix Z) :=
  involution_from (l_inner lo) (l_type lo) 0 (l_perm lo)
    (mat_fill (lt_rank (l_type lo)) (lt_rank (l_type lo)) 0%Z).
(** lietype.cpp:604-606, with the identity permutation (lietype.h:142-143) *)
Definition involution_of (lt : lietype) (ict : list icl) : res (matrix Z) :=
  involution (mk_layout lt ict (seq 0 (lt_rank lt))).
