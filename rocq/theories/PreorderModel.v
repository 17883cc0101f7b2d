(** Model of sources/utilities/preorder.h and preorder.cpp. Elements (unsigned int)
    are [nat], bitmaps are the sets of SetModel.v; the vector |data| of entries
    (|out|,|ref|), preorder.h:47-54, is a pair of vectors. *)

From Coq Require Import List Arith Bool.
From Verif Require Import VecModel SetModel.
Import ListNotations.
Open Scope nat_scope.
Open Scope vec_scope.

Record preorder := mk_po { outs : list bset; refs : list nat; ready : bool }.
Definition size (p : preorder) : nat := length (refs p).

(** preorder.cpp:21-26 *)
Definition po_empty (n : nat) : preorder := mk_po (repeat (bs_new n) n) (seq 0 n) true.
(** preorder.cpp:28-36 and preorder.h:62-69, from a graph or a sequence of containers *)
Definition po_make (g : list (list nat)) : option preorder :=
  let n := length g in
  do o <- for_up n 0 (fun i o => do l <- get g i; do b <- bs_of_list n l; put o i b) (repeat [] n);
  Some (mk_po o (seq 0 n) false).

(** preorder.h:73 root, also preorder.cpp:83-84; a chain of references has less than size() steps *)
Fixpoint root_from (fuel : nat) (r : list nat) (x : nat) : option nat :=
  do m <- get r x;
  if m =? x then Some x else match fuel with O => None | S k => root_from k r m end.
Definition root (p : preorder) (x : nat) : option nat := root_from (size p) (refs p) x.
(** preorder.h:75-76 relates *)
Definition relates (p : preorder) (x y : nat) : option bool :=
  if x <? size p then do r <- root p x; do b <- get (outs p) r; Some (bs_mem b y) else Some false.

(** preorder.cpp:38-49 reversed *)
Definition reversed (p : preorder) : option preorder :=
  let n := size p in
  do o <- for_up n 0 (fun i o =>
    do b <- get (outs p) i;
    for_each (bs_elems b) (fun x o => do c <- get o x; do c <- bs_insert c i; put o x c) o) (outs (po_empty n));
  Some (mk_po o (if ready p then refs p else seq 0 n) (ready p)).

(** preorder.cpp:85-88: from x on, make all references point to y *)
Fixpoint shortcut (fuel : nat) (r : list nat) (x y : nat) : option (list nat) :=
  if x =? y then Some r else
  match fuel with
  | O => None
  | S k => do m <- get r x; do r <- put r x y; shortcut k r m y
  end.
(** preorder.cpp:77-107, the loop over the members x of data[i].out, from position [lo] on *)
Fixpoint scan (fuel i lo : nat) (s : preorder) : option preorder :=
  do d <- get (outs s) i;
  match bs_next d lo with
  | None => Some s
  | Some x =>
    match fuel with
    | O => None
    | S k =>
      do y0 <- get (refs s) x;
      if y0 =? i then scan k i (S x) s else
      do y <- root_from (size s) (refs s) y0;
      do r <- shortcut (size s) (refs s) x y;
      if y =? i then scan k i (S x) (mk_po (outs s) r (ready s)) else
      do oy <- get (outs s) y;
      if bs_mem oy i then
        do u <- bs_or oy d;
        do o <- put (outs s) y u;
        do r <- put r i y;
        do o <- put o i [];
        Some (mk_po o r (ready s && bs_eqb oy d))
      else
        do c <- bs_contains d oy;
        if c : bool then scan k i (S x) (mk_po (outs s) r (ready s))
        else do u <- bs_or d oy; do o <- put (outs s) i u; scan k i (S x) (mk_po o r false)
    end
  end.
(** preorder.cpp:71-108, one round of the do-while loop *)
Definition pass (p : preorder) : option preorder :=
  for_up (size p) 0 (fun i s =>
    do r <- get (refs s) i;
    if r =? i then scan (size s) i 0 s else Some s) (mk_po (outs p) (refs p) true).
Fixpoint passes (fuel : nat) (p : preorder) : option preorder :=
  do q <- pass p;
  if ready q then Some q else match fuel with O => None | S k => passes k q end.
(** preorder.cpp:65-112 closure *)
Definition closure (p : preorder) : option preorder :=
  if ready p then Some p else passes (size p * S (size p)) p.

(** preorder.cpp:114-129 cliques *)
Definition cliques (p : preorder) : option (list (list nat)) :=
  for_up (size p) 0 (fun x res =>
    do r <- get (refs p) x;
    if r =? x then
      do b <- get (outs p) x;
      if bs_mem b x then
        do l <- for_each (bs_elems b) (fun y l => do ry <- root p y; Some (if ry =? x then l ++ [y] else l)) [];
        Some (res ++ [l])
      else Some res
    else Some res) [].
