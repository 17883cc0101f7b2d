(** Model of class Status (gradings.h:52-122) and of GradingCompare (gradings.cpp:101-105). *)

From Coq Require Import List ZArith Bool.
From Verif Require Import BitsModel BitsetModel.
Local Open Scope Z_scope.

(** gradings.h:58, the enumeration Value *)
Inductive stat := Complex | ImaginaryCompact | Real | ImaginaryNoncompact.
(** the numbers of its values, 0 to 3 *)
Definition code (v : stat) : Z := match v with Complex => 0 | ImaginaryCompact => 1 | Real => 2 | ImaginaryNoncompact => 3 end.
(** static_cast<Value>, gradings.h:72 *)
Definition decode (u : Z) : stat := if u =? 0 then Complex else if u =? 1 then ImaginaryCompact else if u =? 2 then Real else ImaginaryNoncompact.
(** gradings.h:61, the default constructor *)
Definition st_new : two := mk2 0 0.
(** gradings.h:66-73, operator[] *)
Definition st_get (a : two) (j : Z) : stat :=
  let j := 2 * j in let u := if test2 a j then 1 else 0 in decode (if test2 a (j + 1) then u + 2 else u).
(** gradings.h:75-79 *)
Definition st_complex (a : two) (j : Z) : bool := negb (test2 a (2 * j)) && negb (test2 a (2 * j + 1)).
(** gradings.h:81-85 *)
Definition st_compact (a : two) (j : Z) : bool := test2 a (2 * j) && negb (test2 a (2 * j + 1)).
(** gradings.h:87-91 *)
Definition st_real (a : two) (j : Z) : bool := negb (test2 a (2 * j)) && test2 a (2 * j + 1).
(** gradings.h:93-97 *)
Definition st_noncompact (a : two) (j : Z) : bool := test2 a (2 * j) && test2 a (2 * j + 1).
(** gradings.h:99-102 *)
Definition st_imaginary (a : two) (j : Z) : bool := test2 a (2 * j).
(** gradings.h:104, operator== *)
Definition st_eq (a b : two) : bool := eq2 a b.
(** gradings.h:109-115, set *)
Definition st_set (a : two) (j : Z) (v : stat) : two := or2 a (shl2 (of_ulong2 (code v)) (2 * j)).
(** gradings.h:117-122, set_imaginary *)
Definition st_set_imaginary (a : two) (j : Z) (grading : bool) : two :=
  or2 a (shl2 (of_ulong2 (code (if grading then ImaginaryNoncompact else ImaginaryCompact))) (2 * j)).

(** gradings.cpp:101-105, GradingCompare::operator() *)
Definition grading_compare (a b : Z) : bool :=
  let l := count1 a in let r := count1 b in if l =? r then lt1 a b else l <? r.
