(** Properties C37 and C38: orbits and partitions. *)

From Coq Require Import List Arith Bool Lia.
From Verif Require Import VecModel VecProofs PartModel PartSpec PartOrbits PartProofs.
Import ListNotations.
Open Scope nat_scope.

Theorem C37_orbits a c n : acts a c n ->
  exists p, orbits a c n = Some p /\ classifies n (same_orbit a c n) (d_class p) (d_classRep p).
Proof. intros H. exact (orbits_ok a c n H H). Qed.
Print Assumptions C37_orbits.
(** two involutions on six points: 0<->4, and 1<->3 *)
Definition two_swaps (i x : nat) : nat := nth x (nth i [[4;1;2;3;0;5]; [0;3;2;1;4;5]] []) 0.
Example C37_orbits_ex : acts two_swaps 2 6 /\
  orbits two_swaps 2 6 = Some (mk [0; 1; 2; 1; 0; 3] [0; 1; 2; 5]).
Proof.
  split; [|reflexivity]. intros i Hi. split.
  - intros x Hx. do 2 (destruct i as [|i]; [do 6 (destruct x as [|x]; [cbn; lia|]); lia|]). lia.
  - intros x y Hx Hy. do 2 (destruct i as [|i]; [do 6 (destruct x as [|x]; [do 6 (destruct y as [|y]; [cbn; try discriminate; reflexivity|]); lia|]); lia|]). lia.
Qed.

Theorem C38_from_function f : exists p, of_function f = Some p /\
  classifies (length f) (fun i j => nth_error f i = nth_error f j) (d_class p) (d_classRep p).
Proof. exact (of_function_ok f). Qed.
Print Assumptions C38_from_function.
Example C38_from_function_ex : of_function [7; 3; 7; 0; 3] = Some (mk [0; 1; 0; 2; 1] [0; 1; 3]).
Proof. reflexivity. Qed.

(** class numbers given, all of 0,...,k-1 occurring: they are kept, and the representatives are the first members *)
Theorem C38_from_classes f k : (forall c, In c f <-> c < k) ->
  exists p, of_classes f = Some p /\ d_class p = f /\ length (d_classRep p) = k /\
    forall c r, nth_error (d_classRep p) c = Some r -> nth_error f r = Some c /\ forall j, j < r -> nth_error f j <> Some c.
Proof. exact (of_classes_ok f k). Qed.
Print Assumptions C38_from_classes.
Example C38_from_classes_ex : (forall c, In c [2; 0; 2; 1; 0] <-> c < 3) /\
  of_classes [2; 0; 2; 1; 0] = Some (mk [2; 0; 2; 1; 0] [1; 3; 0]).
Proof. split; [|reflexivity]. intros c. cbn. lia. Qed.

Theorem C38_class_size p c : classSize p c = count_occ Nat.eq_dec (d_class p) c.
Proof. exact (classSize_ok p c). Qed.
Print Assumptions C38_class_size.
Example C38_class_size_ex : classSize (mk [0; 1; 0; 2; 1; 0] [0; 1; 3]) 0 = 3.
Proof. reflexivity. Qed.

Theorem C38_class_sizes p : (forall x, In x (d_class p) -> x < classCount p) ->
  exists l, class_sizes p = Some l /\ length l = classCount p /\
    forall c, c < classCount p -> nth_error l c = Some (count_occ Nat.eq_dec (d_class p) c).
Proof. exact (class_sizes_ok p). Qed.
Print Assumptions C38_class_sizes.
Example C38_class_sizes_ex : (forall x, In x [0; 1; 0; 2; 1; 0] -> x < 3) /\
  class_sizes (mk [0; 1; 0; 2; 1; 0] [0; 1; 3]) = Some [3; 2; 1].
Proof. split; [|reflexivity]. cbn. lia. Qed.

(** the iterator gives the classes in order, the members of each class in increasing order *)
Theorem C38_iterator p : (forall c, In c (d_class p) <-> c < classCount p) ->
  all_classes p = Some (map (fun c => filter (fun x => nth x (d_class p) 0 =? c) (seq 0 (length (d_class p)))) (seq 0 (classCount p))).
Proof. exact (all_classes_ok p). Qed.
Print Assumptions C38_iterator.
Example C38_iterator_ex : (forall c, In c [0; 1; 0; 2; 1; 0] <-> c < 3) /\
  all_classes (mk [0; 1; 0; 2; 1; 0] [0; 1; 3]) = Some [[0; 2; 5]; [1; 4]; [3]].
Proof. split; [|reflexivity]. intros c. cbn. lia. Qed.
