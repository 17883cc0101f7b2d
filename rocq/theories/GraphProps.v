(** Properties C36 and C56: strong components and other operations on graphs. *)

From Coq Require Import List Arith Bool Lia Relations Sorted.
From Verif Require Import VecModel VecProofs PartModel PartSpec GraphModel GraphSpec GraphCells GraphOps.
Import ListNotations.
Open Scope nat_scope.

Theorem C36_strong_components g : well_formed g ->
  exists p h, cells g = Some (p, h) /\ length (d_class p) = length g /\
    (forall x c, nth_error (d_class p) x = Some c -> c < classCount p) /\
    (forall x y c d, nth_error (d_class p) x = Some c -> nth_error (d_class p) y = Some d -> (c = d <-> strong g x y)) /\
    (forall c r, nth_error (d_classRep p) c = Some r -> nth_error (d_class p) r = Some c).
Proof. intros W. destruct (cells_ok g W) as (p & h & E & A1 & A2 & A3 & A4 & A5 & A6 & A7). exists p, h. auto 10. Qed.
Print Assumptions C36_strong_components.

Theorem C36_edges_lead_down g : well_formed g ->
  exists p h, cells g = Some (p, h) /\
    forall x y c d, edge g x y -> nth_error (d_class p) x = Some c -> nth_error (d_class p) y = Some d -> d <= c.
Proof. intros W. destruct (cells_ok g W) as (p & h & E & A1 & A2 & A3 & A4 & A5 & A6 & A7). exists p, h. auto. Qed.
Print Assumptions C36_edges_lead_down.

Theorem C36_induced_graph g : well_formed g ->
  exists p h, cells g = Some (p, h) /\ length h = classCount p /\ induced g (d_class p) h.
Proof. intros W. destruct (cells_ok g W) as (p & h & E & A1 & A2 & A3 & A4 & A5 & A6 & A7). exists p, h. auto. Qed.
Print Assumptions C36_induced_graph.

(** 0 -> 1 -> 2 -> 0, 1 -> 3, 3 <-> 4, 5 -> 3, 5 -> 5, 6 isolated *)
Definition g7 : graph := [[1]; [3; 2]; [0]; [4]; [3; 3]; [3; 5]; []].
Example C36_ex : well_formed g7 /\
  cells g7 = Some (mk [1; 1; 1; 0; 0; 2; 3] [3; 0; 5; 6], [[]; [0]; [0]; []]).
Proof.
  split; [|vm_compute; reflexivity]. intros l y I1 I2. unfold g7 in *. cbn in I1 |- *.
  repeat (destruct I1 as [<-|I1]; [cbn in I2; lia|]). destruct I1.
Qed.

Theorem C56_reverse_edges g : well_formed g -> exists h, reverseEdges g = Some h /\ length h = length g /\
  (forall x y, edge h y x <-> edge g x y) /\
  forall y, y < length g -> nth_error h y = Some (flat_map (fun x => repeat x (count_occ Nat.eq_dec (nth x g []) y)) (seq 0 (length g))).
Proof.
  intros W. destruct (reverseEdges_ok g W) as (h & E & L & A). exists h. split; [exact E|]. split; [exact L|]. split; [|exact A].
  exact (reverseEdges_edge g h W E).
Qed.
Print Assumptions C56_reverse_edges.
Example C56_reverse_edges_ex : reverseEdges g7 = Some [[2]; [0]; [1]; [1; 4; 4; 5]; [3]; [5]; []].
Proof. reflexivity. Qed.

Theorem C56_reverse_numbering g : well_formed g -> exists h, reverseNumbering g = Some h /\ length h = length g /\
  forall x y, x < length g -> y < length g -> (edge h (length g - 1 - x) (length g - 1 - y) <-> edge g x y).
Proof.
  intros W. destruct (reverseNumbering_ok g) as (h & E & L & A). exists h. split; [exact E|]. split; [exact L|].
  exact (reverseNumbering_edge g h W E).
Qed.
Print Assumptions C56_reverse_numbering.
Example C56_reverse_numbering_ex : reverseNumbering g7 = Some [[]; [1; 3]; [3; 3]; [2]; [6]; [4; 3]; [5]].
Proof. reflexivity. Qed.

(** the edge lists must be in weakly increasing order, for the binary search *)
Theorem C56_unoriented_components g : well_formed g -> (forall l, In l g -> StronglySorted le l) ->
  exists p h, to_unoriented_components g = Some (p, h) /\
    classifies (length g) (linked g) (d_class p) (d_classRep p) /\ length h = classCount p /\ induced g (d_class p) h.
Proof. intros W S. exact (to_unoriented_components_ok g W S). Qed.
Print Assumptions C56_unoriented_components.
(** 0 <-> 2 <-> 4, 1 <-> 3, 3 -> 4, 5 -> 0 *)
Definition g6 : graph := [[2]; [3]; [0; 4]; [1; 4]; [2]; [0]].
Example C56_unoriented_components_ex : well_formed g6 /\ (forall l, In l g6 -> StronglySorted le l) /\
  to_unoriented_components g6 = Some (mk [0; 1; 0; 1; 0; 2] [0; 1; 5], [[]; [0]; [0]]).
Proof.
  split; [|split; [|vm_compute; reflexivity]].
  - intros l y I1 I2. unfold g6 in *. cbn in I1 |- *. repeat (destruct I1 as [<-|I1]; [cbn in I2; lia|]). destruct I1.
  - intros l I1. unfold g6 in I1. cbn in I1. repeat (destruct I1 as [<-|I1]; [repeat constructor|]). destruct I1.
Qed.
(** without the order, a pair of opposite edges 0 <-> 3 may be missed *)
Example C56_unsorted_lists : both_ways [[3; 2; 1]; []; []; [0]] 3 0 /\
  to_unoriented_components [[3; 2; 1]; []; []; [0]] = Some (mk [0; 1; 2; 3] [0; 1; 2; 3], [[1; 2; 3]; []; []; [0]]).
Proof. split; [|vm_compute; reflexivity]. split; (eexists; split; [reflexivity|]); cbn; auto. Qed.
