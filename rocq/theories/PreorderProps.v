(** Properties C41 and C42: preorders. *)

From Coq Require Import List Arith Bool Lia Relations Sorted.
From Verif Require Import VecModel VecProofs PermProofs SetModel SetProofs PreorderModel PreorderSpec PreorderProofs PreorderOps.
Import ListNotations.
Open Scope nat_scope.

Theorem C41_make g : bounded g -> exists p, po_make g = Some p /\ size p = length g /\ computes (relates p) (arrow g).
Proof.
  intros W. destruct (make_ok g W) as (p & E & A & _). exists p. split; [exact E|]. split; [unfold size; rewrite A; apply seq_length|].
  exact (make_relates g W p E).
Qed.
Print Assumptions C41_make.

Theorem C41_closure g : bounded g -> exists p q, po_make g = Some p /\ closure p = Some q /\ size q = length g /\
  computes (relates q) (path g).
Proof.
  intros W. destruct (make_ok g W) as (p & E & _). destruct (closure_ok g W p E) as (q & R & d & Eq & T & C).
  exists p, q. split; [exact E|]. split; [exact Eq|]. split; [apply (f_len _ _ _ _ (i_forest _ _ _ _ _ (proj1 C)))|].
  exact (closure_relates g W p q E Eq).
Qed.
Print Assumptions C41_closure.

Theorem C41_cliques g : bounded g -> exists p q L, po_make g = Some p /\ closure p = Some q /\ cliques q = Some L /\
  (forall l, In l L -> l <> [] /\ StronglySorted lt l /\ forall x y, In x l -> (In y l <-> mutual g x y)) /\
  (forall x, path g x x -> exists l, In l L /\ In x l) /\ NoDup (concat L).
Proof.
  intros W. destruct (make_ok g W) as (p & E & _). destruct (closure_ok g W p E) as (q & R & d & Eq & T & C).
  destruct (cliques_ok g W p q E Eq) as (L & H). exists p, q, L. auto.
Qed.
Print Assumptions C41_cliques.

(** 0 -> 1 -> 2 -> 0, 1 -> 3, 3 <-> 4, 5 -> 3, 5 -> 5, 6 -> 5 *)
Definition g7 : list (list nat) := [[1]; [3; 2]; [0]; [4]; [3; 3]; [3; 5]; [5]].
Definition q7 : preorder := mk_po
  [[]; []; [true; true; true; true; true; false; false]; []; [false; false; false; true; true; false; false];
   [false; false; false; true; true; true; false]; [false; false; false; true; true; true; false]]
  [2; 2; 2; 4; 4; 5; 6] true.
Example C41_ex : bounded g7 /\ (match po_make g7 with Some p => closure p | None => None end) = Some q7 /\
  relates q7 0 4 = Some true /\ relates q7 6 6 = Some false /\ cliques q7 = Some [[0; 1; 2]; [3; 4]; [5]].
Proof.
  split; [|vm_compute; auto]. intros l y I1 I2. unfold g7 in *. cbn in I1 |- *.
  repeat (destruct I1 as [<-|I1]; [cbn in I2; lia|]). destruct I1.
Qed.

Theorem C41_empty n x y : relates (po_empty n) x y = Some false.
Proof. exact (empty_relates_at n x y). Qed.
Print Assumptions C41_empty.

(** ** C42 *)
Theorem C42_reversed_before_closure g : bounded g -> exists p q, po_make g = Some p /\ reversed p = Some q /\
  computes (relates q) (fun x y => arrow g y x).
Proof. exact (reversed_before g). Qed.
Print Assumptions C42_reversed_before_closure.
Example C42_reversed_before_ex : (match po_make g7 with Some p => reversed p | None => None end) =
  Some (mk_po [[false; false; true; false; false; false; false]; [true; false; false; false; false; false; false];
    [false; true; false; false; false; false; false]; [false; true; false; false; true; true; false];
    [false; false; false; true; false; false; false]; [false; false; false; false; false; true; true];
    [false; false; false; false; false; false; false]] [0; 1; 2; 3; 4; 5; 6] false).
Proof. vm_compute. reflexivity. Qed.

(** After the closure. The full statement is computes (relates r) (fun x y => path g y x)
    for all g; missing: graphs in which different elements are related both ways. *)
Theorem C42_reversed_after_closure_partial g : bounded g -> (forall x y, mutual g x y -> x = y) ->
  exists p q r, po_make g = Some p /\ closure p = Some q /\ reversed q = Some r /\ computes (relates r) (fun x y => path g y x).
Proof. exact (reversed_after g). Qed.
Print Assumptions C42_reversed_after_closure_partial.

(** What is computed in general: only arrows to representatives of the cliques are found. *)
Theorem C42_reversed_exact g : bounded g -> exists p q r, po_make g = Some p /\ closure p = Some q /\ reversed q = Some r /\
  computes (relates r) (fun x y => path g y x /\ root q y = Some y).
Proof. exact (reversed_exact g). Qed.
Print Assumptions C42_reversed_exact.
Example C42_reversed_exact_ex : exists r, reversed q7 = Some r /\ relates r 3 2 = Some true /\ relates r 3 1 = Some false /\ relates r 1 3 = Some false.
Proof. eexists. split; [vm_compute; reflexivity|]. vm_compute. auto. Qed.
Definition g4 : list (list nat) := [[1; 2]; [1; 3]; []; [2]].
Example C42_reversed_after_ex : bounded g4 /\ (forall x y, mutual g4 x y -> x = y) /\
  exists p q r, po_make g4 = Some p /\ closure p = Some q /\ reversed q = Some r /\
    relates r 2 0 = Some true /\ relates r 0 2 = Some false /\ relates r 1 1 = Some true.
Proof.
  assert (W : bounded g4).
  { intros l y I1 I2. unfold g4 in *. cbn in I1 |- *. repeat (destruct I1 as [<-|I1]; [cbn in I2; lia|]). destruct I1. }
  split; [exact W|]. split.
  - intros x y [A B].
    assert (Q : forall a b, path g4 a b -> (a = b /\ a = 1) \/ match a with 0 => 0 | 1 => 1 | 3 => 2 | _ => 3 end < match b with 0 => 0 | 1 => 1 | 3 => 2 | _ => 3 end).
    { intros a b P. induction P as [a b (l & E & I)|a b c _ IH1 _ IH2].
      - destruct a as [|[|[|[|a]]]]; cbn in E; try discriminate; try (injection E as <-; cbn in I).
        + destruct I as [<-|[<-|[]]]; lia.
        + destruct I as [<-|[<-|[]]]; lia.
        + destruct I.
        + destruct I as [<-|[]]; lia.
        + destruct a; discriminate.
      - destruct IH1 as [[-> ->]|IH1]; [exact IH2|]. destruct IH2 as [[<- _]|IH2]; [right; exact IH1|right; lia]. }
    apply Q in A, B. destruct A as [[A _]|A]; [exact A|]. destruct B as [[B _]|B]; [auto|lia].
  - do 3 eexists. split; [vm_compute; reflexivity|]. split; [vm_compute; reflexivity|]. split; [vm_compute; reflexivity|]. vm_compute. auto.
Qed.

(** The property fails for two elements related both ways. *)
Theorem C42_reversed_refuted : exists g p q r x y, bounded g /\ po_make g = Some p /\ closure p = Some q /\ reversed q = Some r /\
  relates q y x = Some true /\ relates r x y = Some false.
Proof.
  exists [[1]; [0]]. do 3 eexists. exists 1, 0. split.
  - intros l y I1 I2. cbn in I1 |- *. repeat (destruct I1 as [<-|I1]; [cbn in I2; lia|]). destruct I1.
  - split; [vm_compute; reflexivity|]. split; [vm_compute; reflexivity|]. split; [vm_compute; reflexivity|]. vm_compute. auto.
Qed.
Print Assumptions C42_reversed_refuted.
