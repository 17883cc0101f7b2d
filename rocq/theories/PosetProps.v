(** Properties C39 and C40: posets. *)

From Coq Require Import List Arith Bool Lia Relations Sorted ZArith.
From Verif Require Import VecModel VecProofs SetModel SetProofs PosetModel PosetSpec PosetProofs PosetOps.
Import ListNotations.
Open Scope nat_scope.

Theorem C39_from_hasse h : downward h ->
  exists p, from_hasse h = Some p /\ length p = length h /\ poset_ok p /\
    decides (lesseq p) (length h) (clos_refl_trans nat (link h)).
Proof.
  intros D. destruct (from_hasse_ok h D) as (p & E & L & S & G). exists p. split; [exact E|]. split; [exact L|].
  split; [eapply gen_poset; eauto|]. rewrite <- L. apply gen_decides; assumption.
Qed.
Print Assumptions C39_from_hasse.
(** a 4-crown with a bottom and some redundant links *)
Definition h5 : list (list nat) := [[]; [0]; [0]; [2; 1; 0]; [1; 2]].
Lemma h5_down : downward h5.
Proof.
  intros x y (l & E & I). do 5 (destruct y as [|y]; [injection E as <-; cbn in I; lia|]). destruct y; discriminate.
Qed.
Definition p5 : poset := [[]; [true]; [true; false]; [true; true; true]; [true; true; true; false]].
Example C39_from_hasse_ex : downward h5 /\ from_hasse h5 = Some p5.
Proof. split; [apply h5_down|reflexivity]. Qed.

Theorem C39_extend p lks : poset_ok p -> upward (length p) lks -> links_ordered lks -> compatible p lks ->
  exists q, extend p lks = Some q /\ length q = length p /\ poset_ok q /\
    decides (lesseq q) (length p) (clos_refl_trans nat (fun x y => strictly p x y \/ In (x, y) lks)).
Proof.
  intros P U O C. destruct (extend_ok p lks P U O C) as (q & E & L & S & G). exists q. split; [exact E|]. split; [exact L|].
  split; [eapply gen_poset; eauto|]. rewrite <- L. apply gen_decides; assumption.
Qed.
Print Assumptions C39_extend.
Lemma p5_ok : poset_ok p5.
Proof.
  destruct (from_hasse_ok h5 h5_down) as (p & E & L & S & G). change (Some p5 = Some p) in E. injection E as <-. eapply gen_poset; eauto.
Qed.
Example C39_extend_ex : poset_ok (resize p5 7) /\ upward 7 [(4, 5); (3, 5); (5, 6)] /\ links_ordered [(4, 5); (3, 5); (5, 6)] /\
  compatible (resize p5 7) [(4, 5); (3, 5); (5, 6)] /\
  extend (resize p5 7) [(4, 5); (3, 5); (5, 6)] = Some (p5 ++ [[true; true; true; true; true]; [true; true; true; true; true; true]]).
Proof.
  destruct (resize_ok p5 7 p5_ok) as (A & B & C). split; [exact A|]. split; [|split; [|split; [|reflexivity]]].
  - intros x y [E|[E|[E|[]]]]; injection E as <- <-; lia.
  - intros k l x y z. destruct k as [|[|[|k]]]; cbn; intros E; try (destruct k; discriminate); injection E as <- <-;
      destruct l as [|[|[|l]]]; cbn; intros E; try (destruct l; discriminate); try discriminate; lia.
  - intros x y z I S. apply C in S. destruct S as [S1 S2]. apply (strictly_lt p5 y z) in S2; [|exact (proj1 p5_ok)]. cbn in S2.
    destruct I as [E|[E|[E|[]]]]; injection E as <- <-; lia.
Qed.

Theorem C39_from_links n lks : upward n lks -> links_ordered lks ->
  exists p, from_links n lks = Some p /\ length p = n /\ poset_ok p /\
    decides (lesseq p) n (clos_refl_trans nat (fun x y => In (x, y) lks)).
Proof.
  intros U O. destruct (discrete_ok n) as [A B]. destruct (extend_ok (discrete n) lks A) as (q & E & L & S & G); [rewrite B; exact U|exact O| |].
  - intros x y z _. apply discrete_none.
  - exists q. split; [exact E|]. split; [congruence|]. split; [eapply gen_poset; eauto|]. rewrite <- B, <- L. apply gen_decides; [exact S|].
    eapply gen_ext; [|exact G]. intros i j. cbn beta. split; [|auto]. intros [H|H]; [destruct (discrete_none _ _ _ H)|exact H].
Qed.
Print Assumptions C39_from_links.

(** links from below upwards in lexicographic order satisfy the requirement *)
Theorem C39_sorted_links n lks : upward n lks -> StronglySorted lexicographic lks -> links_ordered lks.
Proof. intros U S. exact (lex_ordered lks n U S). Qed.
Print Assumptions C39_sorted_links.
Example C39_from_links_ex : upward 4 [(0, 1); (0, 2); (1, 3)] /\ StronglySorted lexicographic [(0, 1); (0, 2); (1, 3)] /\
  from_links 4 [(0, 1); (0, 2); (1, 3)] = Some [[]; [true]; [true; false]; [true; true; false]].
Proof.
  split; [|split; [|reflexivity]].
  - intros x y [E|[E|[E|[]]]]; injection E as <- <-; lia.
  - repeat constructor; cbn; lia.
Qed.
(** without the requirement the result need not be transitive *)
Example C39_unordered_links : exists p, from_links 3 [(1, 2); (0, 1)] = Some p /\ ~ poset_ok p.
Proof.
  eexists. split; [reflexivity|]. intros [_ T]. specialize (T 0 1 2).
  destruct T as (r & E & H); [eexists; split; reflexivity|eexists; split; reflexivity|]. cbn in E. injection E as <-. discriminate.
Qed.

Theorem C39_new_max p c : poset_ok p -> (forall x, In x c -> x < length p) ->
  exists q, new_max p c = Some q /\ length q = S (length p) /\ poset_ok q /\
    decides (lesseq q) (S (length p)) (clos_refl_trans nat (fun x y => strictly p x y \/ (y = length p /\ In x c))).
Proof.
  intros P U. destruct (new_max_ok p c P U) as (q & E & L & S & G). exists q. split; [exact E|]. split; [exact L|].
  split; [eapply gen_poset; eauto|]. rewrite <- L. apply gen_decides; assumption.
Qed.
Print Assumptions C39_new_max.
Example C39_new_max_ex : poset_ok p5 /\ new_max p5 [3; 2] = Some (p5 ++ [[true; true; true; true; false]]).
Proof. split; [apply p5_ok|reflexivity]. Qed.

Theorem C39_partial_order p : poset_ok p ->
  is_order (fun i j => i = j \/ strictly p i j) /\ decides (lesseq p) (length p) (fun i j => i = j \/ strictly p i j).
Proof. exact (order_ok p). Qed.
Print Assumptions C39_partial_order.
Example C39_partial_order_ex : (lesseq p5 1 4, lesseq p5 1 2, lesseq p5 4 1, lesseq p5 4 4) = (Some true, Some false, Some false, Some true).
Proof. reflexivity. Qed.

Theorem C39_dual p : poset_ok p -> 0 < length p -> (Z.of_nat (length p) <= 2 ^ 32)%Z ->
  exists d, dual p = Some d /\ length d = length p /\ poset_ok d /\
    forall i j, i < length p -> j < length p -> lesseq d i j = lesseq p (length p - 1 - j) (length p - 1 - i).
Proof.
  intros P H0 H1. destruct (dual_ok p P H0 H1) as (d & E & L & S & R). exists d. split; [exact E|]. split; [exact L|].
  split; [eapply dual_poset; eauto|]. intros i j Hi Hj.
  destruct (lesseq_decides d (fun i j => i = j \/ strictly d i j) S) with (i := i) (j := j) as (r & -> & Er); [tauto|lia|lia|].
  destruct (lesseq_decides p (fun i j => i = j \/ strictly p i j) (proj1 P)) with (i := length p - 1 - j) (j := length p - 1 - i) as (r' & -> & Er'); [tauto|lia|lia|].
  f_equal. apply eq_true_iff_eq. rewrite Er, Er', R by auto. split; intros [|]; auto; left; lia.
Qed.
Print Assumptions C39_dual.
Example C39_dual_ex : dual p5 = Some [[]; [false]; [true; true]; [true; true; false]; [true; true; true; true]].
Proof. vm_compute. reflexivity. Qed.
(** The dual of the empty poset is not computed: p.size()-1 is 2^32-1 and the
    loop reads rows that do not exist. *)
Theorem C39_dual_empty_refuted : exists p, poset_ok p /\ dual p = None.
Proof.
  exists []. split; [|exact dual_empty]. split; [intros [|j] r E; discriminate|]. intros i j k (r & E & _). destruct j; discriminate.
Qed.
Print Assumptions C39_dual_empty_refuted.

Theorem C39_equal p q : poset_ok p -> poset_ok q -> exists r, poset_eqb p q = Some r /\
  (r = true <-> length p = length q /\ forall i j, strictly p i j <-> strictly q i j).
Proof. intros P Q. exact (poset_eqb_ok p q (proj1 P) (proj1 Q)). Qed.
Print Assumptions C39_equal.
Example C39_equal_ex : poset_eqb p5 p5 = Some true /\ poset_eqb p5 (resize (resize p5 4) 5) = Some false /\ poset_eqb p5 (resize p5 4) = Some false.
Proof. repeat split. Qed.

Theorem C39_resize p n : poset_ok p -> poset_ok (resize p n) /\ length (resize p n) = n /\
  forall i j, strictly (resize p n) i j <-> j < n /\ strictly p i j.
Proof. exact (resize_ok p n). Qed.
Print Assumptions C39_resize.
Example C39_resize_ex : resize p5 2 = [[]; [true]] /\ resize p5 6 = p5 ++ [[false; false; false; false; false]].
Proof. split; reflexivity. Qed.

Theorem C39_n_comparable p : poset_ok p -> n_comparable p = Some (n_pairs (lesseq p) (length p)).
Proof. exact (n_comparable_ok p). Qed.
Print Assumptions C39_n_comparable.
Example C39_n_comparable_ex : n_comparable p5 = Some 13 /\ n_pairs (lesseq p5) 5 = 13.
Proof. split; reflexivity. Qed.

Theorem C39_n_comparable_from_Hasse h : downward h ->
  exists p, from_hasse h = Some p /\ n_comparable_from_Hasse h = Some (n_pairs (lesseq p) (length h)).
Proof.
  intros D. destruct (from_hasse_ok h D) as (p & E & L & S & G). exists p. split; [exact E|].
  rewrite (n_comparable_from_Hasse_ok h p D E), (n_comparable_ok p), L by (eapply gen_poset; eauto). reflexivity.
Qed.
Print Assumptions C39_n_comparable_from_Hasse.
Example C39_n_comparable_from_Hasse_ex : n_comparable_from_Hasse h5 = Some 13 /\
  n_comparable_from_Hasse [[]; [0]; [0]; []; [3]; [4]; [5; 3]] = Some 15.
Proof. split; reflexivity. Qed.

(** ** C40 *)
Theorem C40_maxima p b : poset_ok p -> (forall y, nth y b false = true -> y < length p) ->
  exists r, maxima p b = Some r /\ length r = length b /\ forall y, nth y r false = true <-> maximal_in p b y.
Proof. intros P H. exact (maxima_ok p P b H). Qed.
Print Assumptions C40_maxima.
Theorem C40_minima p b : poset_ok p -> (forall y, nth y b false = true -> y < length p) ->
  exists r, minima p b = Some r /\ length r = length p /\ forall y, nth y r false = true <-> minimal_in p b y.
Proof. intros P H. exact (minima_ok p b H). Qed.
Print Assumptions C40_minima.
Example C40_maxima_ex : maxima p5 [false; true; true; true] = Some [false; false; false; true] /\
  maxima p5 [true; true; true; false; false] = Some [false; true; true; false; false] /\
  minima p5 [false; true; true; true] = Some [false; true; true; false; false].
Proof. repeat split. Qed.

Theorem C40_above_below p x : poset_ok p -> x < length p ->
  (exists r, above p x = Some r /\ length r = length p /\ forall y, nth y r false = true <-> strictly p x y) /\
  (exists r, below p x = Some r /\ length r = x /\ forall y, nth y r false = true <-> strictly p y x).
Proof.
  intros P H. split; [exact (above_ok p P x H)|]. destruct (get_some p x H) as [b E]. exists b. split; [exact E|].
  split; [exact (proj1 P _ _ E)|]. intros y. symmetry. apply strictly_mem. exact E.
Qed.
Print Assumptions C40_above_below.
Theorem C40_covers p x : poset_ok p -> x < length p ->
  (exists r, covered_by p x = Some r /\ length r = x /\ forall y, nth y r false = true <-> covers p y x) /\
  (exists r, covers_of p x = Some r /\ length r = length p /\ forall y, nth y r false = true <-> covers p x y).
Proof. intros P H. split; [exact (covered_by_ok p P x H)|exact (covers_of_ok p P x H)]. Qed.
Print Assumptions C40_covers.
Example C40_covers_ex : above p5 1 = Some [false; false; false; true; true] /\ covered_by p5 4 = Some [false; true; true; false] /\
  covers_of p5 0 = Some [false; true; true; false; false].
Proof. repeat split. Qed.

Theorem C40_hasse_diagram p : poset_ok p -> exists h, hasseDiagram p = Some h /\ length h = length p /\
  (forall x y, link h x y <-> covers p x y) /\ forall l, In l h -> StronglySorted lt l.
Proof. exact (hasse_ok p). Qed.
Print Assumptions C40_hasse_diagram.
(** the Hasse diagram of the elements up to m, in the order of the poset *)
Theorem C40_hasse_diagram_to p m : poset_ok p -> m < length p -> exists h, hasseDiagram_to p m = Some h /\ length h = S m /\
  (forall x y, link h x y <-> covers p x y /\ (y = m \/ strictly p y m)) /\ forall l, In l h -> StronglySorted lt l.
Proof. intros P H. exact (hasse_to_ok p P m H). Qed.
Print Assumptions C40_hasse_diagram_to.
Example C40_hasse_diagram_ex : hasseDiagram p5 = Some [[]; [0]; [0]; [1; 2]; [1; 2]] /\
  hasseDiagram_to p5 2 = Some [[]; []; [0]].
Proof. split; reflexivity. Qed.

(** The Hasse diagram gives the poset back. *)
Theorem C40_hasse_round_trip p : poset_ok p -> exists h, hasseDiagram p = Some h /\ from_hasse h = Some p.
Proof. exact (hasse_round_trip p). Qed.
Print Assumptions C40_hasse_round_trip.
Example C40_hasse_round_trip_ex : exists h, hasseDiagram p5 = Some h /\ from_hasse h = Some p5.
Proof. eexists. split; reflexivity. Qed.
