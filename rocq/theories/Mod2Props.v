(** Property C69: incremental linear systems over the field with two elements (mod2_system.h, mod2_system.cpp) *)

From Coq Require Import List Arith NArith ZArith Lia Bool.
From Verif Require Import VecModel RunModel RunProofs F2Model F2Spec F2Basics F2Proofs Mod2Model Mod2Proofs Mod2Basis.
Import ListNotations.
Open Scope nat_scope.

Theorem C69_empty : echelon_system 0 [] m2_empty.
Proof. exact empty_ok. Qed.
Print Assumptions C69_empty.
Theorem C69_extend n E s k : echelon_system n E s -> fst (extend s k) = n /\ echelon_system (n + k) E (snd (extend s k)).
Proof. exact (extend_ok n E s k). Qed.
Print Assumptions C69_extend.
Theorem C69_rank n E s : echelon_system n E s -> consistent s = true /\ m2_rank s = Some (length E) /\ m2_dimension s = Some (n - length E).
Proof. intros H. split; [exact (sys_consistent n E s H)|exact (sys_rank n E s H)]. Qed.
Print Assumptions C69_rank.
(** a solution, zero at the unknowns that are not pivots *)
Theorem C69_a_solution n E s : echelon_system n E s -> gives (a_solution s) (fun x => within n x /\ solution n E x /\
  forall p, nth_error (pivot_index s) p = Some None -> coord x p = false) sure.
Proof.
  intros H. eapply gives_mono; [exact (a_solution_ok n E s H)|]. intros x (A & B & C). split; [auto|]. split; [auto|]. intros p Hp. apply C.
  intros I. apply in_map_iff in I. destruct I as ([row r] & EQ & I). apply In_nth_error in I. destruct I as [i Ei].
  pose proof (es_pivot n E s H i row r Ei) as X. cbn [fst] in EQ. congruence.
Qed.
Print Assumptions C69_a_solution.
(** the same solutions, and each pivot occurs only in its own equation *)
Theorem C69_reduce n E s : echelon_system n E s -> gives (reduce s) (fun s' => exists E', echelon_system n E' s' /\
  length E' = length E /\ (forall x, solution n E x <-> solution n E' x) /\
  forall i j row r row' r', nth_error E' i = Some (row, r) -> nth_error E' j = Some (row', r') -> coord row (firstBit row') = (i =? j)) sure.
Proof.
  intros H. eapply gives_mono; [exact (reduce_ok n E s H)|]. intros s' (E' & H' & (L & _ & X) & R). exists E'. split; [auto|]. split; [auto|]. split; [auto|].
  intros i j row r row' r' Ei Ej. apply (rd_clear _ _ R); [apply (map_nth_error fst i E' Ei)|apply (map_nth_error (fun e : N * bool => firstBit (fst e)) j E' Ej)].
Qed.
Print Assumptions C69_reduce.
Theorem C69_solution_basis n E s : echelon_system n E s -> gives (solution_basis s) (fun '(b, s') =>
   length b = n - length E /\ basis_of (fun x => within n x /\ forall row r, In (row, r) E -> scalar n row x = false) b /\
   exists E', echelon_system n E' s' /\ forall x, solution n E x <-> solution n E' x) sure.
Proof.
  intros H. eapply gives_mono; [exact (solution_basis_ok n E s H)|]. intros [b s'] (A & B & (E' & H' & (_ & _ & X) & _)). split; [auto|]. split; [exact B|].
  exists E'. auto.
Qed.
Print Assumptions C69_solution_basis.
(** three unknowns, x0+x1+x2=1, x1+x2=0 *)
Example C69_ex : let s := mk_sys [mk_eq [0; 1; 2] true; mk_eq [1; 2] false] [Some 0; Some 1; None] in
  echelon_system 3 [(7, true); (6, false)]%N s /\ m2_dimension s = Some 1 /\ a_solution s = Ok 1%N /\
  reduce s = Ok (mk_sys [mk_eq [0] true; mk_eq [1; 2] false] [Some 0; Some 1; None]) /\
  solution_basis s = Ok ([6]%N, mk_sys [mk_eq [0] true; mk_eq [1; 2] false] [Some 0; Some 1; None]).
Proof.
  cbv zeta. split; [|vm_compute; repeat split]. constructor; try reflexivity.
  - intros row r [I|[I|[]]]; injection I as <- <-; intros i Hi; unfold coord; apply N.bits_above_log2;
    [change (N.log2 7) with 2%N|change (N.log2 6) with 2%N]; lia.
  - constructor.
    + reflexivity.
    + intros [|[|i]] v p Ev Ep; cbn in Ev, Ep; [| |destruct i; discriminate]; injection Ev as <-; injection Ep as <-; (split; [reflexivity|]);
      intros [|[|i]] Hi; try lia; reflexivity.
    + intros [|[|i]] [|[|j]] v p Hij Ev Ep; try lia; cbn in Ev, Ep; try (destruct i; discriminate); try (destruct j; discriminate); injection Ev as <-; injection Ep as <-; reflexivity.
  - intros [|[|i]] row r Ei; cbn in Ei; [| |destruct i; discriminate]; injection Ei as <- <-; reflexivity.
  - intros [|[|[|p]]] Hp Np; [exfalso; apply Np; now left|exfalso; apply Np; right; now left|reflexivity|lia].
Qed.

(** What [add] does: it answers true just if the new equation follows from those present
    (and then changes nothing); otherwise it leaves an inconsistent system. *)
Theorem C69_add n E s l r : echelon_system n E s -> (forall i, In i l -> i < n) ->
  gives (add s l r) (fun '(b, s') =>
    (b = true -> s' = s /\ forall x, solution n E x -> sum2 n (fun p => listed l p && coord x p) = r) /\
    (b = false -> consistent s' = false /\
      exists x, within n x /\ solution n E x /\ sum2 n (fun p => listed l p && coord x p) = negb r)) sure.
Proof.
  intros H HL. eapply gives_mono; [exact (add_ok n E s l r H HL)|]. intros [b s'] [A B]. split; [exact A|]. intros F. destruct (B F) as [[r' ->] X]. split; [|exact X].
  unfold consistent. cbn [eqns]. now rewrite rev_app_distr.
Qed.
Print Assumptions C69_add.
(** The comment on [add] ("returns whether consistent") does not hold: the equation x0=1 in
    one unknown has a solution. The test [eq.lhs.empty()] is made before [eq.lhs] is filled. *)
Theorem C69_add_refuted : exists n E s l r x, echelon_system n E s /\ (forall i, In i l -> i < n) /\
  solution n E x /\ sum2 n (fun p => listed l p && coord x p) = r /\
  exists s', add s l r = Ok (false, s') /\ consistent s' = false /\ m2_rank s' = None.
Proof.
  exists 1, [], (snd (extend m2_empty 1)), [0], true, 1%N. split; [apply (C69_extend 0 [] m2_empty 1 C69_empty)|].
  split; [intros i [<-|[]]; lia|]. split; [intros row r []|]. split; [reflexivity|]. eexists. vm_compute. repeat split.
Qed.
Print Assumptions C69_add_refuted.
(** Consequently no sequence of calls makes a system with a proper equation. *)
Inductive reachable : system -> Prop :=
| reach_empty : reachable m2_empty
| reach_extend s k : reachable s -> reachable (snd (extend s k))
| reach_add s l r b s' : reachable s -> (forall i, In i l -> i < m2_size s) -> add s l r = Ok (b, s') -> reachable s'.
Theorem C69_reachable s : reachable s -> echelon_system (m2_size s) [] s \/ (consistent s = false /\ exists r, eqns s = [mk_eq [] r]).
Proof.
  induction 1 as [|s k H IH|s l r b s' H IH HL HA].
  - left. exact C69_empty.
  - destruct IH as [IH|IH]; [left|right; exact IH]. destruct (C69_extend _ _ s k IH) as [A B].
    replace (m2_size (snd (extend s k))) with (m2_size s + k); [exact B|]. symmetry. apply (es_size _ _ _ B).
  - destruct IH as [IH|(C & r' & IH)].
    + pose proof (add_ok _ _ s l r IH HL) as G. rewrite HA in G. destruct G as [A B]. destruct b.
      * destruct (A eq_refl) as [-> _]. now left.
      * right. destruct (B eq_refl) as [[r' ->] _]. unfold consistent. cbn [eqns]. rewrite (es_eqns _ _ s IH). cbn. eauto.
    + rewrite (add_inconsistent s l r C) in HA. injection HA as <- <-. right. eauto.
Qed.
Print Assumptions C69_reachable.
Example C69_reachable_ex : reachable (mk_sys [mk_eq [] true] [None; None]).
Proof. apply (reach_add (snd (extend m2_empty 2)) [0; 1] true false); [apply reach_extend, reach_empty|cbn; lia|reflexivity]. Qed.
