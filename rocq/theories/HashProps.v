(** Properties C34 (stable dense numbering) and C35 (overflow of the number type). *)

From Coq Require Import List Arith NArith Bool Lia.
From Verif Require Import VecModel HashModel HashSpec HashProofs.
Import ListNotations.
Open Scope nat_scope.

(** [good]: the table is in working order (see HashProofs); the constructor
    gives such a table and match preserves it. *)
Theorem C34_construct E hash w : (forall x m, 0 < m -> hash x m < m) ->
  forall (pool : list E) n, NoDup pool -> (N.of_nat (length pool) <= 2 ^ w - 1)%N ->
  exists t, construct E hash w pool n = Some t /\ d_pool t = pool /\ good E hash w t.
Proof.
  intros Hh pool n ND Hw. unfold construct. apply reconstruct_ok; auto.
  pose proof (pow2_gt n). lia.
Qed.
Print Assumptions C34_construct.
(** a hash function with many collisions *)
Definition h3 (x m : nat) : nat := Nat.min (x mod 3) (m - 1).
Lemma h3_range x m : 0 < m -> h3 x m < m.
Proof. intros H. unfold h3. lia. Qed.
Definition dif (x y : nat) : bool := negb (x =? y).
Lemma dif_ok x y : dif x y = false <-> x = y.
Proof. unfold dif. destruct (Nat.eqb_spec x y); cbn; split; congruence. Qed.
Example C34_construct_ex : NoDup [7; 4; 1; 0] /\
  construct nat h3 8 [7; 4; 1; 0] 2 = Some (mk 8 [3; 0; 1; 2; 255; 255; 255; 255]%N [7; 4; 1; 0]).
Proof. split; [repeat constructor; cbn; intuition discriminate|reflexivity]. Qed.

(** find gives the number of the entry, or empty exactly for an unknown entry *)
Theorem C34_find E differs hash w :
  (forall x m, 0 < m -> hash x m < m) -> (forall x y, differs x y = false <-> x = y) ->
  forall (t : table E) x, good E hash w t ->
  (forall i, nth_error (d_pool t) i = Some x -> find E differs hash w t x = Some (N.of_nat i)) /\
  (~ In x (d_pool t) -> find E differs hash w t x = Some (empty w)) /\
  (forall i, find E differs hash w t x = Some i ->
     i = empty w /\ ~ In x (d_pool t) \/ i <> empty w /\ nth_error (d_pool t) (N.to_nat i) = Some x).
Proof.
  intros Hh Hd t x G.
  assert (A : forall i, nth_error (d_pool t) i = Some x -> find E differs hash w t x = Some (N.of_nat i))
    by (intros i Hi; apply find_present; auto).
  assert (B : ~ In x (d_pool t) -> find E differs hash w t x = Some (empty w)) by (intros; apply find_absent; auto).
  split; [exact A|]. split; [exact B|]. intros i Hi.
  assert (D : In x (d_pool t) \/ ~ In x (d_pool t)).
  { clear -Hd. induction (d_pool t) as [|y l [IH|IH]]; [right; intros []|left; right; exact IH|].
    destruct (differs x y) eqn:Q.
    - right. intros [->|I]; [|contradiction]. rewrite (proj2 (Hd x x) eq_refl) in Q. discriminate.
    - left. left. symmetry. apply Hd. exact Q. }
  destruct D as [D|D]; [right|left; split; [|exact D]; specialize (B D); congruence].
  apply In_nth_error in D as [j Ej]. specialize (A j Ej). assert (i = N.of_nat j) as -> by congruence.
  rewrite Nnat.Nat2N.id. split; [|exact Ej]. destruct G as (_ & Hw & _).
  assert (j < length (d_pool t)) by (apply nth_error_Some; congruence). lia.
Qed.
Print Assumptions C34_find.
Example C34_find_ex : forall t, construct nat h3 8 [7; 4; 1; 0] 2 = Some t ->
  find nat dif h3 8 t 1 = Some 2%N /\ find nat dif h3 8 t 0 = Some 3%N /\ find nat dif h3 8 t 9 = Some 255%N.
Proof. intros t H. vm_compute in H. injection H as <-. repeat split. Qed.

Theorem C34_match E differs hash w :
  (forall x m, 0 < m -> hash x m < m) -> (forall x y, differs x y = false <-> x = y) ->
  forall (t : table E) x, good E hash w t ->
  (forall i, nth_error (d_pool t) i = Some x -> match_ E differs hash w t x = Some (t, Number (N.of_nat i))) /\
  (~ In x (d_pool t) -> (N.of_nat (length (d_pool t)) < 2 ^ w - 1)%N ->
   exists t', match_ E differs hash w t x = Some (t', Number (N.of_nat (length (d_pool t)))) /\
     d_pool t' = d_pool t ++ [x] /\ good E hash w t').
Proof.
  intros Hh Hd t x G. split; [intros i Hi; apply match_present; auto|]. intros NI Hw. apply match_absent; auto.
Qed.
Print Assumptions C34_match.
Example C34_match_ex : forall t, construct nat h3 8 [7; 4; 1] 2 = Some t -> d_mod t = 8 /\
  match_ nat dif h3 8 t 4 = Some (t, Number 1%N) /\
  exists t', match_ nat dif h3 8 t 10 = Some (t', Number 3%N) /\ d_hash t' = [255; 0; 1; 2; 3; 255; 255; 255]%N.
Proof. intros t H. vm_compute in H. injection H as <-. split; [reflexivity|]. split; [reflexivity|]. eexists. split; reflexivity. Qed.

(** Any series of calls of match on a table, with any hash function: the numbers
    are those of the first occurrences. *)
Theorem C34_history E differs hash w :
  (forall x m, 0 < m -> hash x m < m) -> (forall x y, differs x y = false <-> x = y) ->
  forall (t : table E) xs seen ns, good E hash w t ->
  numbering E (d_pool t) xs seen ns -> (N.of_nat (length seen) <= 2 ^ w - 1)%N ->
  exists t', match_all E differs hash w t xs = Some (t', map (fun i => Number (N.of_nat i)) ns) /\
    d_pool t' = seen /\ good E hash w t'.
Proof. intros Hh Hd t xs seen ns. apply match_all_ok; auto. Qed.
Print Assumptions C34_history.
Example C34_history_ex : forall t, construct nat h3 8 [] 0 = Some t -> d_mod t = 2 /\
  exists t', match_all nat dif h3 8 t [7; 4; 7; 1; 0; 4; 10; 13; 7] =
    Some (t', map (fun i => Number (N.of_nat i)) [0; 1; 0; 2; 3; 1; 4; 5; 0]) /\
    d_mod t' = 8 /\ d_pool t' = [7; 4; 1; 0; 10; 13].
Proof. intros t H. vm_compute in H. injection H as <-. split; [reflexivity|]. eexists. split; [reflexivity|]. split; reflexivity. Qed.

(** The numbering of a series exists and its numbers are dense and faithful. *)
Theorem C34_numbering_faithful E (old : list E) xs seen ns : numbering E old xs seen ns -> NoDup old ->
  NoDup seen /\ length ns = length xs /\
  (forall k x i, nth_error xs k = Some x -> nth_error ns k = Some i -> nth_error seen i = Some x) /\
  (forall y, In y seen <-> In y old \/ In y xs).
Proof.
  induction 1 as [old|old x i xs seen ns Hi N IH|old x xs seen ns Hn N IH]; intros ND.
  - split; [exact ND|]. split; [reflexivity|]. split; [intros [|k]; discriminate|]. intros y; split; [auto|intros [I|[]]; exact I].
  - destruct (IH ND) as (A & B & C & D). split; [exact A|]. split; [cbn; congruence|]. split.
    + intros [|k] z j Hz Hj; [|exact (C k z j Hz Hj)]. cbn in Hz, Hj. injection Hz as <-. injection Hj as <-.
      destruct (numbering_prefix _ _ _ _ _ N) as [l ->]. unfold numbered in Hi. rewrite nth_error_app1; [exact Hi|].
      apply nth_error_Some. congruence.
    + intros y. rewrite D. cbn. split; [tauto|]. intros [I|[<-|I]]; [tauto| |tauto]. left. eapply nth_error_In. exact Hi.
  - destruct (IH (NoDup_snoc _ _ _ ND Hn)) as (A & B & C & D). split; [exact A|]. split; [cbn; congruence|]. split.
    + intros [|k] z j Hz Hj; [|exact (C k z j Hz Hj)]. cbn in Hz, Hj. injection Hz as <-. injection Hj as <-.
      destruct (numbering_prefix _ _ _ _ _ N) as [l ->]. rewrite <- app_assoc. rewrite nth_error_app2, Nat.sub_diag by lia. reflexivity.
    + intros y. rewrite D, in_app_iff. cbn. tauto.
Qed.
Print Assumptions C34_numbering_faithful.
Example C34_numbering_faithful_ex : numbering nat [5] [7; 5; 7; 8] [5; 7; 8] [1; 0; 1; 2].
Proof.
  apply (numbering_new nat [5] 7); [cbn; lia|]. apply numbering_old; [reflexivity|]. apply numbering_old; [reflexivity|].
  apply (numbering_new nat [5; 7] 8); [cbn; lia|]. constructor.
Qed.

(** ** C35 *)
(** Full statement: match returns a number other than empty, or throws; every
    entry stored is found again. It holds while fewer than 2^w-1 entries are stored. *)
Theorem C35_match_not_empty_partial E differs hash w :
  (forall x m, 0 < m -> hash x m < m) -> (forall x y, differs x y = false <-> x = y) ->
  forall (t : table E) x, good E hash w t -> (N.of_nat (length (d_pool t)) < 2 ^ w - 1)%N ->
  exists t' i, match_ E differs hash w t x = Some (t', Number i) /\ i <> empty w /\ find E differs hash w t' x = Some i.
Proof.
  intros Hh Hd t x G Hw. pose proof (C34_find E differs hash w Hh Hd t x G) as (F1 & F2 & F3).
  destruct (C34_match E differs hash w Hh Hd t x G) as [M1 M2].
  assert (D : (exists i, nth_error (d_pool t) i = Some x) \/ ~ In x (d_pool t)).
  { clear -Hd. induction (d_pool t) as [|y l [[i IH]|IH]]; [right; intros []|left; exists (S i); exact IH|].
    destruct (differs x y) eqn:Q.
    - right. intros [->|I]; [|contradiction]. rewrite (proj2 (Hd x x) eq_refl) in Q. discriminate.
    - left. exists 0. cbn. f_equal. symmetry. apply Hd. exact Q. }
  destruct D as [[i Hi]|NI].
  - exists t, (N.of_nat i). split; [apply M1; exact Hi|]. split; [|apply F1; exact Hi].
    assert (i < length (d_pool t)) by (apply nth_error_Some; congruence). unfold empty. lia.
  - destruct (M2 NI Hw) as (t' & Em & Ep & G'). exists t', (N.of_nat (length (d_pool t))). split; [exact Em|].
    split; [unfold empty; lia|]. apply find_present; auto. rewrite Ep. unfold get. rewrite nth_error_app2, Nat.sub_diag by lia. reflexivity.
Qed.
Print Assumptions C35_match_not_empty_partial.
Example C35_match_not_empty_partial_ex : forall t, construct nat h3 2 [7; 4] 2 = Some t ->
  exists t', match_ nat dif h3 2 t 5 = Some (t', Number 2%N) /\ find nat dif h3 2 t' 5 = Some 2%N.
Proof. intros t H. vm_compute in H. injection H as <-. eexists. split; reflexivity. Qed.

(** With 2^w-1 entries a new one gets the number reserved for "empty", and is not found again. *)
Theorem C35_last_number E differs hash w :
  (forall x m, 0 < m -> hash x m < m) -> (forall x y, differs x y = false <-> x = y) ->
  forall (t : table E) x, good E hash w t -> ~ In x (d_pool t) -> (N.of_nat (length (d_pool t)) = 2 ^ w - 1)%N ->
  exists t', match_ E differs hash w t x = Some (t', Number (empty w)) /\ d_pool t' = d_pool t ++ [x] /\
    find E differs hash w t' x = Some (empty w).
Proof. intros Hh Hd t x. apply match_exhausted; auto. Qed.
Print Assumptions C35_last_number.
Example C35_last_number_ex : forall t, construct nat h3 2 [7; 4; 1] 2 = Some t ->
  exists t', match_ nat dif h3 2 t 5 = Some (t', Number 3%N) /\ find nat dif h3 2 t' 5 = Some 3%N.
Proof. intros t H. vm_compute in H. injection H as <-. eexists. split; reflexivity. Qed.

(** With 2^w entries or more, nothing is added any more: a number already in a slot is returned, or an exception is thrown. *)
Theorem C35_throws E differs hash w (t : table E) x t' a : (2 ^ w <= N.of_nat (length (d_pool t)))%N ->
  match_ E differs hash w t x = Some (t', a) -> t' = t /\ (a = Overflow \/ exists i, a = Number i /\ i <> empty w).
Proof.
  intros H. unfold match_. destruct (probe _ _ _ _ _ _ _) as [[h i]|]; [|discriminate].
  destruct (N.eqb_spec i (empty w)) as [D|D]; cbn [negb].
  - assert (Q : (number w (length (d_pool t)) =? N.of_nat (length (d_pool t)))%N = false).
    { apply N.eqb_neq. unfold number. assert (2 ^ w <> 0)%N by (apply N.pow_nonzero; lia).
      pose proof (N.mod_upper_bound (N.of_nat (length (d_pool t))) (2 ^ w) H0). lia. }
    rewrite Q. cbn [negb]. intros A. injection A as <- <-. auto.
  - intros A. injection A as <- <-. split; [reflexivity|]. right. exists i. auto.
Qed.
Print Assumptions C35_throws.
Example C35_throws_ex : match_ nat dif h3 1 (mk 4 [1; 0; 1; 1]%N [0; 4]) 2 = Some (mk 4 [1; 0; 1; 1]%N [0; 4], Overflow).
Proof. reflexivity. Qed.

Theorem C35_never_returns_empty_refuted :
  exists (w : N) (xs : list nat) t t' l, construct nat h3 w [] 2 = Some t /\
    match_all nat dif h3 w t xs = Some (t', l) /\ In (Number (empty w)) l.
Proof.
  exists 2%N, [0; 1; 2; 3]. destruct (construct nat h3 2 [] 2) as [t|] eqn:Et; [|discriminate].
  exists t. vm_compute in Et. injection Et as <-. do 2 eexists. split; [reflexivity|]. split; [vm_compute; reflexivity|].
  vm_compute. tauto.
Qed.
Print Assumptions C35_never_returns_empty_refuted.
