(** Proofs about [derived] of TallyModel.v *)

From Coq Require Import List NArith Arith Lia Bool.
From Verif Require Import VecModel VecProofs RunModel RunProofs TallyModel TallySpec TallyProofs.
Import ListNotations.
Open Scope N_scope.

Lemma NoDup_below (l : list N) n : NoDup l -> (forall x, In x l -> x < n) -> N.of_nat (length l) <= n.
Proof.
  intros H B. assert (length (map N.to_nat l) <= length (seq 0 (N.to_nat n)))%nat.
  { apply NoDup_incl_length.
    - apply FinFun.Injective_map_NoDup; [|auto]. intros x y E. lia.
    - intros x I. apply in_map_iff in I as (y & <- & I). apply B in I. apply in_seq. lia. }
  rewrite map_length, seq_length in H0. lia.
Qed.
Lemma filter_length {A} (p : A -> bool) l : (length (filter p l) <= length l)%nat.
Proof. induction l as [|a l IH]; cbn; [lia|]. destruct (p a); cbn; lia. Qed.
Lemma same_members (l l' : list N) : NoDup l -> NoDup l' -> (forall x, In x l <-> In x l') -> length l = length l'.
Proof.
  intros A B H. apply Nat.le_antisymm; apply NoDup_incl_length; auto; intros x; apply H.
Qed.
Lemma how_many_cons f i P m : how_many f (i :: P) m = how_many f P m + if f i =? m then 1 else 0.
Proof. unfold how_many. cbn [filter]. destruct (f i =? m); cbn [length]; lia. Qed.

Section Derived.
Variables cw mw : nat.
Hypothesis cw1 : (1 <= cw)%nat.
Hypothesis mw1 : (1 <= mw)%nat.

Definition indices (t : tv) : list N := 0 :: map N.of_nat (seq 0 (length (count t))) ++ map fst (overflow t).
Lemma in_indices t f k : repr cw t f -> k = 0 \/ 0 < f k -> In k (indices t).
Proof.
  intros R [->|H]; [now left|]. right. apply in_or_app. destruct (N.lt_ge_cases k (csize t)) as [L|L].
  - left. apply in_map_iff. exists (N.to_nat k). split; [lia|]. apply in_seq. unfold csize in L. lia.
  - right. pose proof (r_over cw t f R k L) as O. destruct (m_find k (overflow t)) eqn:E; [|lia].
    apply m_find_In in E. apply in_map_iff. now exists (k, n).
Qed.

Definition hist (f : N -> N) (P : list N) (m : N) : N := how_many f P m + if m =? 0 then 1 else 0.

Lemma derived_ok t f limit : repr cw t f -> max t < 2 ^ 64 - 2 ->
  exists mu P, derived cw mw t limit = Ok mu /\ NoDup P /\ (forall k, In k P <-> k = 0 \/ 0 < f k) /\
    repr mw mu (hist f P).
Proof.
  intros R HM. unfold derived.
  destruct (tally_ok mw mw1 (tv_new limit) (fun _ => 0) 0 (repr_new mw mw1 limit) ltac:(lia) ltac:(cbn; lia)) as (b0 & mu0 & E0 & R0 & _).
  rewrite E0. cbn [bind].
  assert (SZ : size t = max t + 1) by (apply (size_ok cw cw1 t f R); lia).
  enough (GOAL : gives (loop (length (count t) + length (overflow t) + 1)
     (fun '(_, i) => Ok (i <? size t))
     (fun '(mu, i) => run m <- multiplicity cw t i; run (_, mu) <- tally mw mu m; run i <- advance t i; Ok (mu, i)) (mu0, 0))
     (fun s => exists P, NoDup P /\ (forall k, In k P <-> k = 0 \/ 0 < f k) /\ repr mw (fst s) (hist f P)) sure).
  { destruct (loop _ _ _ _) as [[mu i]|e]; [|destruct GOAL]. destruct GOAL as (P & A & B & C). exists mu, P. auto. }
  apply (gives_loop
    (fun s => exists P, NoDup P /\ (forall k, In k P <-> k < snd s /\ (k = 0 \/ 0 < f k)) /\ repr mw (fst s) (hist f P)
        /\ (snd s = 0 \/ 0 < f (snd s) \/ snd s = size t))
    (fun s => (length (count t) + length (overflow t) + 1
               - length (filter (fun k => (k <? snd s)%N) (nodup N.eq_dec (filter (fun k => (k =? 0)%N || (0 <? f k)%N) (indices t)))))%nat)
    (fun s => snd s <? size t)).
  - exists []. split; [constructor|]. split; [cbn; intros; lia|]. split; [|now left].
    eapply repr_ext; [|exact R0]. intros i. unfold add_to, hist, how_many. cbn. destruct (i =? 0); auto.
  - cbn [snd]. lia.
  - intros [mu i] _. reflexivity.
  - intros [mu i] (P & ND & HP & RP & HI). cbn [fst snd] in *. intros C. apply N.ltb_lt in C.
    set (U := nodup N.eq_dec (filter (fun k => (k =? 0) || (0 <? f k)) (indices t))).
    assert (UN : NoDup U) by apply NoDup_nodup.
    assert (UI : forall k, In k U <-> (k = 0 \/ 0 < f k)).
    { intros k. unfold U. rewrite nodup_In, filter_In, orb_true_iff, N.eqb_eq, N.ltb_lt. split; [tauto|].
      intros H. split; [now apply (in_indices t f)|auto]. }
    assert (UL : (length U <= length (count t) + length (overflow t) + 1)%nat).
    { replace (length (count t) + length (overflow t) + 1)%nat with (length (indices t)).
      - apply NoDup_incl_length; auto. intros k I. apply UI in I. now apply (in_indices t f).
      - unfold indices. cbn. rewrite app_length, !map_length, seq_length. lia. }
    assert (IU : In i U) by (apply UI; lia).
    assert (FL : forall a b, a <= i -> i < b -> (length (filter (fun k => (k <? a)%N) U) < length (filter (fun k => (k <? b)%N) U))%nat).
    { intros a b Ha Hb. apply (NoDup_incl_length (l := i :: filter (fun k => k <? a) U)).
      - constructor; [|now apply NoDup_filter]. rewrite filter_In. intros [_ X]. apply N.ltb_lt in X. lia.
      - intros k [<-|I].
        + apply filter_In. split; auto. apply N.ltb_lt. auto.
        + apply filter_In in I as [I X]. apply N.ltb_lt in X. apply filter_In. split; auto. apply N.ltb_lt. lia. }
    assert (LE : forall a, (length (filter (fun k => (k <? a)%N) U) <= length U)%nat) by (intros; apply filter_length).
    split; [pose proof (FL i (i + 1) ltac:(lia) ltac:(lia)); specialize (LE (i + 1)); lia|].
    rewrite (multiplicity_ok cw cw1 t f i R). cbn [bind].
    assert (LP : N.of_nat (length P) <= i) by (apply NoDup_below; auto; intros x I; now apply HP in I).
    assert (HL : hist f P (f i) + 1 < 2 ^ 64).
    { unfold hist. pose proof (filter_length (fun k => f k =? f i) P) as FP. unfold how_many.
      destruct (f i =? 0); lia. }
    destruct (tally_ok mw mw1 mu (hist f P) (f i) RP (r_small cw t f R i) HL) as (b & mu' & E & R' & _).
    rewrite E. cbn [bind].
    assert (R2 : repr mw mu' (hist f (i :: P))).
    { eapply repr_ext; [|exact R']. intros m. unfold hist, add_to. rewrite how_many_cons, (N.eqb_sym m (f i)).
      destruct (f i =? m); lia. }
    assert (ND2 : NoDup (i :: P)) by (constructor; auto; intros I; apply HP in I; lia).
    destruct (N.lt_ge_cases i (max t)) as [L|L].
    + destruct (advance_ok cw cw1 t f i R L) as (j & EA & N1 & N2 & N3). rewrite EA. cbn [bind]. apply gives_ok. cbn [fst snd].
      split; [|pose proof (FL i j ltac:(lia) N1); specialize (LE j); lia].
      exists (i :: P). split; [auto|]. split; [|auto]. intros k. cbn [In]. rewrite HP. split.
      * intros [<-|[A B]]; lia.
      * intros [A B]. destruct (N.lt_trichotomy k i) as [|[|]]; [right; auto|left; auto|].
        rewrite N3 in B by lia. lia.
    + rewrite advance_end by auto. cbn [bind]. apply gives_ok. cbn [fst snd].
      split; [|pose proof (FL i (size t) ltac:(lia) ltac:(lia)); specialize (LE (size t)); lia].
      exists (i :: P). split; [auto|]. split; [|auto]. intros k. cbn [In]. rewrite HP. split.
      * intros [<-|[A B]]; lia.
      * intros [A B]. destruct (N.lt_trichotomy k i) as [|[|]]; [right; auto|left; auto|]. lia.
  - intros [mu i] (P & ND & HP & RP & HI). cbn [fst snd] in *. intros C. apply N.ltb_ge in C.
    exists P. split; [auto|]. split; [|auto]. intros k. rewrite HP. split; [tauto|]. intros B. split; [|auto].
    destruct B as [->|B]; [lia|]. apply (r_max cw t f R) in B. lia.
Qed.

Lemma derived_counts t f limit l : repr cw t f -> max t < 2 ^ 64 - 2 -> support f l ->
  exists mu, derived cw mw t limit = Ok mu /\
    (forall m, 0 < m -> multiplicity mw mu m = Ok (how_many f l m)) /\
    multiplicity mw mu 0 = Ok (if f 0 =? 0 then 2 else 1).
Proof.
  intros R HM [ND SL]. destruct (derived_ok t f limit R HM) as (mu & P & E & NP & HP & RM).
  exists mu. split; [auto|]. split.
  - intros m Hm. rewrite (multiplicity_ok mw mw1 mu _ m RM). f_equal. unfold hist. destruct (N.eqb_spec m 0); [lia|].
    rewrite N.add_0_r. unfold how_many. f_equal. apply same_members; [now apply NoDup_filter|now apply NoDup_filter|].
    intros x. rewrite !filter_In, HP, SL, N.eqb_eq. intuition lia.
  - rewrite (multiplicity_ok mw mw1 mu _ 0 RM). f_equal. unfold hist. cbn [N.eqb].
    assert (EQ : how_many f P 0 = how_many f [0] 0).
    { unfold how_many. f_equal. apply same_members; [now apply NoDup_filter|apply NoDup_filter; repeat constructor; auto|].
      intros x. rewrite !filter_In, HP, N.eqb_eq. cbn. intuition lia. }
    rewrite EQ. unfold how_many. cbn. destruct (f 0 =? 0); reflexivity.
Qed.
End Derived.
