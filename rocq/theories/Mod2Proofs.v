(** Incremental linear systems over the field with two elements: proofs *)

From Coq Require Import List Arith NArith ZArith Lia Bool.
From Verif Require Import VecModel VecProofs RunModel RunProofs F2Model F2Spec F2Basics F2Proofs F2Solve F2Kernel F2Section F2Ops SubqProofs SubqQuot Mod2Model.
Import ListNotations.
Open Scope nat_scope.

(** *** systems and their equations *)

(** [x] satisfies the equations, given by their coefficients and right hand sides *)
Definition solution (n : nat) (E : list (N * bool)) (x : N) : Prop := forall row r, In (row, r) E -> scalar n row x = r.
(** the state describes the equations [E] in echelon form: each has its first unknown as
    pivot, which does not occur in the later ones *)
Record echelon_system (n : nat) (E : list (N * bool)) (s : system) : Prop := {
  es_size : m2_size s = n;
  es_eqns : eqns s = map (fun '(row, r) => mk_eq (positions_of n row) r) E;
  es_within : forall row r, In (row, r) E -> within n row;
  es_triangular : triangular (map fst E) (map (fun e => firstBit (fst e)) E);
  es_pivot : forall i row r, nth_error E i = Some (row, r) -> nth_error (pivot_index s) (firstBit row) = Some (Some i);
  es_free : forall p, p < n -> ~ In p (map (fun e => firstBit (fst e)) E) -> nth_error (pivot_index s) p = Some None }.

Lemma flip_all n l dst : n <= n -> (forall i, In i l -> i < n) -> NoDup l ->
  gives (each l (fun i dst => bmap_flip n dst i) dst) (fun d => forall p, coord d p = xorb (if in_dec Nat.eq_dec p l then true else false) (coord dst p)) sure.
Proof.
  intros _. revert dst. induction l as [|i l IH]; intros dst HB ND; cbn [each].
  - intros p. destruct (in_dec Nat.eq_dec p []) as [[]|]. now destruct (coord dst p).
  - inversion ND as [|? ? N1 N2]; subst. unfold bmap_flip. assert (Hi : i < n) by (apply HB; now left).
    rewrite test_ok by auto. cbn [bind].
    eapply gives_bind; [apply gives_assign with (P := fun s' => forall j, coord s' j = if j =? i then negb (coord dst i) else coord dst j); [auto|auto]|].
    intros d Hd. cbv beta in Hd. eapply gives_mono; [apply IH; [intros; apply HB; now right|auto]|].
    intros d' Hd' p. rewrite Hd', Hd. destruct (Nat.eqb_spec p i) as [->|N].
    + destruct (in_dec Nat.eq_dec i l); [contradiction|]. destruct (in_dec Nat.eq_dec i (i :: l)) as [|C]; [|exfalso; apply C; now left]. now destruct (coord dst i).
    + destruct (in_dec Nat.eq_dec p l) as [I|I], (in_dec Nat.eq_dec p (i :: l)) as [J|J]; auto.
      * exfalso. apply J. now right.
      * exfalso. destruct J as [J|J]; [congruence|auto].
Qed.
Lemma insert_all n l b : (forall i, In i l -> i < n) ->
  gives (each l (fun i b => bmap_insert n b i) b) (fun d => forall p, coord d p = (if in_dec Nat.eq_dec p l then true else coord b p)) sure.
Proof.
  revert b. induction l as [|i l IH]; intros b HB; cbn [each].
  - intros p. destruct (in_dec Nat.eq_dec p []) as [[]|]. auto.
  - assert (Hi : i < n) by (apply HB; now left). unfold bmap_insert at 1.
    eapply gives_bind; [apply gives_assign with (P := fun s' => forall j, coord s' j = if j =? i then true else coord b j); [auto|auto]|].
    intros d Hd. cbv beta in Hd. eapply gives_mono; [apply IH; intros; apply HB; now right|].
    intros d' Hd' p. rewrite Hd', Hd. destruct (Nat.eqb_spec p i) as [->|N].
    + destruct (in_dec Nat.eq_dec i (i :: l)) as [|C]; [|exfalso; apply C; now left]. now destruct (in_dec Nat.eq_dec i l).
    + destruct (in_dec Nat.eq_dec p l) as [I|I], (in_dec Nat.eq_dec p (i :: l)) as [J|J]; auto.
      * exfalso. apply J. now right.
      * exfalso. destruct J as [J|J]; [congruence|auto].
Qed.
Lemma row_inserted n row : within n row -> gives (each (positions_of n row) (fun i b => bmap_insert n b i) 0%N) (fun d => d = row) sure.
Proof.
  intros W. eapply gives_mono; [apply insert_all; intros i I; apply in_positions_of in I; lia|]. intros d Hd. apply coord_ext. intros p.
  rewrite Hd, coord_0. destruct (in_dec Nat.eq_dec p (positions_of n row)) as [I|I].
  - apply in_positions_of in I. symmetry. apply I.
  - destruct (coord row p) eqn:E; [|auto]. exfalso. apply I. apply in_positions_of. split; [now apply (within_lt n row)|auto].
Qed.

Lemma nth_error_firstn' {A} (l : list A) i j : j < i -> nth_error (firstn i l) j = nth_error l j.
Proof. revert i j. induction l as [|x l IH]; intros [|i] [|j] L; try lia; cbn; auto. apply IH. lia. Qed.
Lemma vget_ok {A} (l : list A) i x : nth_error l i = Some x -> vget l i = Ok x.
Proof. intros E. unfold vget, get. now rewrite E. Qed.
Lemma positions_pivot n row : within n row -> row <> 0%N -> exists l, positions_of n row = firstBit row :: l /\ (forall p, In p l <-> In p (positions_of n row) /\ p <> firstBit row).
Proof.
  intros W NZ. pose proof (firstBit_leads row NZ) as [L1 L2].
  assert (I : In (firstBit row) (positions_of n row)) by (apply in_positions_of; split; [now apply (within_lt n row)|auto]).
  destruct (positions_of n row) as [|p l] eqn:E; [destruct I|].
  assert (Hp : p = firstBit row).
  { destruct I as [I|I]; [auto|]. apply In_nth_error in I. destruct I as [k Ek].
    pose proof (positions_sorted n row 0 (S k) p (firstBit row) ltac:(lia)) as S.
    change (positions n row) with (positions_of n row) in S. rewrite E in S. specialize (S eq_refl Ek).
    assert (Ip : In p (positions_of n row)) by (rewrite E; now left). apply in_positions_of in Ip. destruct Ip as [_ Ip].
    rewrite (L2 p S) in Ip. discriminate. }
  subst p. exists l. split; [auto|]. intros p. pose proof (positions_nodup n row) as ND. rewrite E in ND. inversion ND; subst.
  cbn [In]. split; [|intros [[A|A] B]; [congruence|auto]]. intros J. split; [now right|]. intros ->. contradiction.
Qed.
(** the sum over the listed unknowns *)
Lemma parity_positions n row x b : fold_left (fun v i => xorb v (coord x i)) (positions_of n row) b = xorb b (scalar n row x).
Proof.
  unfold scalar. induction n as [|n IH]; [cbn; now destruct b|]. rewrite positions_S, fold_left_app, IH. cbn [sum2].
  destruct (coord row n) eqn:E; cbn [fold_left andb]; destruct b, (sum2 n _), (coord x n); auto.
Qed.

Section Sys.
Variables (n : nat) (E : list (N * bool)) (s : system).
Hypothesis H : echelon_system n E s.

Notation f := (map (fun e : N * bool => firstBit (fst e)) E).

Lemma sys_eqn i row r : nth_error E i = Some (row, r) -> nth_error (eqns s) i = Some (mk_eq (positions_of n row) r).
Proof. intros X. rewrite (es_eqns n E s H). apply (map_nth_error (fun '(row, r) => mk_eq (positions_of n row) r) i E X). Qed.
Lemma sys_length : length (eqns s) = length E.
Proof. rewrite (es_eqns n E s H). apply map_length. Qed.
Lemma sys_nonzero row r : In (row, r) E -> row <> 0%N.
Proof.
  intros I. apply In_nth_error in I. destruct I as [i Ei]. pose proof (tr_leads _ _ (es_triangular n E s H) i row (firstBit row)) as L.
  intros ->. destruct L as [L _].
  - apply (map_nth_error fst i E Ei).
  - apply (map_nth_error (fun e : N * bool => firstBit (fst e)) i E Ei).
  - now rewrite coord_0 in L.
Qed.
Lemma sys_consistent : consistent s = true.
Proof.
  unfold consistent. rewrite (es_eqns n E s H), <- map_rev. destruct (rev E) as [|[row r] l] eqn:EE; [auto|]. cbn [map lhs].
  assert (I : In (row, r) E) by (apply in_rev; rewrite EE; now left).
  destruct (positions_pivot n row) as (l' & -> & _); [now apply (es_within n E s H row r)|now apply (sys_nonzero row r)|auto].
Qed.
Lemma sys_rank : m2_rank s = Some (length E) /\ m2_dimension s = Some (n - length E).
Proof. unfold m2_rank, m2_dimension. rewrite sys_consistent, sys_length, (es_size n E s H). auto. Qed.
Lemma eliminate_ok i row r dst : nth_error E i = Some (row, r) -> gives (eliminate s i dst) (fun y => y = (N.lxor row dst, r)) sure.
Proof.
  intros Ei. unfold eliminate. rewrite (vget_ok _ _ _ (sys_eqn i row r Ei)). cbn [bind lhs rhs]. rewrite (es_size n E s H).
  assert (W : within n row) by (apply (es_within n E s H row r); now apply (nth_error_In _ i)).
  eapply gives_bind; [apply flip_all; [lia|intros p I; apply in_positions_of in I; lia|apply positions_nodup]|].
  intros d Hd. cbv beta in Hd. cbn [gives]. f_equal. apply coord_ext. intros p. rewrite Hd, coord_lxor. f_equal.
  destruct (in_dec Nat.eq_dec p (positions_of n row)) as [I|I].
  - apply in_positions_of in I. symmetry. apply I.
  - destruct (coord row p) eqn:EE; [|auto]. exfalso. apply I. apply in_positions_of. split; [now apply (within_lt n row)|auto].
Qed.

(** back substitution *)
Lemma a_solution_ok : gives (a_solution s) (fun x => within n x /\ solution n E x /\ forall p, ~ In p f -> coord x p = false) sure.
Proof.
  unfold a_solution. rewrite sys_length, (es_size n E s H).
  apply (gives_mono) with (P := fun x => within n x /\ (forall i row r, nth_error E i = Some (row, r) -> scalar n row x = r) /\ forall p, ~ In p f -> coord x p = false).
  2: { intros x (A & B & C). split; [auto|]. split; [|auto]. intros row r I. apply In_nth_error in I. destruct I as [i Ei]. now apply (B i). }
  apply (gives_downto (fun k x => within n x /\ (forall i row r, k <= i -> nth_error E i = Some (row, r) -> scalar n row x = r) /\ forall p, ~ In p f -> coord x p = false)).
  - split; [apply within_0|]. split; [|intros; apply coord_0]. intros i row r Hi Ei. exfalso. assert (nth_error E i <> None) by congruence. apply nth_error_Some in H0. lia.
  - intros k x Hk (Wx & Sx & Fx). destruct (nth_error E k) as [[row r]|] eqn:Ek; [|apply nth_error_None in Ek; lia].
    rewrite (vget_ok _ _ _ (sys_eqn k row r Ek)). cbn [bind lhs rhs].
    assert (Ik : In (row, r) E) by now apply (nth_error_In _ k).
    assert (W : within n row) by now apply (es_within n E s H row r).
    destruct (positions_pivot n row W (sys_nonzero row r Ik)) as (l & EP & Hl). rewrite EP.
    pose proof (firstBit_leads row (sys_nonzero row r Ik)) as [L1 L2]. assert (Hp : firstBit row < n) by now apply (within_lt n row).
    set (v := fold_left _ l r).
    assert (Ev : v = fold_left (fun v i => xorb v (coord x i)) l r).
    { unfold v. assert (Hin : forall i, In i l -> i < n) by (intros i I; apply Hl in I; destruct I as [I _]; apply in_positions_of in I; lia).
      clear -Hin. revert r. induction l as [|i l IH]; intros r; [auto|]. cbn [fold_left]. rewrite IH by (intros; apply Hin; now right).
      f_equal. f_equal. unfold isMember. assert (i < n) by (apply Hin; now left). apply Nat.ltb_lt in H. rewrite H. auto. }
    apply gives_assign; [auto|]. intros y Hy.
    assert (XS : forall row', coord row' (firstBit row) = false -> scalar n row' y = scalar n row' x).
    { intros row' C. unfold scalar. apply sum2_ext. intros i _. rewrite Hy. destruct (Nat.eqb_spec i (firstBit row)) as [->|]; [now rewrite C|auto]. }
    split; [|split].
    + intros i Hi. rewrite Hy. destruct (Nat.eqb_spec i (firstBit row)); [lia|]. now apply Wx.
    + intros i row' r' Hi Ei. destruct (Nat.eq_dec i k) as [->|NE].
      * assert (row' = row /\ r' = r) as [-> ->] by (rewrite Ek in Ei; split; congruence).
        pose proof (parity_positions n row y false) as P1. rewrite EP in P1. cbn [fold_left] in P1.
        assert (P2 : fold_left (fun v i => xorb v (coord y i)) l (xorb false (coord y (firstBit row))) = xorb (coord y (firstBit row)) (fold_left (fun v i => xorb v (coord x i)) l false)).
        { assert (Hin : forall i, In i l -> coord y i = coord x i).
          { intros i I. apply Hl in I. destruct I as [_ I]. rewrite Hy. destruct (Nat.eqb_spec i (firstBit row)); [contradiction|auto]. }
          clear -Hin. assert (G : forall a, fold_left (fun v i => xorb v (coord y i)) l a = xorb a (fold_left (fun v i => xorb v (coord x i)) l false)).
          { induction l as [|i l IH]; intros a; cbn [fold_left]; [now destruct a|]. rewrite IH by (intros; apply Hin; now right). rewrite Hin by now left.
            assert (G : forall b, fold_left (fun v i => xorb v (coord x i)) l b = xorb b (fold_left (fun v i => xorb v (coord x i)) l false)).
            { clear. induction l as [|i l IH]; intros b; cbn [fold_left]; [now destruct b|]. rewrite IH. rewrite (IH (xorb false (coord x i))).
              destruct b, (coord x i), (fold_left _ l false); auto. }
            rewrite (G (xorb false (coord x i))). destruct a, (coord x i), (fold_left _ l false); auto. }
          rewrite G. now destruct (coord y (firstBit row)). }
        rewrite P2 in P1. rewrite Hy, Nat.eqb_refl, Ev in P1.
        assert (G : forall b, fold_left (fun v i => xorb v (coord x i)) l b = xorb b (fold_left (fun v i => xorb v (coord x i)) l false)).
        { clear. induction l as [|i l IH]; intros b; cbn [fold_left]; [now destruct b|]. rewrite IH. rewrite (IH (xorb false (coord x i))).
          destruct b, (coord x i), (fold_left _ l false); auto. }
        rewrite (G r) in P1. clear - P1.
        destruct (fold_left (fun (v : bool) (i : nat) => xorb v (coord x i)) l false), r, (scalar n row y); cbn in P1; congruence.
      * rewrite XS; [apply (Sx i row' r'); auto; lia|].
        apply (tr_clear _ _ (es_triangular n E s H) k i row' (firstBit row)); [lia| |].
        -- apply (map_nth_error fst i E Ei).
        -- apply (map_nth_error (fun e : N * bool => firstBit (fst e)) k E Ek).
    + intros p Np. rewrite Hy. destruct (Nat.eqb_spec p (firstBit row)) as [->|]; [|now apply Fx].
      exfalso. apply Np. apply in_map_iff. exists (row, r). auto.
  - intros x (A & B & C). split; [auto|]. split; [|auto]. intros i row r Ei. apply (B i); [lia|auto].
Qed.

End Sys.

(** *** replacing an equation *)

Lemma echelon_update n E s k row r row' r' : echelon_system n E s -> nth_error E k = Some (row, r) ->
  within n row' -> leads row' (firstBit row) ->
  (forall i rw b, i < k -> nth_error E i = Some (rw, b) -> coord row' (firstBit rw) = false) ->
  gives (vput (eqns s) k (mk_eq (positions_of n row') r')) (fun es => exists E', put E k (row', r') = Some E' /\
    length E' = length E /\ (forall j, nth_error E' j = if j =? k then Some (row', r') else nth_error E j) /\
    echelon_system n E' (mk_sys es (pivot_index s))) sure.
Proof.
  intros H Ek W L Z. assert (Hk : k < length E) by (apply nth_error_Some; congruence).
  apply gives_vput; [rewrite (sys_length n E s H); auto|]. intros es Les Ges.
  destruct (put_spec E k (row', r') Hk) as (E' & EE & LE & GE). exists E'. split; [auto|]. split; [auto|]. split; [exact GE|].
  change (forall j, nth_error E' j = if j =? k then Some (row', r') else nth_error E j) in GE.
  pose proof (leads_first _ _ L) as FB.
  assert (FF : forall j, option_map (fun e : N * bool => firstBit (fst e)) (nth_error E' j) = option_map (fun e => firstBit (fst e)) (nth_error E j)).
  { intros j. rewrite GE. destruct (Nat.eqb_spec j k) as [->|]; [|auto]. rewrite Ek. cbn [option_map fst]. now rewrite FB. }
  assert (FE : map (fun e : N * bool => firstBit (fst e)) E' = map (fun e => firstBit (fst e)) E).
  { apply vec_ext_all. intros j. unfold get. rewrite !nth_error_map. apply FF. }
  constructor.
  - exact (es_size n E s H).
  - cbn [eqns]. apply vec_ext_all. intros j. rewrite Ges. unfold get. rewrite nth_error_map, GE. destruct (Nat.eqb_spec j k); [reflexivity|].
    rewrite (es_eqns n E s H), nth_error_map. reflexivity.
  - intros rw b I. apply In_nth_error in I. destruct I as [j Ej]. rewrite GE in Ej. destruct (Nat.eqb_spec j k); [now injection Ej as <- <-|].
    apply (es_within n E s H rw b). now apply (nth_error_In _ j).
  - rewrite FE. pose proof (es_triangular n E s H) as T. constructor.
    + now rewrite !map_length.
    + intros i v p Ev Ep. rewrite nth_error_map in Ev, Ep. rewrite GE in Ev. destruct (Nat.eqb_spec i k) as [->|].
      * rewrite Ek in Ep. cbn in Ev, Ep. injection Ev as <-. injection Ep as <-. exact L.
      * apply (tr_leads _ _ T i); rewrite nth_error_map; auto.
    + intros i j v p Lij Ev Ep. rewrite nth_error_map in Ev, Ep. rewrite GE in Ev. destruct (Nat.eqb_spec j k) as [->|].
      * cbn in Ev. injection Ev as <-. destruct (nth_error E i) as [[rw b]|] eqn:Ei; [|discriminate]. cbn in Ep. injection Ep as <-. apply (Z i rw b); auto.
      * apply (tr_clear _ _ T i j); auto; rewrite nth_error_map; auto.
  - intros i rw b Ei. cbn [pivot_index]. rewrite GE in Ei. destruct (Nat.eqb_spec i k) as [->|].
    + injection Ei as <- <-. rewrite FB. apply (es_pivot n E s H k row r Ek).
    + apply (es_pivot n E s H i rw b Ei).
  - rewrite FE. cbn [pivot_index]. apply (es_free n E s H).
Qed.

(** *** reduce *)

Definition clear_from (k : nat) (E : list (N * bool)) : Prop :=
  forall i j rw b rw' b', k <= i -> k <= j -> i <> j -> nth_error E i = Some (rw, b) -> nth_error E j = Some (rw', b') -> coord rw (firstBit rw') = false.
Definition pivots_from (k : nat) (E : list (N * bool)) (cols : N) : Prop :=
  forall p, coord cols p = true <-> exists j rw b, k <= j /\ nth_error E j = Some (rw, b) /\ p = firstBit rw.
Definition same_system (n : nat) (E E' : list (N * bool)) : Prop :=
  length E = length E' /\ map (fun e => firstBit (fst e)) E = map (fun e : N * bool => firstBit (fst e)) E' /\
  forall x, solution n E x <-> solution n E' x.

Lemma solution_nth n E x : solution n E x <-> forall i row r, nth_error E i = Some (row, r) -> scalar n row x = r.
Proof.
  split; intros H; [intros i row r Ei|intros row r I].
  - apply H. now apply (nth_error_In _ i).
  - apply In_nth_error in I. destruct I as [i Ei]. now apply (H i).
Qed.
Lemma pivots_inj n E s i j rw b rw' b' : echelon_system n E s -> nth_error E i = Some (rw, b) -> nth_error E j = Some (rw', b') ->
  firstBit rw = firstBit rw' -> i = j.
Proof.
  intros H Ei Ej EQ. pose proof (es_pivot n E s H i rw b Ei) as A. pose proof (es_pivot n E s H j rw' b' Ej) as B. rewrite EQ in A. congruence.
Qed.
Lemma sys_leads n E s i rw b : echelon_system n E s -> nth_error E i = Some (rw, b) -> leads rw (firstBit rw) /\ firstBit rw < n /\ within n rw.
Proof.
  intros H Ei. assert (I : In (rw, b) E) by now apply (nth_error_In _ i). pose proof (sys_nonzero n E s H rw b I) as NZ.
  pose proof (es_within n E s H rw b I) as W. pose proof (firstBit_leads rw NZ) as L. split; [auto|]. split; [|auto]. destruct L as [L _].
  now apply (within_lt n rw).
Qed.
Lemma sys_clear n E s i j rw b rw' b' : echelon_system n E s -> i < j -> nth_error E i = Some (rw, b) -> nth_error E j = Some (rw', b') ->
  coord rw' (firstBit rw) = false.
Proof.
  intros H L Ei Ej. apply (tr_clear _ _ (es_triangular n E s H) i j); [auto| |].
  - apply (map_nth_error fst j E Ej).
  - apply (map_nth_error (fun e : N * bool => firstBit (fst e)) i E Ei).
Qed.

Lemma reduce_ok n E s : echelon_system n E s -> gives (reduce s) (fun s' => exists E', echelon_system n E' s' /\ same_system n E E' /\
   reduced (map fst E') (map (fun e => firstBit (fst e)) E')) sure.
Proof.
  intros H. unfold reduce. rewrite (sys_length n E s H). eapply gives_bind.
  - apply (gives_downto (fun k '(s', cols) => exists E', echelon_system n E' s' /\ same_system n E E' /\ clear_from k E' /\ pivots_from k E' cols)
      _ _ _ (fun '(s', cols) => exists E', echelon_system n E' s' /\ same_system n E E' /\ clear_from 0 E' /\ pivots_from 0 E' cols)).
    + exists E. split; [auto|]. split; [split; [auto|]; split; [auto|]; intros; tauto|]. split.
      * intros i j rw b rw' b' Hi _ _ Ei. assert (nth_error E i <> None) by congruence. apply nth_error_Some in H0. lia.
      * intros p. rewrite coord_0. split; [discriminate|]. intros (j & rw & b & Hj & Ej & _). assert (nth_error E j <> None) by congruence. apply nth_error_Some in H0. lia.
    + intros k [s' cols] Hk (E1 & H1 & (SL & SF & SS) & CF & PF). cbn [fst snd].
      destruct (nth_error E1 k) as [[row r]|] eqn:Ek; [|apply nth_error_None in Ek; lia].
      destruct (sys_leads n E1 s' k row r H1 Ek) as (Lr & Hp & Wr).
      rewrite (vget_ok _ _ _ (sys_eqn n E1 s' H1 k row r Ek)). cbn [bind lhs rhs]. rewrite (es_size n E1 s' H1).
      eapply gives_bind; [exact (row_inserted n row Wr)|]. intros d Ed. cbv beta in Ed. subst d.
      unfold bmap_insert. eapply gives_bind; [apply gives_assign with (P := fun s' => forall j, coord s' j = if j =? firstBit row then true else coord cols j); [auto|auto]|].
      intros cols' Hc. cbv beta in Hc. change (positions n (N.land row cols)) with (positions_of n (N.land row cols)).
      assert (PF' : forall E2, (forall j, j <> k -> nth_error E2 j = nth_error E1 j) -> (exists rw b, nth_error E2 k = Some (rw, b) /\ firstBit rw = firstBit row) -> pivots_from k E2 cols').
      { intros E2 HE (rw0 & b0 & Ek2 & F2) p. rewrite Hc. destruct (Nat.eqb_spec p (firstBit row)) as [->|NP].
        - split; [intros _|auto]. exists k, rw0, b0. auto.
        - rewrite (PF p). split; intros (j & rw & b & Hj & Ej & ->).
          + exists j, rw, b. split; [lia|]. split; [|auto]. rewrite HE; [auto|lia].
          + destruct (Nat.eq_dec j k) as [->|NE].
            * exfalso. apply NP. assert (rw = rw0) by congruence. subst. auto.
            * exists j, rw, b. split; [lia|]. split; [|auto]. rewrite <- HE; auto. }
      set (l := positions_of n (N.land row cols)).
      assert (Hl : forall p, In p l <-> coord row p = true /\ exists j rw b, k < j /\ nth_error E1 j = Some (rw, b) /\ p = firstBit rw).
      { intros p. unfold l. rewrite in_positions_of, coord_land, andb_true_iff, (PF p). split.
        - intros (_ & A & j & rw & b & Hj & B). split; [auto|]. exists j, rw, b. split; [lia|auto].
        - intros (A & j & rw & b & Hj & B). split; [now apply (within_lt n row)|]. split; [auto|]. exists j, rw, b. split; [lia|auto]. }
      assert (CL : forall row1, (forall p, In p l -> coord row1 p = false) -> (forall p, ~ In p l -> coord cols p = true -> coord row1 p = coord row p) ->
        forall j rw b, k < j -> nth_error E1 j = Some (rw, b) -> coord row1 (firstBit rw) = false).
      { intros row1 A B j rw b Hj Ej. destruct (coord row (firstBit rw)) eqn:C.
        - apply A. apply Hl. split; [auto|]. exists j, rw, b. auto.
        - rewrite B; [auto| |]. + intros I. apply Hl in I. destruct I as [I _]. congruence. + apply PF. exists j, rw, b. split; [lia|auto]. }
      destruct l as [|p0 l0] eqn:El.
      * (* nothing to clear *)
        cbn [gives]. exists E1. split; [auto|]. split; [split; auto|]. split; [|apply PF'; [auto|exists row, r; auto]].
        intros i j rw b rw' b' Hi Hj Nij Ei Ej. destruct (Nat.eq_dec i k) as [->|NE].
        -- assert (rw = row) by congruence. subst rw. apply (CL row) with (j := j) (b := b'); auto; [intros p []|lia].
        -- destruct (Nat.eq_dec j k) as [->|NJ].
           ++ apply (sys_clear n E1 s' k i rw' b' rw b); auto. lia.
           ++ apply (CF i j rw b rw' b'); auto; lia.
      * rewrite <- El in *. clear El p0 l0.
        eapply gives_bind.
        -- apply (gives_each (fun i '(row1, r1) => within n row1 /\ leads row1 (firstBit row) /\
              (forall p, In p (firstn i l) -> coord row1 p = false) /\
              (forall p, coord cols p = true -> ~ In p (firstn i l) -> coord row1 p = coord row p) /\
              (forall j rw b, j < k -> nth_error E1 j = Some (rw, b) -> coord row1 (firstBit rw) = false) /\
              (forall x, (forall j rw b, k < j -> nth_error E1 j = Some (rw, b) -> scalar n rw x = b) -> (scalar n row x = r <-> scalar n row1 x = r1)))
              l _ _ (fun '(row1, r1) => within n row1 /\ leads row1 (firstBit row) /\
              (forall p, In p l -> coord row1 p = false) /\
              (forall p, coord cols p = true -> ~ In p l -> coord row1 p = coord row p) /\
              (forall j rw b, j < k -> nth_error E1 j = Some (rw, b) -> coord row1 (firstBit rw) = false) /\
              (forall x, (forall j rw b, k < j -> nth_error E1 j = Some (rw, b) -> scalar n rw x = b) -> (scalar n row x = r <-> scalar n row1 x = r1)))).
           ++ split; [auto|]. split; [auto|]. split; [intros p []|]. split; [auto|]. split; [|tauto].
              intros j rw b Hj Ej. apply (sys_clear n E1 s' j k rw b row r); auto.
           ++ intros i p [row1 r1] Ep (W1 & L1 & Z1 & K1 & T1 & X1).
              assert (Ip : In p l) by now apply (nth_error_In _ i). pose proof (proj1 (Hl p) Ip) as (Cp & j & rw & b & Hj & Ej & EP). subst p.
              rewrite (vget_ok _ _ _ (es_pivot n E1 s' H1 j rw b Ej)). cbn [bind of_option].
              eapply gives_bind; [exact (eliminate_ok n E1 s' H1 j rw b row1 Ej)|]. intros [row2 b2] E2. cbv beta in E2. injection E2 as -> ->. cbn [gives].
              destruct (sys_leads n E1 s' j rw b H1 Ej) as (Lj & Hpj & Wj).
              assert (GT : firstBit row < firstBit rw).
              { destruct (Nat.lt_trichotomy (firstBit row) (firstBit rw)) as [|[EQ|LT]]; [auto| |].
                - exfalso. assert (k = j) by (apply (pivots_inj n E1 s' k j row r rw b H1 Ek Ej EQ)). lia.
                - exfalso. destruct Lr as [_ Lr]. rewrite (Lr _ LT) in Cp. discriminate. }
              assert (Nf : ~ In (firstBit rw) (firstn i l)).
              { intros I. apply In_nth_error in I. destruct I as [i' Ei']. assert (i' < i) by (assert (nth_error (firstn i l) i' <> None) as Q by congruence; apply nth_error_Some in Q; rewrite firstn_length in Q; lia).
                rewrite nth_error_firstn' in Ei' by lia.
                pose proof (positions_sorted n (N.land row cols) i' i _ _ H0 Ei' Ep). lia. }
              assert (FS : forall q, In q (firstn (S i) l) <-> In q (firstn i l) \/ q = firstBit rw).
              { intros q. rewrite (firstn_S l i _ Ep), in_app_iff. cbn [In]. intuition. }
              assert (ON : forall q, coord cols q = true -> coord rw q = (q =? firstBit rw)).
              { intros q Hq. apply PF in Hq. destruct Hq as (j' & rw' & b' & Hj' & Ej' & ->). destruct (Nat.eq_dec j' j) as [->|NJ].
                - assert (rw' = rw) by congruence. subst. rewrite Nat.eqb_refl. apply Lj.
                - rewrite (CF j j' rw b rw' b'); auto. symmetry. apply Nat.eqb_neq. intros EQ. apply NJ. apply (pivots_inj n E1 s' j' j rw' b' rw b H1 Ej' Ej EQ). }
              split; [now apply within_lxor|]. split; [|split; [|split; [|split]]].
              ** destruct L1 as [A B], Lj as [C D0]. split.
                 --- rewrite coord_lxor, A, (D0 _ GT). auto.
                 --- intros q Hq. rewrite coord_lxor, (B q Hq), (D0 q) by lia. auto.
              ** intros q Hq. apply FS in Hq. rewrite coord_lxor.
                 assert (Hqc : coord cols q = true).
                 { destruct Hq as [Hq|Hq]; [|subst q]; apply PF.
                   - assert (Iq : In q l) by (rewrite <- (firstn_skipn i l), in_app_iff; now left). apply Hl in Iq. destruct Iq as (_ & j' & rw' & b' & Hj' & Q).
                     exists j', rw', b'. split; [lia|auto].
                   - exists j, rw, b. split; [lia|auto]. }
                 rewrite (ON q Hqc). destruct Hq as [Hq|Hq].
                 --- rewrite (Z1 q Hq). destruct (Nat.eqb_spec q (firstBit rw)) as [->|]; [contradiction|auto].
                 --- subst q. rewrite Nat.eqb_refl, (K1 _ Hqc Nf), Cp. auto.
              ** intros q Hq Nq. rewrite coord_lxor, (ON q Hq). rewrite FS in Nq. destruct (Nat.eqb_spec q (firstBit rw)) as [->|]; [tauto|].
                 rewrite K1; [now destruct (coord row q)|auto|tauto].
              ** intros j' rw' b' Hj' Ej'. rewrite coord_lxor, (T1 j' rw' b' Hj' Ej').
                 rewrite (sys_clear n E1 s' j' j rw' b' rw b H1 ltac:(lia) Ej' Ej). auto.
              ** intros x Hx. rewrite (X1 x Hx), scalar_xor, (Hx j rw b Hj Ej). destruct (scalar n row1 x), r1, b; cbn; split; congruence.
           ++ rewrite firstn_all2 by lia. auto.
        -- intros [row1 r1] (W1 & L1 & Z1 & K1 & T1 & X1).
           eapply gives_bind; [exact (echelon_update n E1 s' k row r row1 r1 H1 Ek W1 L1 T1)|].
           intros es (E2 & PE & LE & GE & H2). cbn [gives]. exists E2. split; [auto|].
           assert (FB : firstBit row1 = firstBit row) by now apply leads_first.
           split; [|split].
           ++ split; [congruence|]. split.
              ** rewrite SF. apply vec_ext_all. intros j. unfold get. rewrite !nth_error_map, GE. destruct (Nat.eqb_spec j k) as [->|]; [|auto].
                 rewrite Ek. cbn. now rewrite FB.
              ** intros x. rewrite SS, !solution_nth. split; intros S i rw b Ei.
                 --- rewrite GE in Ei. destruct (Nat.eqb_spec i k) as [->|]; [|now apply (S i)]. injection Ei as <- <-. apply X1; [|now apply (S k)].
                     intros j rw' b' _ Ej. now apply (S j).
                 --- destruct (Nat.eq_dec i k) as [->|NE].
                     +++ assert (rw = row /\ b = r) as [-> ->] by (split; congruence). apply X1.
                         *** intros j rw' b' Hj Ej. apply (S j). rewrite GE. destruct (Nat.eqb_spec j k); [lia|auto].
                         *** apply (S k). now rewrite GE, Nat.eqb_refl.
                     +++ apply (S i). rewrite GE. destruct (Nat.eqb_spec i k); [lia|auto].
           ++ intros i j rw b rw' b' Hi Hj Nij Ei Ej. rewrite GE in Ei, Ej.
              destruct (Nat.eqb_spec i k) as [->|NI]; destruct (Nat.eqb_spec j k) as [->|NJ]; [congruence| | |].
              ** injection Ei as <- <-. apply (CL row1) with (j := j) (b := b'); auto. lia.
              ** injection Ej as <- <-. rewrite FB. apply (sys_clear n E1 s' k i row r rw b); auto. lia.
              ** apply (CF i j rw b rw' b'); auto; lia.
           ++ apply PF'; [intros j Nj; rewrite GE; destruct (Nat.eqb_spec j k); [lia|auto]|]. exists row1, r1. rewrite GE, Nat.eqb_refl. auto.
    + intros [s' cols] HE. exact HE.
  - intros [s' cols] (E' & H' & SS & CF & PF). cbn [gives]. exists E'. split; [auto|]. split; [auto|].
    constructor.
    + now rewrite !map_length.
    + apply (tr_leads _ _ (es_triangular n E' s' H')).
    + intros i j v p Ev Ep. rewrite nth_error_map in Ev, Ep. destruct (nth_error E' i) as [[rw b]|] eqn:Ei; [|discriminate].
      destruct (nth_error E' j) as [[rw' b']|] eqn:Ej; [|discriminate]. cbn in Ev, Ep. injection Ev as <-. injection Ep as <-.
      destruct (Nat.eqb_spec i j) as [->|NE].
      * assert (rw' = rw) by congruence. subst. apply (sys_leads n E' s' j rw b H' Ei).
      * apply (CF i j rw b rw' b'); auto; lia.
Qed.
