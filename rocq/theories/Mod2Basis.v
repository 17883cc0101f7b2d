(** Incremental linear systems over the field with two elements: solution spaces, adding equations *)

From Coq Require Import List Arith NArith ZArith Lia Bool.
From Verif Require Import VecModel VecProofs RunModel RunProofs F2Model F2Spec F2Basics F2Proofs F2Solve F2Kernel F2Section F2Ops SubqProofs SubqQuot Mod2Model Mod2Proofs.
Import ListNotations.
Open Scope nat_scope.

(** solutions of the homogeneous system *)
Definition homogeneous (n : nat) (E : list (N * bool)) (x : N) : Prop :=
  within n x /\ forall row r, In (row, r) E -> scalar n row x = false.

Section Free.
Variables (n : nat) (f : list nat).
Definition isfree (p : nat) : bool := if in_dec Nat.eq_dec p f then false else true.
Definition free (m : nat) : list nat := filter isfree (seq 0 m).
Lemma free_S m : free (S m) = free m ++ (if isfree m then [m] else []).
Proof. unfold free. rewrite seq_S, filter_app. cbn [filter app Nat.add]. auto. Qed.
Lemma in_free m p : In p (free m) <-> p < m /\ ~ In p f.
Proof. unfold free. rewrite filter_In, in_seq. unfold isfree. destruct (in_dec Nat.eq_dec p f); intuition (try lia; try discriminate). Qed.
Lemma free_nodup m : NoDup (free m).
Proof. apply NoDup_filter, seq_NoDup. Qed.
Lemma free_index m q : q < m -> isfree q = true -> nth_error (free m) (length (free q)) = Some q.
Proof.
  intros L F. unfold free. replace m with (q + S (m - S q)) by lia. rewrite seq_app, filter_app. cbn [Nat.add seq filter].
  rewrite F, nth_error_app2, Nat.sub_diag by lia. auto.
Qed.
End Free.

Lemma basis_from_generators n E : reduced (map fst E) (map (fun e => firstBit (fst e)) E) ->
  (forall row r, In (row, r) E -> within n row) ->
  (forall p, In p (map (fun e : N * bool => firstBit (fst e)) E) -> p < n) ->
  forall result, length result = length (free (map (fun e => firstBit (fst e)) E) n) ->
  (forall k j v, nth_error (free (map (fun e => firstBit (fst e)) E) n) k = Some j -> nth_error result k = Some v ->
     coord v j = true /\ (forall p, p <> j -> ~ In p (map (fun e => firstBit (fst e)) E) -> coord v p = false) /\
     forall i row r, nth_error E i = Some (row, r) -> coord v (firstBit row) = coord row j) ->
  basis_of (homogeneous n E) result.
Proof.
  set (f := map (fun e : N * bool => firstBit (fst e)) E). intros RD HW FN result LR HG. set (F := free f n).
  assert (GV : forall k v, nth_error result k = Some v -> exists j, nth_error F k = Some j /\ ~ In j f /\ j < n /\
     coord v j = true /\ (forall p, p <> j -> ~ In p f -> coord v p = false) /\
     forall i row r, nth_error E i = Some (row, r) -> coord v (firstBit row) = coord row j).
  { intros k v Ev. assert (Hk : k < length F) by (unfold F; rewrite <- LR; apply nth_error_Some; congruence).
    destruct (nth_error F k) as [j|] eqn:Ej; [|apply nth_error_None in Ej; lia]. exists j. split; [auto|].
    assert (Ij := nth_error_In _ _ Ej). apply in_free in Ij. split; [apply Ij|]. split; [apply Ij|]. now apply (HG k j v). }
  assert (PL : forall u, (forall p, ~ In p f -> coord u p = false) -> forall i row r, nth_error E i = Some (row, r) -> scalar n row u = coord u (firstBit row)).
  { intros u Hu i row r Ei. assert (P : placed f (fun i => coord u (nth i f 0)) u).
    { split; [|auto]. intros j p Ej. now rewrite (nth_error_nth _ _ 0 Ej). }
    assert (Ef : nth_error f i = Some (firstBit row)) by apply (map_nth_error (fun e : N * bool => firstBit (fst e)) i E Ei).
    rewrite (placed_scalar n (map fst E) f _ u RD FN P i row); [now rewrite (nth_error_nth _ _ 0 Ef)|].
    apply (map_nth_error fst i E Ei). }
  assert (HH : forall v, In v result -> homogeneous n E v).
  { intros v I. apply In_nth_error in I. destruct I as [k Ev]. destruct (GV k v Ev) as (j & Ej & Nj & Hj & C1 & C2 & C3). split.
    - intros p Hp. destruct (in_dec Nat.eq_dec p f) as [I|I]; [apply FN in I; lia|]. apply C2; [lia|auto].
    - intros row r I. apply In_nth_error in I. destruct I as [i Ei].
      set (w := N.lxor v (N.setbit 0 (N.of_nat j))).
      assert (Ew : v = N.lxor (N.setbit 0 (N.of_nat j)) w) by (unfold w; rewrite (N.lxor_comm v), lxor_cancel; auto).
      rewrite Ew, scalar_xor_r, scalar_unit by auto.
      assert (Hw : forall p, p <> j -> coord w p = coord v p).
      { intros p Np. unfold w. rewrite coord_lxor, coord_unit. apply Nat.eqb_neq in Np. rewrite Np. now destruct (coord v p). }
      rewrite (PL w) with (i := i) (r := r); [|intros p Np|auto].
      + rewrite Hw, (C3 i row r Ei); [apply xorb_nilpotent|]. intros EQ. apply Nj. rewrite <- EQ.
        apply (nth_error_In _ i). apply (map_nth_error (fun e : N * bool => firstBit (fst e)) i E Ei).
      + destruct (Nat.eq_dec p j) as [->|NE]; [|rewrite Hw; auto]. unfold w. rewrite coord_lxor, coord_unit, C1, Nat.eqb_refl. auto. }
  assert (CF : forall c k j, nth_error F k = Some j -> coord (lincomb c result) j = c k).
  { intros c k j Ej. assert (Hk : k < length result) by (rewrite LR; apply nth_error_Some; unfold F in Ej; congruence).
    rewrite coord_lincomb, (sum2_single _ k); auto.
    - destruct (GV k (nth k result 0%N) (nth_nth_error result k 0%N Hk)) as (j' & Ej' & _ & _ & C1 & _).
      assert (j' = j) by congruence. subst. rewrite C1. apply andb_true_r.
    - intros i Hi Ni. destruct (GV i (nth i result 0%N) (nth_nth_error result i 0%N Hi)) as (j' & Ej' & _ & _ & _ & C2 & _).
      rewrite C2; [apply andb_false_r| |].
      + intros ->. apply Ni. apply (proj1 (NoDup_nth_error F) (free_nodup f n)); [|congruence]. apply nth_error_Some. congruence.
      + apply nth_error_In in Ej. now apply in_free in Ej. }
  split.
  - intros c Z i Hi. rewrite LR in Hi. fold F in Hi. rewrite <- (CF c i (nth i F 0)), Z; [apply coord_0|]. now apply nth_error_nth'.
  - assert (SUB : forall v, in_span result v -> homogeneous n E v).
    { apply span_least.
      - split; [apply within_0|]. intros row r _. rewrite scalar_comm. apply scalar_0.
      - intros v w [A B] [C D0]. split; [now apply within_lxor|]. intros row r I. rewrite scalar_xor_r, (B row r I), (D0 row r I). auto.
      - exact HH. }
    intros x. split; [|apply SUB]. intros [Wx Hx]. set (y := lincomb (fun k => coord x (nth k F 0)) result).
    assert (Sy : in_span result y) by (eexists; reflexivity). destruct (SUB y Sy) as [Wy Hy].
    set (u := N.lxor x y).
    assert (Fu : forall p, ~ In p f -> coord u p = false).
    { intros p Np. destruct (Nat.lt_ge_cases p n) as [Hp|Hp]; [|unfold u; apply (within_lxor n); auto].
      assert (I : In p F) by (apply in_free; auto). apply In_nth_error in I. destruct I as [k Ek].
      unfold u, y. rewrite coord_lxor, (CF _ k p Ek), (nth_error_nth _ _ 0 Ek). apply xorb_nilpotent. }
    assert (U0 : u = 0%N).
    { apply coord_ext. intros p. rewrite coord_0. destruct (in_dec Nat.eq_dec p f) as [I|I]; [|auto].
      apply in_map_iff in I. destruct I as ([row r] & <- & I). cbn [fst]. pose proof I as I'. apply In_nth_error in I. destruct I as [i Ei].
      rewrite <- (PL u Fu i row r Ei). unfold u. rewrite scalar_xor_r, (Hx row r I'), (Hy row r I'). auto. }
    apply N.lxor_eq in U0. rewrite U0. exact Sy.
Qed.

Lemma same_homogeneous n E E' : same_system n E E' -> (exists x, solution n E x) -> forall y, within n y ->
  (homogeneous n E y <-> homogeneous n E' y).
Proof.
  intros (_ & _ & SS) [x Hx] y Wy. assert (Hx' : solution n E' x) by now apply SS.
  assert (X : forall F, solution n F x -> (homogeneous n F y <-> solution n F (N.lxor x y))).
  { intros F HF. split.
    - intros [_ A] row r I. rewrite scalar_xor_r, (HF row r I), (A row r I). apply xorb_false_r.
    - intros A. split; [auto|]. intros row r I. specialize (A row r I). rewrite scalar_xor_r, (HF row r I) in A.
      destruct r, (scalar n row y); cbn in A; congruence. }
  rewrite (X E Hx), (X E' Hx'), SS. tauto.
Qed.

Lemma solution_basis_ok n E s : echelon_system n E s -> gives (solution_basis s) (fun '(b, s') =>
   length b = n - length E /\ basis_of (homogeneous n E) b /\ exists E', echelon_system n E' s' /\ same_system n E E' /\
   reduced (map fst E') (map (fun e => firstBit (fst e)) E')) sure.
Proof.
  intros H. unfold solution_basis. eapply gives_bind; [exact (reduce_ok n E s H)|]. intros s' (E' & H' & SS & RD).
  set (f := map (fun e : N * bool => firstBit (fst e)) E') in *. rewrite (es_size n E' s' H').
  assert (FN : forall p, In p f -> p < n).
  { intros p I. apply in_map_iff in I. destruct I as ([row r] & <- & I). apply In_nth_error in I. destruct I as [i Ei]. apply (sys_leads n E' s' i row r H' Ei). }
  assert (PI : forall p, p < n -> exists o, nth_error (pivot_index s') p = Some o /\ (o = None <-> isfree f p = true)).
  { intros p Hp. unfold isfree. destruct (in_dec Nat.eq_dec p f) as [I|I].
    - apply in_map_iff in I. destruct I as ([row r] & <- & I). apply In_nth_error in I. destruct I as [i Ei].
      exists (Some i). split; [apply (es_pivot n E' s' H' i row r Ei)|]. split; discriminate.
    - exists None. split; [apply (es_free n E' s' H' p Hp I)|tauto]. }
  eapply gives_bind.
  - apply (gives_upto0 (fun j '(result, ri) => length result = length (free f j) /\ length ri = n /\
       (forall k q v, nth_error (free f j) k = Some q -> nth_error result k = Some v -> v = N.setbit 0 (N.of_nat q)) /\
       (forall q, q < j -> isfree f q = true -> nth_error ri q = Some (Some (length (free f q))))) n _ _
       (fun '(result, ri) => length result = length (free f n) /\
       (forall k q v, nth_error (free f n) k = Some q -> nth_error result k = Some v -> v = N.setbit 0 (N.of_nat q)) /\
       (forall q, q < n -> isfree f q = true -> nth_error ri q = Some (Some (length (free f q)))))).
    + split; [auto|]. split; [apply repeat_length|]. split; [intros k q v X; destruct k; discriminate|intros; lia].
    + intros j [result ri] Hj (L1 & L2 & G1 & G2). destruct (PI j Hj) as (o & Eo & Fo). rewrite (vget_ok _ _ _ Eo). cbn [bind].
      rewrite free_S. destruct o as [i|].
      * assert (NF : isfree f j = false) by (destruct (isfree f j); [|auto]; destruct Fo as [_ Fo]; specialize (Fo eq_refl); discriminate).
        rewrite NF, app_nil_r. cbn [gives]. split; [auto|]. split; [auto|]. split; [auto|]. intros q Hq Fq. apply G2; auto.
        destruct (Nat.eq_dec q j) as [->|]; [congruence|lia].
      * assert (IF : isfree f j = true) by now apply Fo. rewrite IF.
        eapply gives_bind; [apply gives_vput with (P := fun w => length w = length ri /\ forall i, get w i = if i =? j then Some (Some (length result)) else get ri i); [lia|auto]|].
        intros ri' [L2' G2']. unfold bmap_insert.
        eapply gives_bind; [apply gives_assign with (P := fun v => v = N.setbit 0 (N.of_nat j)); [auto|]|].
        { intros v Hv. apply coord_ext. intros p. rewrite Hv, coord_unit, coord_0. now destruct (p =? j). }
        intros v Ev. cbv beta in Ev. subst v. cbn [gives]. rewrite !app_length. cbn [length]. split; [lia|]. split; [lia|]. split.
        -- intros k q v Ek Ev. destruct (Nat.lt_ge_cases k (length result)) as [Lk|Lk].
           ++ rewrite nth_error_app1 in Ek by lia. rewrite nth_error_app1 in Ev by lia. now apply (G1 k q v).
           ++ rewrite nth_error_app2 in Ek by lia. rewrite nth_error_app2 in Ev by lia. rewrite L1 in *.
              destruct (k - length (free f j)) as [|k']; [|destruct k'; discriminate]. cbn [nth_error] in Ek, Ev. injection Ek as <-. injection Ev as <-. reflexivity.
        -- intros q Hq Fq. specialize (G2' q). unfold get in G2'. rewrite G2'. destruct (Nat.eqb_spec q j) as [EQ|]; [rewrite EQ, L1; auto|apply G2; auto; lia].
    + intros [result ri] (A & _ & B & C). auto.
  - intros [result ri] (L1 & G1 & G2).
    pose (good := fun (i : nat) (l : list nat) (result : list N) => length result = length (free f n) /\
       forall k j v, nth_error (free f n) k = Some j -> nth_error result k = Some v ->
         coord v j = true /\ (forall p, p <> j -> ~ In p f -> coord v p = false) /\
         forall i' row r, nth_error E' i' = Some (row, r) -> coord v (firstBit row) =
           if i' <? i then coord row j else if i' =? i then (if in_dec Nat.eq_dec j l then true else false) else false).
    eapply gives_bind.
    + apply (gives_upto0 (fun i result => good i [] result) _ _ _ (fun result => good (length E') [] result)).
      * split; [auto|]. intros k j v Ek Ev. pose proof (G1 k j v Ek Ev) as ->.
        assert (Fj : ~ In j f) by (apply nth_error_In in Ek; now apply in_free in Ek).
        split; [rewrite coord_unit, Nat.eqb_refl; auto|]. split.
        -- intros p Np _. rewrite coord_unit. now apply Nat.eqb_neq.
        -- intros i' row r Ei. rewrite coord_unit. replace (i' <? 0) with false by (symmetry; apply Nat.ltb_ge; lia).
           destruct (in_dec Nat.eq_dec j []) as [[]|]. destruct (i' =? 0); apply Nat.eqb_neq; intros <-; apply Fj;
           apply (nth_error_In _ i'); apply (map_nth_error (fun e : N * bool => firstBit (fst e)) i' E' Ei).
      * intros i res Hi GD. rewrite (sys_length n E' s' H') in Hi.
        destruct (nth_error E' i) as [[row r]|] eqn:Ei; [|apply nth_error_None in Ei; lia].
        rewrite (vget_ok _ _ _ (sys_eqn n E' s' H' i row r Ei)). cbn [bind lhs].
        destruct (sys_leads n E' s' i row r H' Ei) as (Lr & Hp & Wr).
        assert (NZ : row <> 0%N) by (apply (sys_nonzero n E' s' H' row r); now apply (nth_error_In _ i)).
        destruct (positions_pivot n row Wr NZ) as (l & EP & Hl). rewrite EP.
        assert (ND : NoDup l) by (pose proof (positions_nodup n row) as ND; rewrite EP in ND; now inversion ND).
        eapply gives_mono.
        -- apply (gives_each (fun m result => good i (firstn m l) result) l _ _ (good i l)).
           ++ exact GD.
           ++ intros m q res1 Eq [LG GG]. assert (Iq : In q l) by now apply (nth_error_In _ m).
              apply Hl in Iq. destruct Iq as [Iq Nq]. apply in_positions_of in Iq. destruct Iq as [Hq Cq].
              assert (Fq : ~ In q f).
              { intros I. apply in_map_iff in I. destruct I as ([rw b] & Eq' & I). cbn in Eq'. apply In_nth_error in I. destruct I as [i' Ei'].
                pose proof (rd_clear _ _ RD i i' row q) as X. rewrite X in Cq.
                - apply Nat.eqb_eq in Cq. subst i'. apply Nq. rewrite <- Eq'. rewrite Ei in Ei'. injection Ei' as <- <-. reflexivity.
                - apply (map_nth_error fst i E' Ei).
                - unfold f. rewrite <- Eq'. apply (map_nth_error (fun e : N * bool => firstBit (fst e)) i' E' Ei'). }
              assert (IF : isfree f q = true) by (unfold isfree; destruct (in_dec Nat.eq_dec q f); tauto).
              rewrite (vget_ok _ _ _ (G2 q Hq IF)). cbn [bind of_option]. set (k := length (free f q)).
              assert (Ek : nth_error (free f n) k = Some q) by now apply free_index.
              assert (Hk : k < length res1) by (rewrite LG; apply nth_error_Some; congruence).
              destruct (nth_error res1 k) as [v|] eqn:Ev; [|apply nth_error_None in Ev; lia].
              rewrite (vget_ok _ _ _ Ev). cbn [bind]. unfold bmap_insert.
              eapply gives_bind; [apply gives_assign with (P := fun s' => forall j, coord s' j = if j =? firstBit row then true else coord v j); [auto|auto]|].
              intros v' Hv'. cbv beta in Hv'. apply gives_vput; [auto|]. intros res2 L2 G3. split; [lia|].
              intros k2 j2 v2 Ek2 Ev2. specialize (G3 k2). unfold get in G3. rewrite G3 in Ev2.
              rewrite (firstn_S l m q Eq).
              destruct (Nat.eqb_spec k2 k) as [EQK|NK]; [rewrite EQK in Ek2|].
              ** injection Ev2 as <-. assert (j2 = q) by congruence. subst j2. destruct (GG k q v Ek Ev) as (A & B & C).
                 split; [rewrite Hv'; destruct (q =? firstBit row); auto|]. split.
                 --- intros p Np NI. rewrite Hv'. destruct (Nat.eqb_spec p (firstBit row)) as [->|]; [|now apply B]. exfalso. apply NI.
                     apply (nth_error_In _ i). apply (map_nth_error (fun e : N * bool => firstBit (fst e)) i E' Ei).
                 --- intros i' rw b Ei'. rewrite Hv'. destruct (Nat.eqb_spec (firstBit rw) (firstBit row)) as [EQ|NE].
                     +++ assert (i' = i) by (apply (pivots_inj n E' s' i' i rw b row r H' Ei' Ei EQ)). subst i'. rewrite Nat.ltb_irrefl, Nat.eqb_refl.
                         destruct (in_dec Nat.eq_dec q (firstn m l ++ [q])) as [|C1]; [auto|]. exfalso. apply C1. apply in_app_iff. right. now left.
                     +++ rewrite (C i' rw b Ei'). destruct (i' <? i); [auto|]. destruct (Nat.eqb_spec i' i) as [->|]; [|auto]. exfalso. apply NE. congruence.
              ** destruct (GG k2 j2 v2 Ek2 Ev2) as (A & B & C). split; [auto|]. split; [auto|]. intros i' rw b Ei'. rewrite (C i' rw b Ei').
                 destruct (i' <? i); [auto|]. destruct (i' =? i); [|auto].
                 assert (NQ : j2 <> q).
                 { intros ->. apply NK. apply (proj1 (NoDup_nth_error (free f n)) (free_nodup f n)); [apply nth_error_Some; congruence|congruence]. }
                 destruct (in_dec Nat.eq_dec j2 (firstn m l)) as [I|I], (in_dec Nat.eq_dec j2 (firstn m l ++ [q])) as [J|J]; auto.
                 --- exfalso. apply J. apply in_app_iff. now left.
                 --- exfalso. apply in_app_iff in J. destruct J as [J|[J|[]]]; congruence.
           ++ intros res1. rewrite firstn_all. auto.
        -- intros res1 [LG GG]. split; [auto|]. intros k j v Ek Ev. destruct (GG k j v Ek Ev) as (A & B & C). split; [auto|]. split; [auto|].
           intros i' rw b Ei'. rewrite (C i' rw b Ei').
           destruct (in_dec Nat.eq_dec j []) as [[]|]. destruct (Nat.ltb_spec i' i), (Nat.ltb_spec i' (S i)); try lia; auto.
           ++ destruct (Nat.eqb_spec i' i) as [->|]; [|lia]. assert (rw = row) by congruence. subst rw.
              assert (Fj : j < n /\ ~ In j f) by (apply nth_error_In in Ek; now apply in_free in Ek).
              assert (X : In j l <-> coord row j = true).
              { rewrite Hl, in_positions_of. split; [tauto|]. intros Cj. split; [tauto|]. intros ->. apply (proj2 Fj).
                apply (nth_error_In _ i). apply (map_nth_error (fun e : N * bool => firstBit (fst e)) i E' Ei). }
              destruct (in_dec Nat.eq_dec j l) as [I|I]; [symmetry; now apply X|]. destruct (coord row j); [exfalso; tauto|auto].
           ++ destruct (Nat.eqb_spec i' i); [lia|]. destruct (Nat.eqb_spec i' (S i)); auto.
      * intros res GD. now rewrite <- (sys_length n E' s' H').
    + intros res [LG GG]. cbn [gives]. pose proof SS as (SL & SF & SX). split; [|split].
      * rewrite LG, SL.
        assert (X : length (free f n) + length f = n).
        { assert (ND : NoDup f) by apply (reduced_nodup _ _ RD).
          assert (PE : Permutation.Permutation (free f n ++ f) (seq 0 n)).
          { apply Permutation.NoDup_Permutation.
            - assert (XX : forall l1 l2 : list nat, NoDup l1 -> NoDup l2 -> (forall y, In y l1 -> ~ In y l2) -> NoDup (l1 ++ l2)).
              { intros l1 l2 A B C. induction l1 as [|y l1 IH]; [auto|]. inversion A; subst. cbn [app]. constructor.
                - rewrite in_app_iff. intros [I|I]; [auto|]. apply (C y); [now left|auto].
                - apply IH; auto. intros z Iz. apply C. now right. }
              apply XX; [apply free_nodup|auto|]. intros y I. now apply in_free in I.
            - apply seq_NoDup.
            - intros p. rewrite in_app_iff, in_free, in_seq. split; [intros [I|I]; [lia|apply FN in I; lia]|].
              intros I. destruct (in_dec Nat.eq_dec p f); [now right|left; split; [lia|auto]]. }
          apply Permutation.Permutation_length in PE. rewrite app_length, seq_length in PE. exact PE. }
        unfold f in X at 2. rewrite map_length in X. lia.
      * assert (BE : basis_of (homogeneous n E') res).
        { apply (basis_from_generators n E' RD (es_within n E' s' H') FN); [exact LG|]. intros k j v Ek Ev.
          destruct (GG k j v Ek Ev) as (A & B & C). split; [auto|]. split; [auto|]. intros i row r Ei. rewrite (C i row r Ei).
          assert (Hi : i < length E') by (apply nth_error_Some; congruence). apply Nat.ltb_lt in Hi. now rewrite Hi. }
        destruct BE as [I HS]. split; [auto|]. intros x. rewrite <- HS.
        assert (EX : exists x, solution n E x).
        { pose proof (a_solution_ok n E s H) as G. destruct (a_solution s) as [x0|]; [|contradiction]. exists x0. apply G. }
        split; intros HX; pose proof (proj1 HX) as Wx; now apply (same_homogeneous n E E' SS EX x Wx).
      * exists E'. auto.
Qed.

(** *** adding an equation *)

Lemma extend_ok n E s k : echelon_system n E s -> fst (extend s k) = n /\ echelon_system (n + k) E (snd (extend s k)).
Proof.
  intros H. pose proof (es_size n E s H) as SZ. split; [exact SZ|]. unfold extend. cbn [snd].
  unfold m2_size in SZ.
  constructor.
  - unfold m2_size. cbn [pivot_index]. rewrite app_length, repeat_length. lia.
  - cbn [eqns]. rewrite (es_eqns n E s H). apply map_ext_in. intros [row r] I. f_equal.
    symmetry. apply (positions_within (n + k) n); [lia|]. now apply (es_within n E s H row r).
  - intros row r I. apply (within_mono n); [lia|]. now apply (es_within n E s H row r).
  - exact (es_triangular n E s H).
  - intros i row r Ei. cbn [pivot_index]. rewrite nth_error_app1; [now apply (es_pivot n E s H i row r)|].
    rewrite SZ. apply (sys_leads n E s i row r H Ei).
  - intros p Hp Np. cbn [pivot_index]. destruct (Nat.lt_ge_cases p n) as [L|L].
    + rewrite nth_error_app1 by lia. now apply (es_free n E s H).
    + rewrite nth_error_app2 by lia. rewrite SZ. apply nth_error_repeat. lia.
Qed.
Lemma empty_ok : echelon_system 0 [] m2_empty.
Proof.
  constructor; auto.
  - intros row r [].
  - constructor; auto; intros i; intros; destruct i; discriminate.
  - intros i row r X. destruct i; discriminate.
  - intros; lia.
Qed.

(** the set of unknowns listed *)
Definition listed (l : list nat) (p : nat) : bool := if in_dec Nat.eq_dec p l then true else false.

Lemma add_ok n E s l r : echelon_system n E s -> (forall i, In i l -> i < n) ->
  gives (add s l r) (fun '(b, s') =>
    (b = true -> s' = s /\ forall x, solution n E x -> sum2 n (fun p => listed l p && coord x p) = r) /\
    (b = false -> (exists r', s' = mk_sys (eqns s ++ [mk_eq [] r']) (pivot_index s)) /\
      exists x, within n x /\ solution n E x /\ sum2 n (fun p => listed l p && coord x p) = negb r)) sure.
Proof.
  intros H HL. unfold add. rewrite (sys_consistent n E s H). cbn [negb]. rewrite (es_size n E s H).
  eapply gives_bind; [exact (insert_all n l 0%N HL)|]. intros row0 Hrow0. cbv beta in Hrow0.
  assert (W0 : within n row0).
  { intros p Hp. rewrite Hrow0, coord_0. destruct (in_dec Nat.eq_dec p l) as [I|I]; [apply HL in I; lia|auto]. }
  assert (E0 : forall x, sum2 n (fun p => listed l p && coord x p) = scalar n row0 x).
  { intros x. apply sum2_ext. intros i _. rewrite Hrow0, coord_0. unfold listed. now destruct (in_dec Nat.eq_dec i l). }
  eapply gives_bind.
  - apply (gives_upto0 (fun i '(row1, r1) => within n row1 /\ (forall j rw b, j < i -> nth_error E j = Some (rw, b) -> coord row1 (firstBit rw) = false) /\
       forall x, solution n E x -> xorb (scalar n row0 x) r = xorb (scalar n row1 x) r1) _ _ _
       (fun '(row1, r1) => within n row1 /\ (forall j rw b, nth_error E j = Some (rw, b) -> coord row1 (firstBit rw) = false) /\
       forall x, solution n E x -> xorb (scalar n row0 x) r = xorb (scalar n row1 x) r1)).
    + split; [auto|]. split; [intros; lia|auto].
    + intros i [row1 r1] Hi (W1 & Z1 & X1). rewrite (sys_length n E s H) in Hi.
      destruct (nth_error E i) as [[rw b]|] eqn:Ei; [|apply nth_error_None in Ei; lia].
      destruct (sys_leads n E s i rw b H Ei) as (Lr & Hp & Wr).
      rewrite (vget_ok _ _ _ (sys_eqn n E s H i rw b Ei)). cbn [bind]. unfold pivot. cbn [lhs].
      assert (NZ : rw <> 0%N) by (apply (sys_nonzero n E s H rw b); now apply (nth_error_In _ i)).
      destruct (positions_pivot n rw Wr NZ) as (l' & EP & _). rewrite EP. cbn [vget get nth_error bind].
      assert (EM : isMember n row1 (firstBit rw) = coord row1 (firstBit rw)).
      { unfold isMember. apply Nat.ltb_lt in Hp. rewrite Hp. auto. }
      change (vget (firstBit rw :: l') 0) with (Ok (firstBit rw)). cbn [bind]. rewrite EM.
      destruct (coord row1 (firstBit rw)) eqn:C.
      * eapply gives_bind; [exact (eliminate_ok n E s H i rw b row1 Ei)|]. intros [row2 b2] E2. cbv beta in E2. injection E2 as -> ->. cbn [gives].
        split; [now apply within_lxor|]. split.
        -- intros j rw' b' Hj Ej. rewrite coord_lxor. destruct (Nat.eq_dec j i) as [->|NE].
           ++ assert (rw' = rw) by congruence. subst. destruct Lr as [-> _]. rewrite C. auto.
           ++ rewrite (sys_clear n E s j i rw' b' rw b H ltac:(lia) Ej Ei). rewrite (Z1 j rw' b'); [auto|lia|auto].
        -- intros x Hx. rewrite (X1 x Hx), scalar_xor. rewrite (Hx rw b) by now apply (nth_error_In _ i).
           destruct b, (scalar n row1 x), r1; auto.
      * cbn [gives]. split; [auto|]. split; [|auto]. intros j rw' b' Hj Ej. destruct (Nat.eq_dec j i) as [->|NE].
        -- assert (rw' = rw) by congruence. now subst.
        -- apply (Z1 j rw' b'); [lia|auto].
    + intros [row1 r1] (A & B & C). split; [auto|]. split; [|auto]. intros j rw b Ej. apply (B j rw b); [|auto]. rewrite (sys_length n E s H).
      apply nth_error_Some. congruence.
  - intros [row1 r1] (W1 & Z1 & X1). destruct ((row1 =? 0)%N && negb r1) eqn:T.
    + cbn [gives]. split; [|discriminate]. intros _. split; [auto|]. intros x Hx. rewrite E0.
      apply andb_true_iff in T. destruct T as [T1 T2]. apply N.eqb_eq in T1. apply negb_true_iff in T2. subst. specialize (X1 x Hx).
      rewrite scalar_0 in X1. cbn in X1. now apply xorb_eq in X1.
    + cbn [lhs gives]. split; [discriminate|]. intros _. split; [now exists r1|].
      (* a solution at which the equation fails *)
      assert (EX : exists x, within n x /\ solution n E x /\ scalar n row1 x = negb r1).
      { pose proof (a_solution_ok n E s H) as G. destruct (a_solution s) as [x0|]; [|contradiction]. destruct G as (Wx & Sx & _).
        destruct (Bool.bool_dec (scalar n row1 x0) (negb r1)) as [|D0]; [exists x0; auto|].
        assert (S0 : scalar n row1 x0 = r1) by (destruct (scalar n row1 x0), r1; auto; exfalso; now apply D0).
        destruct (N.eq_dec row1 0) as [Z|NZ].
        - subst row1. rewrite scalar_0 in S0. subst r1. discriminate.
        - (* change the free unknown leading row1, and solve the system again *)
          pose proof (firstBit_leads row1 NZ) as [L1 L2]. set (p := firstBit row1) in *. assert (Hp : p < n) by now apply (within_lt n row1).
          (* the system with the extra equation row1.x = negb r1 is in echelon form *)
          set (E2 := E ++ [(row1, negb r1)]).
          assert (Np : ~ In p (map (fun e : N * bool => firstBit (fst e)) E)).
          { intros I. apply in_map_iff in I. destruct I as ([rw b] & EQ & I). cbn in EQ. apply In_nth_error in I. destruct I as [j Ej].
            rewrite <- EQ in L1. rewrite (Z1 j rw b Ej) in L1. discriminate. }
          assert (T2 : triangular (map fst E2) (map (fun e => firstBit (fst e)) E2)).
          { unfold E2. rewrite !map_app. cbn [map fst]. apply triangular_snoc; [apply (es_triangular n E s H)|now split|].
            intros q I. apply in_map_iff in I. destruct I as ([rw b] & <- & I). apply In_nth_error in I. destruct I as [j Ej]. now apply (Z1 j rw b). }
          destruct (put_spec (pivot_index s) p (Some (length E))) as (pi & _ & LP & GP).
          { pose proof (es_size n E s H) as SZ. unfold m2_size in SZ. lia. }
          assert (H2 : echelon_system n E2 (mk_sys (map (fun '(row, r) => mk_eq (positions_of n row) r) E2) pi)).
          { constructor.
            - unfold m2_size. cbn [pivot_index]. rewrite LP. exact (es_size n E s H).
            - reflexivity.
            - intros rw b I. unfold E2 in I. apply in_app_iff in I. destruct I as [I|[I|[]]]; [now apply (es_within n E s H rw b)|].
              injection I as <- <-. exact W1.
            - exact T2.
            - intros i rw b Ei. cbn [pivot_index]. specialize (GP (firstBit rw)). unfold get in GP. rewrite GP. unfold E2 in Ei.
              destruct (Nat.lt_ge_cases i (length E)) as [L|L].
              + rewrite nth_error_app1 in Ei by auto. destruct (Nat.eqb_spec (firstBit rw) p) as [EQ|]; [|now apply (es_pivot n E s H i rw b)].
                exfalso. apply Np. rewrite <- EQ. apply (nth_error_In _ i). apply (map_nth_error (fun e : N * bool => firstBit (fst e)) i E Ei).
              + rewrite nth_error_app2 in Ei by auto. destruct (i - length E) as [|d] eqn:ED; [|destruct d; discriminate]. cbn in Ei. injection Ei as <- <-.
                fold p. rewrite Nat.eqb_refl. do 2 f_equal. lia.
            - intros q Hq Nq. cbn [pivot_index]. specialize (GP q). unfold get in GP. rewrite GP. unfold E2 in Nq. rewrite map_app, in_app_iff in Nq. cbn [map fst In] in Nq.
              destruct (Nat.eqb_spec q p) as [EQ|]; [exfalso; apply Nq; right; left; symmetry; exact EQ|]. apply (es_free n E s H); [auto|]. tauto. }
          pose proof (a_solution_ok n E2 _ H2) as G2. destruct (a_solution _) as [x2|]; [|contradiction]. destruct G2 as (Wx2 & Sx2 & _).
          exists x2. split; [auto|]. split.
          + intros rw b I. apply Sx2. unfold E2. apply in_app_iff. now left.
          + apply Sx2. unfold E2. apply in_app_iff. right. now left. }
      destruct EX as (x & Wx & Sx & Hx). exists x. split; [auto|]. split; [auto|]. rewrite E0. specialize (X1 x Sx). rewrite Hx in X1.
      destruct (scalar n row0 x), r, r1; cbn in *; congruence.
Qed.

(** an inconsistent system remains as it is *)
Lemma add_inconsistent s l r : consistent s = false -> add s l r = Ok (false, s).
Proof. intros H. unfold add. now rewrite H. Qed.
