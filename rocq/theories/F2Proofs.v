(** Echelon forms over the field with two elements: proofs *)

From Coq Require Import List Arith NArith ZArith Lia Bool Permutation Sorted.
From Verif Require Import VecModel VecProofs RunModel RunProofs F2Model F2Spec F2Basics.
Import ListNotations.
Open Scope nat_scope.

(** a vector of size [n] whose unused bits are zero *)
Definition sized (n : nat) (v : bv) : Prop := within n (data v) /\ bsize v = n.
Notation D := (map data).

Lemma sized_0 n : sized n (bv_zero n).
Proof. split; [apply within_0|auto]. Qed.
Lemma sized_add n v w : sized n v -> sized n w -> sized n (bv_add v w).
Proof. intros [A B] [C E]. split; [now apply within_lxor|auto]. Qed.
Lemma sized_D n a : Forall (sized n) a -> forall x, In x (D a) -> within n x.
Proof. intros H x I. apply in_map_iff in I as (v & <- & I). rewrite Forall_forall in H. apply (H v I). Qed.

(** *** spans and appended vectors *)

Lemma span_app_l a b v : in_span a v -> in_span (a ++ b) v.
Proof. apply span_incl. intros x I. apply span_in, in_or_app. auto. Qed.
Lemma span_app_r a b v : in_span b v -> in_span (a ++ b) v.
Proof. apply span_incl. intros x I. apply span_in, in_or_app. auto. Qed.
Lemma span_app_incl a b c : (forall v, in_span a v -> in_span c v) -> (forall v, in_span b v -> in_span c v) ->
  forall v, in_span (a ++ b) v -> in_span c v.
Proof. intros A B. apply span_incl. intros x I. apply in_app_or in I as [I|I]; [apply A|apply B]; now apply span_in. Qed.
Lemma span_app_congr a b c : (forall v, in_span a v <-> in_span b v) -> forall v, in_span (a ++ c) v <-> in_span (b ++ c) v.
Proof.
  intros H v. split; apply span_app_incl; intros u Hu; try (now apply span_app_r); apply span_app_l; now apply H.
Qed.
Lemma span_app_nil a v : in_span a v -> forall u, in_span (a ++ [v]) u <-> in_span a u.
Proof.
  intros H u. split; [|apply span_app_l]. apply span_app_incl; auto. apply span_incl. intros x [<-|[]]. auto.
Qed.
Lemma span_perm a b : Permutation a b -> forall v, in_span a v <-> in_span b v.
Proof.
  intros P v. split; apply span_incl; intros x I; apply span_in.
  - now apply (Permutation_in x P). - now apply (Permutation_in x (Permutation_sym P)).
Qed.

(** *** reduction *)

Section Dim.
Variable dim : nat.

Lemma get_D (a : list bv) i x : get a i = Some x -> nth_error (D a) i = Some (data x).
Proof. unfold get. intros H. now apply map_nth_error. Qed.
Lemma positions_lt n a f p : (forall x, In x a -> within n x) -> triangular a f -> In p f -> p < n.
Proof.
  intros W T I. apply In_nth_error in I as [k E].
  assert (Hk : k < length a). { rewrite (tr_length a f T). apply nth_error_Some. congruence. }
  destruct (tr_leads a f T k (nth k a 0%N) p) as [A _]; [now apply nth_nth_error|auto|].
  apply (within_lt n (nth k a 0%N)); auto. apply W. now apply nth_In.
Qed.

Lemma reduce_by_ok n a f v : n <= dim -> Forall (sized n) a -> triangular (D a) f -> sized n v ->
  gives (reduce_by dim a f v)
    (fun w => sized n w /\ in_span (D a) (N.lxor (data v) (data w)) /\ forall p, In p f -> coord (data w) p = false) sure.
Proof.
  intros Hn HA T HV. unfold reduce_by.
  assert (L : length a = length f) by (rewrite <- (map_length data a); apply (tr_length _ _ T)).
  apply (gives_upto0 (fun j w => sized n w /\ in_span (D a) (N.lxor (data v) (data w)) /\
    forall k p, k < j -> nth_error f k = Some p -> coord (data w) p = false)).
  - split; [auto|]. split; [rewrite N.lxor_nilpotent; apply span_0|]. intros; lia.
  - intros j w Hj (SW & SP & Z).
    destruct (get_some f j) as (p & Ep); [lia|]. destruct (get_some a j) as (x & Ex); [lia|].
    eapply gives_bind; [apply (gives_vget _ _ p (fun y => y = p)); auto|]. intros ? ->.
    assert (Hp : p < n). { apply (positions_lt n (D a) f); [now apply sized_D|auto|]. eapply nth_error_In; exact Ep. }
    unfold bv_test. rewrite test_ok by lia. cbn [bind].
    assert (XI : In x a) by (eapply nth_error_In; exact Ex).
    assert (XS : sized n x) by (rewrite Forall_forall in HA; auto).
    destruct (coord (data w) p) eqn:B.
    + eapply gives_bind; [apply (gives_vget _ _ x (fun y => y = x)); auto|]. intros ? ->. cbn [gives].
      split; [now apply sized_add|]. split.
      * cbn [bv_add data]. rewrite <- N.lxor_assoc. apply span_xor; [auto|]. apply span_in. now apply in_map.
      * intros k q Hk Eq. cbn [bv_add data]. rewrite coord_lxor. destruct (Nat.eq_dec k j) as [->|N].
        -- assert (q = p) by (unfold get in Ep; congruence). subst q. rewrite B.
           destruct (tr_leads _ _ T j (data x) p) as [X _]; [now apply get_D|auto|]. now rewrite X.
        -- rewrite (Z k q) by (auto; lia). rewrite (tr_clear _ _ T k j (data x) q); auto; [lia|now apply get_D].
    + cbn [gives]. split; [auto|]. split; [auto|]. intros k q Hk Eq. destruct (Nat.eq_dec k j) as [->|N].
      * assert (q = p) by (unfold get in Ep; congruence). now subst q.
      * apply (Z k q); auto; lia.
  - intros w (SW & SP & Z). split; [auto|]. split; [auto|]. intros p I. apply In_nth_error in I as [k E].
    apply (Z k p); auto. rewrite L. apply nth_error_Some. congruence.
Qed.

(** *** spanAdd *)

Lemma triangular_snoc a f w p : triangular a f -> leads w p -> (forall q, In q f -> coord w q = false) ->
  triangular (a ++ [w]) (f ++ [p]).
Proof.
  intros [L HL HC] HW Z. constructor.
  - rewrite !app_length. cbn. lia.
  - intros i v q Ev Eq. destruct (Nat.lt_ge_cases i (length a)) as [H|H].
    + rewrite nth_error_app1 in Ev by auto. rewrite nth_error_app1 in Eq by lia. eapply HL; eauto.
    + rewrite nth_error_app2 in Ev by auto. rewrite nth_error_app2 in Eq by lia.
      replace (i - length f) with (i - length a) in Eq by lia. destruct (i - length a) as [|[|k]]; try discriminate.
      injection Ev as <-. injection Eq as <-. auto.
  - intros i j v q Hij Ev Eq.
    assert (Hj : j < length (a ++ [w])) by (apply nth_error_Some; congruence). rewrite app_length in Hj. cbn in Hj.
    rewrite nth_error_app1 in Eq by lia. destruct (Nat.lt_ge_cases j (length a)) as [H|H].
    + rewrite nth_error_app1 in Ev by auto. apply (HC i j v q); auto.
    + rewrite nth_error_app2 in Ev by auto. replace (j - length a) with 0 in Ev by lia. injection Ev as <-.
      apply Z. eapply nth_error_In; eauto.
Qed.
Lemma isZero_spec v : isZero v = true <-> data v = 0%N.
Proof. apply N.eqb_eq. Qed.
Lemma isZero_false v : isZero v = false -> data v <> 0%N.
Proof. apply N.eqb_neq. Qed.

Lemma spanAdd_ok n a f v : n <= dim -> Forall (sized n) a -> triangular (D a) f -> sized n v ->
  gives (spanAdd dim a f v) (fun '(a', f') => Forall (sized n) a' /\ triangular (D a') f' /\
    forall u, in_span (D a') u <-> in_span (D a ++ [data v]) u) sure.
Proof.
  intros Hn HA T HV. unfold spanAdd. destruct (isZero v) eqn:Z.
  { apply isZero_spec in Z. cbn [gives]. split; [auto|]. split; [auto|]. intros u. symmetry. apply span_app_nil. rewrite Z. apply span_0. }
  eapply gives_bind; [apply (reduce_by_ok n); auto|]. intros w (SW & SP & ZW).
  destruct (isZero w) eqn:Z2.
  { apply isZero_spec in Z2. cbn [gives]. split; [auto|]. split; [auto|]. intros u. symmetry. apply span_app_nil.
    rewrite Z2, N.lxor_0_r in SP. auto. }
  apply isZero_false in Z2. cbn [gives]. split; [apply Forall_app; auto|]. rewrite map_app. cbn [map]. split.
  - apply triangular_snoc; auto. now apply firstBit_leads.
  - intros u. split; apply span_app_incl; intros x Hx; try (now apply span_app_l).
    + revert x Hx. apply span_incl. intros x [<-|[]]. apply (span_xor_l _ (data w) (data v)).
      * apply span_app_r, span_in. now left. * rewrite N.lxor_comm. now apply span_app_l.
    + revert x Hx. apply span_incl. intros x [<-|[]]. apply (span_xor_l _ (data v) (data w)).
      * apply span_app_r, span_in. now left. * now apply span_app_l.
Qed.

(** *** normalSpanAdd *)

Definition upd (w : bv) (n : nat) (x : bv) : bv := if coord (data x) n then bv_add x w else x.

Lemma reduced_snoc a f w p : reduced (D a) f -> leads (data w) p -> (forall q, In q f -> coord (data w) q = false) ->
  reduced (D (map (upd w p) a ++ [w])) (f ++ [p]).
Proof.
  intros [L HL HC] HW Z. rewrite map_length in L.
  assert (DA : forall i x, nth_error (D (map (upd w p) a)) i = Some x ->
    exists y, nth_error (D a) i = Some (data y) /\ x = data (upd w p y)).
  { intros i x E. rewrite map_map in E. apply nth_error_In in E as I.
    destruct (nth_error a i) as [y|] eqn:Ey.
    - exists y. split; [now apply map_nth_error|]. rewrite (map_nth_error _ _ _ Ey) in E. now injection E as <-.
    - apply nth_error_None in Ey. assert (X : nth_error (map (fun x => data (upd w p x)) a) i = None)
        by (apply nth_error_None; rewrite map_length; auto). congruence. }
  assert (LA : length (D (map (upd w p) a)) = length f) by (rewrite !map_length; auto).
  rewrite map_app. cbn [map].
  constructor.
  - rewrite !app_length, LA. auto.
  - intros i v q Ev Eq. destruct (Nat.lt_ge_cases i (length f)) as [H|H].
    + rewrite nth_error_app1 in Ev by lia. rewrite nth_error_app1 in Eq by lia.
      destruct (DA i v Ev) as (y & Ey & ->). pose proof (HL i _ q Ey Eq) as [A B]. unfold upd.
      destruct (coord (data y) p) eqn:C; [|split; auto]. cbn [bv_add data].
      assert (q < p).
      { destruct (Nat.lt_trichotomy q p) as [|[E|E]]; auto.
        - exfalso. subst q. destruct HW as [HW _]. rewrite Z in HW; [discriminate|eapply nth_error_In; eauto].
        - rewrite B in C by auto. discriminate. }
      split; [rewrite coord_lxor, A; destruct HW as [_ HW]; now rewrite HW|].
      intros k Hk. rewrite coord_lxor, B by auto. destruct HW as [_ HW]. rewrite HW by lia. auto.
    + rewrite nth_error_app2 in Ev by lia. rewrite nth_error_app2 in Eq by lia. rewrite LA in Ev.
      destruct (i - length f) as [|[|k]]; try discriminate. injection Ev as <-. injection Eq as <-. auto.
  - intros i j v q Ev Eq.
    destruct (Nat.lt_ge_cases i (length f)) as [H|H]; destruct (Nat.lt_ge_cases j (length f)) as [H2|H2].
    + rewrite nth_error_app1 in Ev by lia. rewrite nth_error_app1 in Eq by lia. destruct (DA i v Ev) as (y & Ey & ->).
      rewrite <- (HC i j _ q Ey Eq). unfold upd. destruct (coord (data y) p); [|auto]. cbn [bv_add data]. rewrite coord_lxor, Z, xorb_false_r; auto.
      eapply nth_error_In; eauto.
    + rewrite nth_error_app1 in Ev by lia. rewrite nth_error_app2 in Eq by lia. destruct (DA i v Ev) as (y & Ey & ->).
      destruct (j - length f) as [|[|k]] eqn:J; try discriminate. injection Eq as <-.
      replace (i =? j) with false by (symmetry; apply Nat.eqb_neq; lia). unfold upd. destruct (coord (data y) p) eqn:C; [|auto].
      cbn [bv_add data]. rewrite coord_lxor, C. destruct HW as [HW _]. now rewrite HW.
    + rewrite nth_error_app2 in Ev by lia. rewrite nth_error_app1 in Eq by lia. rewrite LA in Ev.
      destruct (i - length f) as [|[|k]]; try discriminate. injection Ev as <-.
      replace (i =? j) with false by (symmetry; apply Nat.eqb_neq; lia). apply Z. eapply nth_error_In; eauto.
    + rewrite nth_error_app2 in Ev by lia. rewrite nth_error_app2 in Eq by lia. rewrite LA in Ev.
      destruct (i - length f) as [|[|k]] eqn:I; try discriminate. injection Ev as <-.
      destruct (j - length f) as [|[|k]] eqn:J; try discriminate. injection Eq as <-.
      replace (i =? j) with true by (symmetry; apply Nat.eqb_eq; lia). apply HW.
Qed.

Lemma upd_loop n a w p : p < dim -> gives (upto (length a) 0 (fun j a =>
        run x <- vget a j; run b <- bv_test dim x p; if b : bool then vput a j (bv_add x w) else Ok a) a)
    (fun a' => a' = map (upd w p) a) (fun _ => n).
Proof.
  intros Hp. apply (gives_upto0 (fun i a' => forall j, get a' j = option_map (fun x => if j <? i then upd w p x else x) (get a j))).
  - intros j. cbn. now destruct (get a j).
  - intros i a' Hi G. destruct (get_some a i Hi) as (x & Ex). pose proof (G i) as Gi. rewrite Ex in Gi. cbn [option_map] in Gi.
    rewrite Nat.ltb_irrefl in Gi.
    eapply gives_bind; [apply (gives_vget _ _ x (fun y => y = x)); auto|]. intros ? ->. unfold bv_test. rewrite test_ok by lia. cbn [bind].
    destruct (coord (data x) p) eqn:C.
    + apply gives_vput; [apply get_lt in Gi; auto|]. intros a2 L2 G2 j. rewrite G2. destruct (Nat.eqb_spec j i) as [->|N].
      * rewrite Ex. cbn [option_map]. replace (i <? S i) with true by (symmetry; apply Nat.ltb_lt; lia). unfold upd. now rewrite C.
      * rewrite G. destruct (get a j); cbn [option_map]; [|auto]. replace (j <? S i) with (j <? i); [auto|].
        destruct (Nat.ltb_spec j i), (Nat.ltb_spec j (S i)); auto; lia.
    + cbn [gives]. intros j. rewrite G. destruct (Nat.eq_dec j i) as [->|N].
      * rewrite Ex. cbn [option_map]. rewrite Nat.ltb_irrefl. replace (i <? S i) with true by (symmetry; apply Nat.ltb_lt; lia). unfold upd. now rewrite C.
      * destruct (get a j); cbn [option_map]; [|auto]. replace (j <? S i) with (j <? i); [auto|].
        destruct (Nat.ltb_spec j i), (Nat.ltb_spec j (S i)); auto; lia.
  - intros a' G. apply vec_ext_all. intros j. rewrite G. unfold get. rewrite nth_error_map.
    destruct (nth_error a j) eqn:E; cbn [option_map]; [|auto]. replace (j <? length a) with true; [auto|]. symmetry. apply Nat.ltb_lt, nth_error_Some. congruence.
Qed.

Lemma normalSpanAdd_ok n a f v : n <= dim -> Forall (sized n) a -> reduced (D a) f -> sized n v ->
  gives (normalSpanAdd dim a f v) (fun '(a', f') => Forall (sized n) a' /\ reduced (D a') f' /\
    forall u, in_span (D a') u <-> in_span (D a ++ [data v]) u) sure.
Proof.
  intros Hn HA T HV. unfold normalSpanAdd. destruct (isZero v) eqn:Z.
  { apply isZero_spec in Z. cbn [gives]. split; [auto|]. split; [auto|]. intros u. symmetry. apply span_app_nil. rewrite Z. apply span_0. }
  eapply gives_bind; [apply (reduce_by_ok n); auto using reduced_triangular|]. intros w (SW & SP & ZW).
  destruct (isZero w) eqn:Z2.
  { apply isZero_spec in Z2. cbn [gives]. split; [auto|]. split; [auto|]. intros u. symmetry. apply span_app_nil.
    rewrite Z2, N.lxor_0_r in SP. auto. }
  apply isZero_false in Z2. pose proof (firstBit_leads _ Z2) as HL.
  set (p := firstBit (data w)) in *. cbv zeta.
  assert (Hp : p < n). { apply (within_lt n (data w)); [apply SW|apply HL]. }
  eapply gives_bind; [apply (upd_loop False a w p); lia|]. intros ? ->. cbn [gives].
  assert (US : forall x, In x a -> sized n (upd w p x)).
  { intros x I. rewrite Forall_forall in HA. unfold upd. destruct (coord (data x) p); [apply sized_add|]; auto. }
  split; [|split].
  - apply Forall_app. split; [|auto]. apply Forall_forall. intros y I. apply in_map_iff in I as (x & <- & I). auto.
  - apply reduced_snoc; auto.
  - rewrite map_app. cbn [map].
    assert (WA : in_span (D a ++ [data v]) (data w)).
    { apply (span_xor_l _ (data w) (data v)); [apply span_app_r, span_in; now left|]. rewrite N.lxor_comm. now apply span_app_l. }
    assert (WB : in_span (D (map (upd w p) a) ++ [data w]) (data w)) by (apply span_app_r, span_in; now left).
    assert (AB : forall x, in_span (D a) x -> in_span (D (map (upd w p) a) ++ [data w]) x).
    { apply span_incl. intros x I. apply in_map_iff in I as (y & <- & I).
      assert (U : in_span (D (map (upd w p) a) ++ [data w]) (data (upd w p y))).
      { apply span_app_l, span_in. now do 2 apply in_map. }
      unfold upd in U. destruct (coord (data y) p); [|auto]. cbn [bv_add data] in U. now apply (span_xor_l _ _ (data w)). }
    intros u. split; apply span_incl; intros x I; apply in_app_or in I as [I|[<-|[]]]; auto.
    + apply in_map_iff in I as (y & <- & I). apply in_map_iff in I as (z & <- & I).
      assert (U : in_span (D a ++ [data v]) (data z)) by (apply span_app_l, span_in; now apply in_map).
      unfold upd. destruct (coord (data z) p); [|auto]. now apply span_xor.
    + apply AB. now apply span_in.
    + apply (span_xor_l _ (data v) (data w)); auto.
Qed.

(** *** sorting *)

Lemma reduced_firsts a f : reduced a f -> f = map firstBit a.
Proof.
  intros [L HL HC]. apply nth_ext with (d := 0) (d' := firstBit 0); [rewrite map_length; auto|]. intros k Hk. rewrite map_nth.
  symmetry. apply leads_first. apply (HL k); apply nth_nth_error; lia.
Qed.
Lemma reduced_iff a : reduced a (map firstBit a) <->
  NoDup (map firstBit a) /\ (forall x, In x a -> x <> 0%N) /\
  forall x y, In x a -> In y a -> coord x (firstBit y) = (firstBit x =? firstBit y).
Proof.
  split.
  - intros R. pose proof (reduced_nodup _ _ R) as N. split; [auto|]. split.
    + intros x I ->. apply In_nth_error in I as [k E].
      destruct (rd_leads _ _ R k 0%N (firstBit 0) E (map_nth_error firstBit k a E)) as [A _]. now rewrite coord_0 in A.
    + intros x y Ix Iy. apply In_nth_error in Ix as [i Ex]. apply In_nth_error in Iy as [j Ey].
      rewrite (rd_clear _ _ R i j x (firstBit y) Ex (map_nth_error firstBit j a Ey)).
      destruct (Nat.eqb_spec i j) as [->|E], (Nat.eqb_spec (firstBit x) (firstBit y)) as [F|F]; auto.
      * exfalso. apply F. congruence.
      * exfalso. apply E. rewrite NoDup_nth_error in N. apply N.
        -- rewrite map_length. apply nth_error_Some. congruence.
        -- rewrite (map_nth_error firstBit i a Ex), (map_nth_error firstBit j a Ey). congruence.
  - intros (N & Z & C). constructor; [now rewrite map_length| |].
    + intros i v p Ev Ep. rewrite (map_nth_error firstBit i a Ev) in Ep. injection Ep as <-.
      apply firstBit_leads, Z. eapply nth_error_In; eauto.
    + intros i j v p Ev Ep. destruct (nth_error a j) as [w|] eqn:Ew.
      2: { apply nth_error_None in Ew. assert (X : nth_error (map firstBit a) j = None) by (apply nth_error_None; rewrite map_length; auto). congruence. }
      rewrite (map_nth_error firstBit j a Ew) in Ep. injection Ep as <-.
      rewrite C by (eapply nth_error_In; eauto).
      destruct (Nat.eqb_spec i j) as [->|E], (Nat.eqb_spec (firstBit v) (firstBit w)) as [F|F]; auto.
      * exfalso. apply F. congruence.
      * exfalso. apply E. rewrite NoDup_nth_error in N. apply N.
        -- rewrite map_length. apply nth_error_Some. congruence.
        -- rewrite (map_nth_error firstBit i a Ev), (map_nth_error firstBit j a Ew). congruence.
Qed.
Lemma insert_perm x l : Permutation (insert_bv x l) (x :: l).
Proof.
  induction l as [|y l IH]; cbn [insert_bv]; [auto|]. destruct (_ <? _); [auto|].
  rewrite IH. apply perm_swap.
Qed.
Lemma sort_perm l : Permutation (sort_bv l) l.
Proof. induction l as [|x l IH]; cbn; [auto|]. rewrite insert_perm. auto. Qed.
Definition key_le (x y : bv) := firstBit (data x) <= firstBit (data y).
Lemma insert_sorted x l : StronglySorted key_le l -> StronglySorted key_le (insert_bv x l).
Proof.
  induction l as [|y l IH]; intros S; cbn [insert_bv]; [repeat constructor|].
  inversion S as [|? ? S' F]; subst. destruct (Nat.ltb_spec (firstBit (data x)) (firstBit (data y))) as [H|H].
  - constructor; [auto|]. constructor; [unfold key_le; lia|]. eapply Forall_impl; [|exact F]. unfold key_le. intros; lia.
  - constructor; [auto|]. rewrite (insert_perm x l). constructor; [exact H|auto].
Qed.
Lemma sort_sorted l : StronglySorted key_le (sort_bv l).
Proof. induction l as [|x l IH]; cbn; [constructor|]. now apply insert_sorted. Qed.
Lemma sorted_nth l i j x y : StronglySorted key_le l -> i < j -> nth_error l i = Some x -> nth_error l j = Some y -> key_le x y.
Proof.
  intros S. revert i j. induction S as [|z l S IH F]; intros [|i] [|j] Hij Ex Ey; try lia; try discriminate.
  - injection Ex as <-. rewrite Forall_forall in F. apply F. eapply nth_error_In; eauto.
  - apply (IH i j); auto; lia.
Qed.

Lemma set_bits n f : n <= dim -> (forall p, In p f -> p < n) ->
  gives (each f (fun p t => assign dim t p true) 0%N) (fun t => forall p, coord t p = true <-> In p f) sure.
Proof.
  intros Hn HF. apply (gives_each (fun i t => forall p, coord t p = true <-> In p (firstn i f))).
  - intros p. rewrite coord_0. cbn. intuition discriminate.
  - intros i x t Ex H. assert (x < n) by (apply HF; eapply nth_error_In; eauto).
    apply gives_assign; [lia|]. intros t' C p. rewrite C.
    assert (FS : firstn (S i) f = firstn i f ++ [x]).
    { clear -Ex. revert i Ex. induction f as [|y f IH]; intros [|i] Ex; try discriminate; cbn in *; [congruence|]. now rewrite IH. }
    rewrite FS, in_app_iff, <- H. cbn. destruct (Nat.eqb_spec p x) as [->|N]; [intuition|]. intuition congruence.
  - intros t H p. rewrite H, firstn_all. tauto.
Qed.

(** bitvector.cpp:673-692 *)
Theorem Gauss_Jordan_ok n b : n <= dim -> Forall (sized n) b ->
  gives (Gauss_Jordan dim b) (fun '(t, r) => within n t /\ Forall (sized n) r /\
    reduced_echelon (D r) (positions_of n t) /\ forall u, in_span (D r) u <-> in_span (D b) u) sure.
Proof.
  intros Hn HB. unfold Gauss_Jordan.
  eapply gives_bind.
  { apply (gives_each (fun i '(a, f) => Forall (sized n) a /\ reduced (D a) f /\ forall u, in_span (D a) u <-> in_span (D (firstn i b)) u)) with
      (Q := fun '(a, f) => Forall (sized n) a /\ reduced (D a) f /\ forall u, in_span (D a) u <-> in_span (D b) u).
    - split; [auto|]. split; [|intros; tauto]. constructor; auto; intros [|i]; discriminate.
    - intros i x [a f] Ex (SA & R & SP). assert (SX : sized n x) by (rewrite Forall_forall in HB; apply HB; eapply nth_error_In; eauto).
      eapply gives_mono; [now apply (normalSpanAdd_ok n)|]. intros [a' f'] (SA' & R' & SP'). split; [auto|]. split; [auto|].
      intros u. rewrite SP'.
      assert (FS : firstn (S i) b = firstn i b ++ [x]).
      { clear -Ex. revert i Ex. induction b as [|y f IH]; intros [|i] Ex; try discriminate; cbn in *; [congruence|]. now rewrite IH. }
      rewrite FS, map_app. cbn [map]. now apply span_app_congr.
    - intros [a f] H. now rewrite firstn_all in H. }
  intros [a f] (SA & R & SP).
  assert (FL : forall p, In p f -> p < n).
  { intros p. apply (positions_lt n (D a)); [now apply sized_D|now apply reduced_triangular]. }
  eapply gives_bind; [now apply (set_bits n)|]. intros t HT. cbv beta in HT. cbn [gives].
  pose proof (sort_perm a) as P. pose proof (Permutation_map data P) as PD.
  assert (R2 : reduced (D (sort_bv a)) (map firstBit (D (sort_bv a)))).
  { rewrite (reduced_firsts _ _ R) in R. apply reduced_iff in R as (N & Z & C). apply reduced_iff. split; [|split].
    - apply (Permutation_NoDup (Permutation_sym (Permutation_map firstBit PD)) N).
    - intros x I. apply Z. now apply (Permutation_in x PD).
    - intros x y Ix Iy. apply C; [now apply (Permutation_in x PD)|now apply (Permutation_in y PD)]. }
  assert (W : within n t).
  { intros i Hi. destruct (coord t i) eqn:E; [|auto]. apply HT, FL in E. lia. }
  assert (PO : positions_of n t = map firstBit (D (sort_bv a))).
  { apply sorted_same.
    - intros i j p q. apply (positions_sorted n t).
    - intros i j p q Hij Ep Eq. rewrite nth_error_map in Ep, Eq.
      destruct (nth_error (D (sort_bv a)) i) as [x|] eqn:Ex; [|discriminate]. destruct (nth_error (D (sort_bv a)) j) as [y|] eqn:Ey; [|discriminate].
      cbn in Ep, Eq. injection Ep as <-. injection Eq as <-.
      assert (firstBit x <> firstBit y).
      { intros E. pose proof (reduced_nodup _ _ R2) as N. rewrite NoDup_nth_error in N. assert (i = j); [|lia]. apply N.
        - rewrite map_length. apply nth_error_Some. congruence.
        - now rewrite (map_nth_error firstBit i _ Ex), (map_nth_error firstBit j _ Ey), E. }
      rewrite nth_error_map in Ex, Ey. destruct (nth_error (sort_bv a) i) as [u|] eqn:Eu; [|discriminate]. destruct (nth_error (sort_bv a) j) as [v|] eqn:Ev; [|discriminate].
      pose proof (sorted_nth _ i j u v (sort_sorted a) Hij Eu Ev) as K. cbn in Ex, Ey. injection Ex as <-. injection Ey as <-. unfold key_le in K. lia.
    - intros p. rewrite <- (positions_spec n t), in_positions, HT. split.
      + intros [_ I]. rewrite (reduced_firsts _ _ R) in I. apply (Permutation_in p (Permutation_sym (Permutation_map firstBit PD)) I).
      + intros I. apply (Permutation_in p (Permutation_map firstBit PD)) in I. rewrite <- (reduced_firsts _ _ R) in I. auto. }
  split; [auto|]. split; [now rewrite P|]. split.
  - rewrite PO. destruct R2 as [L HL HC]. constructor; auto. rewrite <- PO. intros i j p q. apply (positions_sorted n t).
  - intros u. rewrite <- SP. now apply span_perm.
Qed.
End Dim.
