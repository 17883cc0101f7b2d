(** Proofs about upward division of polynomials by 1+cX and 1+X^k, and comparison. *)

From Coq Require Import List Arith ZArith Lia Bool.
From Verif Require Import VecModel VecProofs PolyModel PolySpec PolyProofs.
Import ListNotations.
Open Scope Z_scope.
Open Scope vec_scope.

(** the quotient is determined in every degree by the terms up to it *)
Lemma quotient_unique c e f g m : (0 < e)%nat ->
  (forall k, (k <= m)%nat -> times_1_plus c e f k = times_1_plus c e g k) -> forall k, (k <= m)%nat -> f k = g k.
Proof.
  intros He H k. induction k as [k IH] using lt_wf_ind. intros Hk. specialize (H k Hk). unfold times_1_plus, shift in H.
  destruct (Nat.ltb_spec k e); [lia|]. rewrite (IH (k - e)%nat) in H by lia. lia.
Qed.

(** rising division without bound *)
Fixpoint quo (c : Z) (f : nat -> Z) (k : nat) : Z :=
  match k with O => f O | S j => f k - c * quo c f j end.

Lemma up_remainder_correct p c d : (length p <= d + 1)%nat ->
  exists r, up_remainder p c d = Some r /\
  exists f, (forall k, (d <= k)%nat -> f k = 0) /\
    forall k, cf p k = times_1_plus c 1 f k + (if (k =? d)%nat then r else 0).
Proof.
  intros H. unfold up_remainder. destruct (is_zero p) eqn:Z.
  - apply is_zero_true in Z. subst p. exists 0. split; [reflexivity|]. exists (fun _ => 0). split; [reflexivity|].
    intros k. rewrite cf_nil. unfold times_1_plus, shift. destruct (k <? 1)%nat, (k =? d)%nat; lia.
  - apply is_zero_false in Z. rewrite cf_get by lia.
    destruct (for_up_rule (fun i r => r = quo c (cf p) (i - 1)) d 1 (fun i r => Some (coef p i - c * r)) (cf p 0)) as (r & E & R).
    + reflexivity.
    + intros i s Hi ->. eexists. split; [reflexivity|]. rewrite coef_cf. replace (S i - 1)%nat with (S (i - 1)) by lia.
      cbn [quo]. replace (S (i - 1)) with i by lia. reflexivity.
    + exists r. split; [exact E|]. replace (1 + d - 1)%nat with d in R by lia. subst r.
      exists (fun k => if (k <? d)%nat then quo c (cf p) k else 0). split.
      * intros k Hk. destruct (Nat.ltb_spec k d); [lia|reflexivity].
      * intros k. unfold times_1_plus, shift. destruct k as [|k].
        -- cbn [Nat.ltb Nat.leb]. destruct d; cbn; lia.
        -- change (S k <? 1)%nat with false. cbv iota. replace (S k - 1)%nat with k by lia.
           destruct (Nat.ltb_spec (S k) d), (Nat.ltb_spec k d), (Nat.eqb_spec (S k) d); try lia.
           ++ cbn [quo]. lia.
           ++ subst d. cbn [quo]. lia.
           ++ rewrite cf_ge by lia. lia.
Qed.

Definition widen (p : poly) d := if (length p - 1 <? d)%nat then resize p (d + 1) else p.
Lemma widen_length p d : (0 < length p <= d + 1)%nat -> length (widen p d) = (d + 1)%nat.
Proof. intros H. unfold widen. destruct (Nat.ltb_spec (length p - 1) d); [apply resize_length|lia]. Qed.
Lemma widen_cf p d i : cf (widen p d) i = cf p i.
Proof. unfold widen. destruct (Nat.ltb_spec (length p - 1) d); [apply resize_cf; lia|reflexivity]. Qed.

Lemma factor_1_correct p d : normal p -> (length p <= d + 1)%nat ->
  exists q r, factor_by_1_plus_q p d = Some (q, r) /\ normal q /\ (length q <= d)%nat /\
    forall k, cf p k = times_1_plus 1 1 (cf q) k + (if (k =? d)%nat then r else 0).
Proof.
  intros Np H. unfold factor_by_1_plus_q. destruct (is_zero p) eqn:Z.
  - apply is_zero_true in Z. subst p. exists [], 0. split; [reflexivity|]. split; [apply normal_nil|]. split; [cbn; lia|].
    intros k. unfold times_1_plus, shift. rewrite !cf_nil. destruct (k <? 1)%nat, (k =? d)%nat; lia.
  - apply is_zero_false in Z. fold (widen p d). set (w := widen p d).
    assert (Lw : length w = (d + 1)%nat) by (apply widen_length; lia).
    assert (Cw : forall i, cf w i = cf p i) by (intros; apply widen_cf).
    rewrite (cf_get w 0) by lia.
    match goal with |- exists _ _, match for_up d 1 ?b ?s with _ => _ end = _ /\ _ =>
      destruct (for_up_rule (fun i '(a, r) => length a = (d + 1)%nat /\ r = cf a (i - 1) /\
        forall k, if (k <? i)%nat then cf a k + shift 1 (cf a) k = cf p k else cf a k = cf p k) d 1 b s) as ([a r] & E & La & Er & Ca) end.
    + split; [exact Lw|]. split; [reflexivity|]. intros k. rewrite Cw. unfold shift. destruct (k <? 1)%nat; lia.
    + intros i [a r] Hi (La & Er & Ca). rewrite cf_get by lia.
      destruct (put_cf a i (cf a i - r)) as (a' & E & L' & C'); [lia|]. rewrite E. eexists. split; [reflexivity|].
      split; [lia|]. split; [rewrite C'; replace (S i - 1)%nat with i by lia; rewrite Nat.eqb_refl; reflexivity|].
      intros k. pose proof (Ca k) as Cak. pose proof (Ca i) as Cai. unfold shift in *. rewrite !C'.
      destruct (Nat.ltb_spec i i); [lia|].
      destruct (Nat.ltb_spec k (S i)) as [K|K].
      * destruct (Nat.eqb_spec k i) as [->|D].
        -- destruct (Nat.ltb_spec i 1); [lia|]. destruct (Nat.eqb_spec (i - 1) i); [lia|]. lia.
        -- destruct (Nat.ltb_spec k i); [|lia]. destruct (Nat.ltb_spec k 1); [exact Cak|]. destruct (Nat.eqb_spec (k - 1) i); [lia|]. exact Cak.
      * destruct (Nat.ltb_spec k i); [lia|]. destruct (Nat.eqb_spec k i); [lia|]. exact Cak.
    + rewrite E. destruct (put_cf a d 0) as (b & Eb & Lb & Cb); [lia|]. rewrite Eb.
      replace (1 + d - 1)%nat with d in Er by lia. subst r. exists (adjustSize b), (cf a d). split; [reflexivity|].
      split; [apply adjust_normal|]. split.
      * pose proof (adjust_normal b) as N. pose proof (adjust_length b). destruct (Nat.le_gt_cases (length (adjustSize b)) d) as [G|G]; [exact G|].
        exfalso. assert (length (adjustSize b) = d + 1)%nat by lia. apply (normal_lead _ N); [lia|].
        rewrite adjust_cf, Cb. replace (length (adjustSize b) - 1)%nat with d by lia. rewrite Nat.eqb_refl. reflexivity.
      * intros k. pose proof (Ca k) as Cak. unfold times_1_plus, shift in *. rewrite !adjust_cf, !Cb.
        destruct (Nat.ltb_spec k (1 + d)) as [K|K].
        -- destruct (Nat.eqb_spec k d) as [->|D].
           ++ destruct (Nat.ltb_spec d 1); [lia|]. destruct (Nat.eqb_spec (d - 1) d); lia.
           ++ destruct (Nat.ltb_spec k 1); [lia|]. destruct (Nat.eqb_spec (k - 1) d); lia.
        -- destruct (Nat.eqb_spec k d); [lia|]. rewrite (cf_ge p) in * by lia. destruct (Nat.ltb_spec k 1); [lia|].
           destruct (Nat.eqb_spec (k - 1) d); [lia|]. rewrite !(cf_ge a) by lia. lia.
Qed.

Lemma factor_k_correct p k d : normal p -> (length p <= d + 1)%nat -> (1 <= k <= d + 1)%nat ->
  exists q r, factor_by_1_plus_q_to_the p k d = Some (q, r) /\ normal q /\ (length q + k <= d + 1)%nat /\
    (forall i, (i + k <= d)%nat -> cf p i = times_1_plus 1 k (cf q) i) /\
    r = cf p d - times_1_plus 1 k (cf q) d.
Proof.
  intros Np H Hk. unfold factor_by_1_plus_q_to_the. destruct (is_zero p) eqn:Z.
  - apply is_zero_true in Z. subst p. exists [], 0. split; [reflexivity|]. split; [apply normal_nil|]. split; [cbn; lia|].
    unfold times_1_plus, shift. split; [intros i Hi|]; rewrite !cf_nil; [destruct (i <? k)%nat|destruct (d <? k)%nat]; lia.
  - apply is_zero_false in Z. fold (widen p d). set (w := widen p d).
    assert (Lw : length w = (d + 1)%nat) by (apply widen_length; lia).
    assert (Cw : forall i, cf w i = cf p i) by (intros; apply widen_cf).
    match goal with |- exists _ _, match for_up ?n k ?b ?s with _ => _ end = _ /\ _ =>
      destruct (for_up_rule (fun i a => length a = (d + 1)%nat /\
        forall j, if (j <? i)%nat then cf a j + shift k (cf a) j = cf p j else cf a j = cf p j) n k b s) as (a & E & La & Ca) end.
    + split; [exact Lw|]. intros j. rewrite Cw. unfold shift. destruct (j <? k)%nat; lia.
    + intros i a Hi (La & Ca). rewrite (cf_get a i), (cf_get a (i - k)) by lia.
      destruct (put_cf a i (cf a i - cf a (i - k))) as (a' & E & L' & C'); [lia|]. rewrite E. eexists. split; [reflexivity|].
      split; [lia|].
      intros j. pose proof (Ca j) as Caj. pose proof (Ca i) as Cai. unfold shift in *. rewrite !C'.
      destruct (Nat.ltb_spec i i); [lia|].
      destruct (Nat.ltb_spec j (S i)) as [K|K].
      * destruct (Nat.eqb_spec j i) as [->|D].
        -- destruct (Nat.ltb_spec i k); [lia|]. destruct (Nat.eqb_spec (i - k) i); [lia|]. lia.
        -- destruct (Nat.ltb_spec j i); [|lia]. destruct (Nat.ltb_spec j k); [exact Caj|]. destruct (Nat.eqb_spec (j - k) i); [lia|]. exact Caj.
      * destruct (Nat.ltb_spec j i); [lia|]. destruct (Nat.eqb_spec j i); [lia|]. exact Caj.
    + rewrite E, (cf_get a d) by lia.
      match goal with |- exists _ _, match for_down k ?b a with _ => _ end = _ /\ _ =>
        destruct (for_down_rule (fun i z => length z = (d + 1)%nat /\
          forall j, cf z j = if (d + 1 <=? j + k)%nat && (j + i <=? d)%nat then 0 else cf a j) k b a) as (z & Ez & Lz & Cz) end.
      * split; [exact La|]. intros j. destruct (Nat.leb_spec (d + 1) (j + k)), (Nat.leb_spec (j + k) d); try lia; reflexivity.
      * intros i z Hi (Lz & Cz). destruct (Nat.ltb_spec d i); [lia|]. destruct (put_cf z (d - i) 0) as (z' & Ez & Lz' & Cz'); [lia|].
        exists z'. split; [exact Ez|]. split; [lia|]. intros j. rewrite Cz', Cz.
        destruct (Nat.eqb_spec j (d - i)) as [->|D].
        -- destruct (Nat.leb_spec (d + 1) (d - i + k)), (Nat.leb_spec (d - i + i) d); try lia; reflexivity.
        -- destruct (Nat.leb_spec (d + 1) (j + k)), (Nat.leb_spec (j + S i) d), (Nat.leb_spec (j + i) d); try lia; reflexivity.
      * rewrite Ez. exists (adjustSize z), (cf a d). split; [reflexivity|].
        assert (Cq : forall j, cf (adjustSize z) j = if (j + k <=? d)%nat then cf a j else 0).
        { intros j. rewrite adjust_cf, Cz, Nat.add_0_r. destruct (Nat.leb_spec (d + 1) (j + k)), (Nat.leb_spec j d), (Nat.leb_spec (j + k) d); try lia; cbn [andb]; try reflexivity.
          apply cf_ge. lia. }
        split; [apply adjust_normal|]. split; [|split].
        -- destruct (Nat.le_gt_cases (length (adjustSize z) + k) (d + 1)) as [G|G]; [exact G|].
           exfalso. assert (A : (k <= d + 1)%nat) by lia. apply (normal_lead _ (adjust_normal z)); [lia|]. rewrite Cq.
           destruct (Nat.leb_spec (length (adjustSize z) - 1 + k) d); [lia|reflexivity].
        -- intros i Hi. unfold times_1_plus, shift. rewrite !Cq. pose proof (Ca i) as Cai. unfold shift in Cai.
           destruct (Nat.ltb_spec i (k + (d + 1 - k))); [|lia]. destruct (Nat.leb_spec (i + k) d); [|lia].
           destruct (Nat.ltb_spec i k); [lia|]. destruct (Nat.leb_spec (i - k + k) d); lia.
        -- unfold times_1_plus, shift. rewrite !Cq. pose proof (Ca d) as Cai. unfold shift in Cai.
           destruct (Nat.ltb_spec d (k + (d + 1 - k))); [|lia]. destruct (Nat.leb_spec (d + k) d); [lia|].
           destruct (Nat.ltb_spec d k); [lia|]. destruct (Nat.leb_spec (d - k + k) d); lia.
Qed.
(** an exact multiple of 1+X^k is divided exactly *)
Lemma factor_k_exact p s k d : normal p -> normal s -> (length s + k <= d + 1)%nat -> (1 <= k)%nat ->
  (forall i, cf p i = times_1_plus 1 k (cf s) i) -> factor_by_1_plus_q_to_the p k d = Some (s, 0).
Proof.
  intros Np Ns Ls Hk Hp.
  assert (Lp : (length p <= d + 1)%nat).
  { destruct (Nat.le_gt_cases (length p) (d + 1)) as [G|G]; [exact G|]. exfalso. apply (normal_lead p Np); [lia|].
    rewrite Hp. unfold times_1_plus, shift. rewrite !(cf_ge s) by lia. destruct (_ <? k)%nat; reflexivity. }
  destruct (factor_k_correct p k d Np Lp) as (q & r & E & Nq & Lq & Cq & ->); [lia|]. rewrite E.
  assert (q = s) as ->.
  { apply normal_ext; auto. intros i. destruct (Nat.le_gt_cases (i + k) d) as [G|G].
    - apply (quotient_unique 1 k _ _ (d - k)); [lia| |lia]. intros j Hj. rewrite <- Hp. symmetry. apply Cq. lia.
    - rewrite !cf_ge by lia. reflexivity. }
  do 2 f_equal. rewrite Hp. lia.
Qed.
Lemma factor_k_undefined p k d : normal p -> (0 < length p <= d + 1)%nat -> (d + 1 < k)%nat ->
  factor_by_1_plus_q_to_the p k d = None.
Proof.
  intros Np H Hk. unfold factor_by_1_plus_q_to_the. destruct (is_zero p) eqn:Z; [apply is_zero_true in Z; subst; cbn in H; lia|].
  fold (widen p d). replace (d + 1 - k)%nat with 0%nat by lia. cbn [for_up].
  rewrite cf_get by (rewrite widen_length; lia). destruct k as [|k]; [lia|]. cbn [for_down].
  destruct (Nat.ltb_spec d k); [reflexivity|lia].
Qed.

(** comparison *)
Lemma compare_from_spec p q j :
  compare_from p q j = true <-> exists i, (i < j)%nat /\ cf p i < cf q i /\ forall k, (i < k < j)%nat -> cf p k = cf q k.
Proof.
  induction j as [|j IH]; cbn [compare_from].
  - split; [discriminate|]. intros (i & H & _). lia.
  - fold (cf p j) (cf q j). destruct (Z.eqb_spec (cf p j) (cf q j)) as [E|E]; cbn [negb].
    + rewrite IH. split; intros (i & Hi & L & H).
      * exists i. split; [lia|]. split; [exact L|]. intros k Hk. destruct (Nat.eq_dec k j) as [->|]; [exact E|apply H; lia].
      * assert (i <> j) by (intros ->; lia). exists i. split; [lia|]. split; [exact L|]. intros k Hk. apply H. lia.
    + rewrite Z.ltb_lt. split.
      * intros L. exists j. split; [lia|]. split; [exact L|]. intros; lia.
      * intros (i & Hi & L & H). destruct (Nat.eq_dec i j) as [->|]; [exact L|]. rewrite H in E by lia. lia.
Qed.
Lemma compare_correct p q : compare p q = true <-> precedes p q.
Proof.
  unfold compare, precedes. destruct (Nat.eqb_spec (length p) (length q)) as [E|E]; cbn [negb].
  - rewrite compare_from_spec. split.
    + intros (i & Hi & L & H). right. split; [exact E|]. exists i. split; [exact L|]. intros j Hj.
      destruct (Nat.lt_ge_cases j (length p)); [apply H; lia|]. rewrite !cf_ge by lia. reflexivity.
    + intros [H|(_ & i & L & H)]; [lia|]. exists i. split; [|split; [exact L|intros; apply H; lia]].
      destruct (Nat.lt_ge_cases i (length p)) as [G|G]; [exact G|]. rewrite !cf_ge in L by lia. lia.
  - rewrite Nat.ltb_lt. split; [auto|]. intros [H|[H _]]; lia.
Qed.
Lemma precedes_total p q : precedes p q \/ p = q \/ precedes q p.
Proof.
  destruct (Nat.lt_trichotomy (length p) (length q)) as [L|[L|L]]; [left; left; exact L| |right; right; left; exact L].
  cut (forall n, (forall k, (n <= k)%nat -> cf p k = cf q k) -> precedes p q \/ p = q \/ precedes q p).
  { intros A. apply (A (length p)). intros k Hk. rewrite !cf_ge by lia. reflexivity. }
  induction n as [|n IH]; intros H.
  - right. left. apply cf_ext; [exact L|]. intros i. apply H. lia.
  - destruct (Z.lt_trichotomy (cf p n) (cf q n)) as [C|[C|C]].
    + left. right. split; [exact L|]. exists n. split; [exact C|]. intros. apply H. lia.
    + apply IH. intros k Hk. destruct (Nat.eq_dec k n) as [->|]; [exact C|]. apply H. lia.
    + right. right. right. split; [auto|]. exists n. split; [exact C|]. intros. symmetry. apply H. lia.
Qed.
Lemma precedes_irrefl p : ~ precedes p p.
Proof. intros [H|(_ & i & H & _)]; lia. Qed.
Lemma precedes_trans p q r : precedes p q -> precedes q r -> precedes p r.
Proof.
  intros [A|(A & i & Hi & Ci)] [B|(B & j & Hj & Cj)]; try (left; lia). right. split; [lia|].
  destruct (Nat.lt_trichotomy i j) as [L|[L|L]].
  - exists j. split; [rewrite Ci by lia; exact Hj|]. intros k Hk. rewrite Ci, Cj by lia. reflexivity.
  - subst j. exists i. split; [lia|]. intros k Hk. rewrite Ci, Cj by lia. reflexivity.
  - exists i. split; [rewrite <- Cj by lia; exact Hi|]. intros k Hk. rewrite Ci, Cj by lia. reflexivity.
Qed.
Lemma peq_correct p q : peq p q = true <-> p = q.
Proof.
  revert q. induction p as [|x p IH]; intros [|y q]; cbn [peq]; try (split; [discriminate|discriminate]); [tauto|].
  rewrite andb_true_iff, Z.eqb_eq, IH. split; [intros [-> ->]; reflexivity|]. intros H. injection H. auto.
Qed.
Lemma pless_correct p q : pless p q = true <-> lex p q.
Proof.
  unfold lex. revert q. induction p as [|x p IH]; intros [|y q]; cbn [pless].
  - split; [discriminate|]. intros (i & _ & H). destruct i; exact (False_ind _ H).
  - split; [intros _|reflexivity]. exists 0%nat. split; [lia|exact I].
  - split; [discriminate|]. intros (i & _ & H). destruct i; cbn in H; [contradiction|]. destruct (nth_error p i); contradiction.
  - destruct (Z.ltb_spec x y) as [L|L]; [|destruct (Z.ltb_spec y x) as [M|M]].
    + split; [intros _|reflexivity]. exists 0%nat. split; [lia|exact L].
    + split; [discriminate|]. intros (i & A & H). destruct i as [|i]; cbn in H; [lia|]. specialize (A 0%nat ltac:(lia)). cbn in A. injection A. lia.
    + assert (x = y) as -> by lia. rewrite IH. split; intros (i & A & H).
      * exists (S i). split; [|exact H]. intros [|j] Hj; [reflexivity|]. apply A. lia.
      * destruct i as [|i]; [cbn in H; lia|]. exists i. split; [|exact H]. intros j Hj. apply (A (S j)). lia.
Qed.
Lemma differs_from_spec p q n i :
  differs_from p q n i = false <-> forall j, (i <= j < i + n)%nat -> cf p j = cf q j.
Proof.
  revert i. induction n as [|n IH]; intros i; cbn [differs_from].
  - split; [intros; lia|reflexivity].
  - fold (cf p i) (cf q i). destruct (Z.eqb_spec (cf p i) (cf q i)) as [E|E]; cbn [negb].
    + rewrite IH. split; intros H j Hj.
      * destruct (Nat.eq_dec j i) as [->|]; [exact E|apply H; lia].
      * apply H. lia.
    + split; [discriminate|]. intros H. exfalso. apply E, H. lia.
Qed.
Lemma entry_differs_correct p e : entry_differs p e = true <-> p <> e.
Proof.
  unfold entry_differs. destruct (Nat.eqb_spec (length p) (length e)) as [L|L]; cbn [negb].
  - destruct (is_zero p) eqn:Z.
    + apply is_zero_true in Z. subst p. destruct e; [|discriminate]. split; [discriminate|tauto].
    + destruct (differs_from p e (length p) 0) eqn:D.
      * split; [|reflexivity]. intros _ ->. assert (A : differs_from e e (length e) 0 = false) by (apply differs_from_spec; reflexivity).
        congruence.
      * split; [discriminate|]. intros H. exfalso. apply H. apply cf_ext; [exact L|]. intros i.
        destruct (Nat.lt_ge_cases i (length p)); [|rewrite !cf_ge by lia; reflexivity].
        apply (proj1 (differs_from_spec p e (length p) 0) D). lia.
  - split; [|reflexivity]. intros _ ->. tauto.
Qed.
Lemma any_below_spec p n : any_below p n = true <-> exists i, (i < n)%nat /\ cf p i <> 0.
Proof.
  induction n as [|n IH]; cbn [any_below].
  - split; [discriminate|]. intros (i & H & _). lia.
  - fold (cf p n). destruct (Z.eqb_spec (cf p n) 0) as [E|E]; cbn [negb].
    + rewrite IH. split; intros (i & H & C).
      * exists i. split; [lia|exact C].
      * exists i. split; [|exact C]. assert (i <> n) by (intros ->; contradiction). lia.
    + split; [|reflexivity]. intros _. exists n. split; [lia|exact E].
Qed.
Lemma multi_term_correct p : normal p ->
  multi_term p = true <-> exists i j, i <> j /\ cf p i <> 0 /\ cf p j <> 0.
Proof.
  intros N. unfold multi_term. destruct (is_zero p) eqn:Z.
  - apply is_zero_true in Z. subst p. split; [discriminate|]. intros (i & _ & _ & H & _). rewrite cf_nil in H. contradiction.
  - apply is_zero_false in Z. rewrite any_below_spec. split.
    + intros (i & Hi & C). exists i, (length p - 1)%nat. split; [lia|]. split; [exact C|]. apply normal_lead; auto.
    + intros (i & j & D & Ci & Cj). pose proof (cf_lt _ _ Ci). pose proof (cf_lt _ _ Cj).
      destruct (Nat.eq_dec i (length p - 1)); [exists j|exists i]; split; auto; lia.
Qed.
