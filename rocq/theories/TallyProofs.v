(** Proofs about TallyModel.v *)

From Coq Require Import List NArith Arith Lia Bool Sorted.
From Verif Require Import VecModel VecProofs RunModel RunProofs TallyModel TallySpec.
Import ListNotations.
Open Scope N_scope.

Notation sure := (fun _ : err => False).

(** *** maps *)

Fixpoint sorted (m : list (N * N)) : Prop :=
  match m with [] => True | (k, _) :: r => (forall j v, In (j, v) r -> k < j) /\ sorted r end.

Lemma m_find_In k v m : m_find k m = Some v -> In (k, v) m.
Proof.
  induction m as [|[j u] r IH]; cbn; [discriminate|]. destruct (N.eqb_spec j k); [|auto].
  intros [= ->]. subst. auto.
Qed.
Lemma m_find_sorted k v m : sorted m -> In (k, v) m -> m_find k m = Some v.
Proof.
  induction m as [|[j u] r IH]; cbn; [tauto|]. intros [H S] [E|I].
  - injection E as -> ->. now rewrite N.eqb_refl.
  - destruct (N.eqb_spec j k); [|auto]. specialize (H _ _ I). lia.
Qed.
Lemma m_find_none k m : (forall v, ~ In (k, v) m) -> m_find k m = None.
Proof. intros H. destruct (m_find k m) eqn:E; [|auto]. now apply m_find_In, H in E. Qed.
Lemma In_m_put k v m j u : In (j, u) (m_put k v m) -> (j, u) = (k, v) \/ In (j, u) m.
Proof.
  induction m as [|[i w] r IH]; cbn; [intuition auto|].
  destruct (k <? i); cbn; [intuition auto|]. destruct (i =? k); cbn; intuition auto.
Qed.
Lemma sorted_put k v m : sorted m -> sorted (m_put k v m).
Proof.
  induction m as [|[i w] r IH]; cbn; [intuition auto|]. intros [H S].
  destruct (N.ltb_spec k i); cbn.
  - split; [|auto]. intros j u [E|I]; [injection E as -> ->; auto|]. specialize (H _ _ I). lia.
  - destruct (N.eqb_spec i k); cbn; [subst; auto|]. split; [|auto].
    intros j u I. apply In_m_put in I as [E|I]; [injection E as -> ->; lia|eauto].
Qed.
Lemma find_put k v m j : sorted m -> m_find j (m_put k v m) = if j =? k then Some v else m_find j m.
Proof.
  induction m as [|[i w] r IH]; cbn [m_put m_find sorted].
  - intros _. cbn. now rewrite N.eqb_sym.
  - intros [H S]. destruct (N.ltb_spec k i); cbn [m_find].
    + rewrite (N.eqb_sym k j). auto.
    + destruct (N.eqb_spec i k); cbn [m_find].
      * subst. rewrite (N.eqb_sym k j). now destruct (j =? k).
      * rewrite IH by auto. destruct (N.eqb_spec i j); [|auto]. destruct (N.eqb_spec j k); [lia|auto].
Qed.
Lemma length_put_new k v m : m_find k m = None -> length (m_put k v m) = S (length m).
Proof.
  induction m as [|[i w] r IH]; cbn; [auto|]. destruct (N.eqb_spec i k); [discriminate|].
  intros H. destruct (k <? i); cbn; auto.
Qed.
Lemma lower_bound_spec k m : sorted m ->
  match m_lower_bound k m with
  | [] => forall j v, In (j, v) m -> j < k
  | (j, v) :: _ => In (j, v) m /\ k <= j /\ forall i u, In (i, u) m -> k <= i -> j <= i
  end.
Proof.
  induction m as [|[j v] r IH]; cbn; [tauto|]. intros [H S]. destruct (N.ltb_spec j k).
  - specialize (IH S). destruct (m_lower_bound k r) as [|[a b] q].
    + intros i u [E|I]; [injection E as -> ->; auto|eauto].
    + destruct IH as (A & B & C). split; [auto|]. split; [auto|].
      intros i u [E|I] L; [injection E as -> ->; lia|eauto].
  - split; [auto|]. split; [auto|]. intros i u [E|I] L; [injection E as -> ->; lia|]. specialize (H _ _ I). lia.
Qed.
Lemma before_spec k m acc : sorted m -> (forall a, In a acc -> forall j v, In (j, v) m -> fst a < j) ->
  match acc with [] => True | a :: _ => fst a < k /\ forall b, In b acc -> fst b <= fst a end ->
  match m_before k m acc with
  | [] => acc = [] /\ forall j v, In (j, v) m -> k <= j
  | (j, v) :: _ => (In (j, v) m \/ In (j, v) acc) /\ j < k /\
       forall i u, In (i, u) m \/ In (i, u) acc -> i < k -> i <= j
  end.
Proof.
  revert acc. induction m as [|[j v] r IH]; cbn [m_before sorted]; intros acc S HA HB.
  - destruct acc as [|[a b] q]; [cbn; tauto|]. cbn [fst] in HB. destruct HB as [HB HC]. split; [cbn; auto|]. split; [auto|].
    intros i u [[]|I] _. apply (HC _ I).
  - destruct S as [H S]. destruct (N.ltb_spec j k) as [L|L].
    + specialize (IH ((j, v) :: acc) S). 
      assert (A1 : forall a, In a ((j, v) :: acc) -> forall j0 v0, In (j0, v0) r -> fst a < j0).
      { intros a [<-|I] j0 v0 I0; [eauto|]. apply (HA a I j0 v0). now right. }
      assert (A2 : fst (j, v) < k /\ forall b, In b ((j, v) :: acc) -> fst b <= fst (j, v)).
      { split; [auto|]. intros b [<-|I]; [lia|]. cbn. specialize (HA b I j v (or_introl eq_refl)). lia. }
      specialize (IH A1 A2). destruct (m_before k r ((j, v) :: acc)) as [|[a b] q].
      * destruct IH. discriminate.
      * destruct IH as (I & L2 & G). split; [cbn in I |- *; tauto|]. split; [auto|].
        intros i u I2. apply (G i u). cbn in I2 |- *. tauto.
    + destruct acc as [|[a b] q].
      * split; [auto|]. intros i u [E|I]; [injection E as -> ->; auto|]. specialize (H _ _ I). lia.
      * destruct HB as [HB HC]. cbn [fst] in HB, HC. split; [right; now left|]. split; [auto|].
        intros i u [[E|I]|I] Li; [injection E as -> ->; lia|specialize (H _ _ I); lia|exact (HC _ I)].
Qed.

(** *** the state stands for a histogram *)

Section Count.
Variable cw : nat.
Hypothesis cw1 : (1 <= cw)%nat.
Notation maxC := (maxCount cw).

Lemma maxC_big : 255 <= maxC.
Proof.
  unfold maxCount. assert (2 ^ 8 <= 2 ^ (8 * N.of_nat cw)) by (apply N.pow_le_mono_r; lia). change (2 ^ 8) with 256 in H. lia.
Qed.
Lemma to_count_small x : x <= maxC -> to_count cw x = x.
Proof. intros H. apply N.mod_small. pose proof maxC_big. unfold maxCount in *. lia. Qed.
Lemma w64_small x : x < 2 ^ 64 -> w64 x = x.
Proof. apply N.mod_small. Qed.

(** entry [i] of the counters, when it exists *)
Record repr (t : tv) (f : N -> N) : Prop := {
  r_cap : csize t <= capacity t;
  r_sorted : sorted (overflow t);
  r_count : forall i c, get (count t) i = Some c ->
     (c < maxC /\ f (N.of_nat i) = c /\ m_find (N.of_nat i) (overflow t) = None) \/
     (c = maxC /\ maxC <= f (N.of_nat i) /\ m_find (N.of_nat i) (overflow t) = Some (f (N.of_nat i)));
  r_over : forall i, csize t <= i ->
     match m_find i (overflow t) with
     | None => f i = 0
     | Some v => f i = v /\ 0 < v /\ capacity t <= i
     end;
  r_max : forall i, 0 < f i -> i <= max t;
  r_max2 : 0 < f (max t) \/ (max t = 0 /\ forall i, f i = 0);
  r_last : 0 < csize t -> 0 < f (csize t - 1);
  r_small : forall i, f i < 2 ^ 64;
  r_index : max t < 2 ^ 64 }.

Lemma get_csize t i : i < csize t -> exists c, get (count t) (N.to_nat i) = Some c.
Proof. intros H. apply get_some. unfold csize in H. lia. Qed.

Lemma multiplicity_ok t f i : repr t f -> multiplicity cw t i = Ok (f i).
Proof.
  intros R. unfold multiplicity. destruct (N.ltb_spec i (csize t)).
  - destruct (get_csize t i) as [c E]; auto. unfold vget. rewrite E. cbn [bind].
    destruct (r_count t f R _ _ E) as [(A & B & C)|(A & B & C)]; rewrite !N2Nat.id in *.
    + destruct (N.eqb_spec c maxC); [lia|]. now rewrite B.
    + destruct (N.eqb_spec c maxC); [|lia]. cbn. now rewrite C.
  - pose proof (r_over t f R i) as O. destruct (m_find i (overflow t)); f_equal; symmetry; apply O; auto.
Qed.

Lemma repr_ext t f g : (forall i, f i = g i) -> repr t f -> repr t g.
Proof.
  intros E [A B C D F G H I J]. constructor; auto.
  - intros i c Hi. rewrite <- E. auto.
  - intros i Hi. rewrite <- E. exact (D i Hi).
  - intros i. rewrite <- E. auto.
  - rewrite <- E. destruct G as [G|[G G2]]; [auto|right; split; auto]. intros i. rewrite <- E. auto.
  - rewrite <- E. auto.
  - intros i. rewrite <- E. auto.
Qed.
Lemma repr_total t f tot : repr t f -> repr (mk_tv (count t) (capacity t) (overflow t) (max t) tot) f.
Proof. intros [A B C D F G H I J]. constructor; auto. Qed.

Lemma repr_new limit : repr (tv_new limit) (fun _ => 0).
Proof.
  constructor; cbn; try lia; auto.
  intros i c H. destruct i; discriminate.
Qed.

(** changes at an index already within the counters *)
Lemma repr_inside t f i m cs c' o tot : repr t f -> i < csize t -> 0 < m -> f i + m < 2 ^ 64 ->
  length cs = length (count t) ->
  (forall j, get cs j = if (j =? N.to_nat i)%nat then Some c' else get (count t) j) ->
  sorted o ->
  (forall j, m_find j o = if j =? i then (if c' =? maxC then Some (f i + m) else None) else m_find j (overflow t)) ->
  c' = N.min (f i + m) maxC ->
  repr (mk_tv cs (capacity t) o (max t) tot) (add_to f i m).
Proof.
  intros [A B C D F G H I J] Hi Hm Hs L GC SO FO EC. unfold csize in *.
  constructor; cbn [count capacity overflow max]; unfold csize; cbn [count]; rewrite ?L; auto; unfold add_to.
  - intros j c. rewrite GC, FO. destruct (Nat.eqb_spec j (N.to_nat i)) as [->|N].
    + intros [= <-]. rewrite N2Nat.id, N.eqb_refl. destruct (N.eqb_spec c' maxC); [right|left]; repeat split; lia.
    + intros E. destruct (N.eqb_spec (N.of_nat j) i); [lia|]. auto.
  - intros j Hj. rewrite FO. destruct (N.eqb_spec j i); [lia|]. exact (D j Hj).
  - intros j. destruct (N.eqb_spec j i); [|auto]. subst. intros _.
    destruct G as [G|[G G2]]; [|].
    + destruct (N.le_gt_cases i (max t)); [auto|]. assert (0 < f (N.of_nat (length (count t)) - 1)) by (apply H; lia).
      apply F in H1. lia.
    + assert (0 < f (N.of_nat (length (count t)) - 1)) by (apply H; lia). rewrite G2 in H0. lia.
  - left. destruct G as [G|[G G2]].
    + destruct (max t =? i); lia.
    + assert (0 < f (N.of_nat (length (count t)) - 1)) by (apply H; lia). rewrite G2 in H0. lia.
  - intros Hp. specialize (H Hp). destruct (_ =? i); lia.
  - intros j. destruct (N.eqb_spec j i); [subst; lia|auto].
Qed.
(** a new counter *)
Lemma repr_extend t f i m c' o tot : repr t f -> csize t <= i -> i < capacity t -> i < 2 ^ 64 -> 0 < m < 2 ^ 64 ->
  sorted o ->
  (forall j, m_find j o = if j =? i then (if c' =? maxC then Some m else None) else m_find j (overflow t)) ->
  c' = N.min m maxC ->
  f i = 0 /\
  repr (mk_tv (count t ++ repeat 0 (N.to_nat (i - csize t)) ++ [c']) (capacity t) o (if max t <? i then i else max t) tot)
    (add_to f i m).
Proof.
  intros [A B C D F G H I J] Hi Hc H64 Hm SO FO EC. unfold csize in *.
  assert (Z : forall j, N.of_nat (length (count t)) <= j -> j < capacity t -> f j = 0).
  { intros j H1 H2. specialize (D j H1). destruct (m_find j (overflow t)); [lia|auto]. }
  assert (Zi : forall j, N.of_nat (length (count t)) <= j -> j < capacity t -> m_find j (overflow t) = None).
  { intros j H1 H2. specialize (D j H1). destruct (m_find j (overflow t)); [lia|auto]. }
  assert (L : N.of_nat (length (count t ++ repeat 0 (N.to_nat (i - N.of_nat (length (count t)))) ++ [c'])) = i + 1).
  { rewrite !app_length, repeat_length. cbn [length]. lia. }
  split; [auto|].
  constructor; cbn [count capacity overflow max]; unfold csize; cbn [count]; rewrite ?L; auto; unfold add_to; try lia.
  - intros j c E. pose proof (get_lt _ _ _ E) as Lj. unfold get in E.
    destruct (Nat.lt_ge_cases j (length (count t))) as [L1|L1].
    + rewrite nth_error_app1 in E by auto. rewrite FO. destruct (N.eqb_spec (N.of_nat j) i); [lia|]. auto.
    + rewrite nth_error_app2 in E by auto.
      destruct (Nat.lt_ge_cases j (N.to_nat i)) as [L2|L2].
      * rewrite nth_error_app1 in E by (rewrite repeat_length; lia).
        rewrite nth_error_repeat in E by lia. injection E as <-. rewrite FO.
        destruct (N.eqb_spec (N.of_nat j) i); [lia|]. left. pose proof maxC_big. repeat split; [lia|apply Z; lia|apply Zi; lia].
      * assert (j = N.to_nat i) as -> by lia.
        rewrite nth_error_app2 in E by (rewrite repeat_length; lia). rewrite repeat_length in E.
        replace (_ - _ - _)%nat with O in E by lia. injection E as <-.
        rewrite FO, N2Nat.id, N.eqb_refl. rewrite (Z i) by auto.
        destruct (N.eqb_spec c' maxC); [right|left]; repeat split; lia.
  - intros j Hj. rewrite FO. destruct (N.eqb_spec j i); [lia|]. apply D. lia.
  - intros j. destruct (N.eqb_spec j i); [subst|]; [|intros H1; apply F in H1]; destruct (N.ltb_spec (max t) i); lia.
  - left. destruct (N.ltb_spec (max t) i); [rewrite N.eqb_refl; lia|]. destruct (N.eqb_spec (max t) i); [lia|].
    destruct G as [G|[G G2]]; lia.
  - intros _. replace (i + 1 - 1) with i by lia. rewrite N.eqb_refl. lia.
  - intros j. destruct (N.eqb_spec j i); [subst; rewrite (Z i); lia|auto].
  - destruct (max t <? i); auto.
Qed.
(** an index beyond the capacity *)
Lemma repr_outside t f i m o tot : repr t f -> csize t <= i -> capacity t <= i -> i < 2 ^ 64 -> 0 < m -> f i + m < 2 ^ 64 ->
  sorted o ->
  (forall j, m_find j o = if j =? i then Some (f i + m) else m_find j (overflow t)) ->
  repr (mk_tv (count t) (capacity t) o (if max t <? i then i else max t) tot) (add_to f i m).
Proof.
  intros [A B C D F G H I J] Hi Hc H64 Hm Hs SO FO. unfold csize in *.
  constructor; cbn [count capacity overflow max]; unfold csize; cbn [count]; auto; unfold add_to; try lia.
  - intros j c E. pose proof (get_lt _ _ _ E) as Lj. rewrite FO. destruct (N.eqb_spec (N.of_nat j) i); [lia|]. auto.
  - intros j Hj. rewrite FO. destruct (N.eqb_spec j i); [subst; lia|exact (D j Hj)].
  - intros j. destruct (N.eqb_spec j i); [subst|]; [|intros H1; apply F in H1]; destruct (N.ltb_spec (max t) i); lia.
  - left. destruct (N.ltb_spec (max t) i); [rewrite N.eqb_refl; lia|]. destruct (N.eqb_spec (max t) i); [lia|].
    destruct G as [G|[G G2]]; lia.
  - intros Hp. specialize (H Hp). destruct (_ =? i); lia.
  - intros j. destruct (N.eqb_spec j i); [subst; lia|auto].
  - destruct (max t <? i); auto.
Qed.

Lemma f_small_count t f i c : repr t f -> get (count t) (N.to_nat i) = Some c -> c = N.min (f i) maxC /\
  m_find i (overflow t) = (if c =? maxC then Some (f i) else None).
Proof.
  intros R E. destruct (r_count t f R _ _ E) as [(A & B & C)|(A & B & C)]; rewrite !N2Nat.id in *;
   (destruct (N.eqb_spec c maxC); split; [lia|auto; lia|lia|auto; lia]).
Qed.
Lemma m_get_find i m v : m_find i m = Some v -> m_get i m = v.
Proof. unfold m_get. now intros ->. Qed.

Lemma tally_many_ok t f i m : repr t f -> i < 2 ^ 64 -> 0 < m -> f i + m < 2 ^ 64 ->
  exists b t', tally_many cw t i m = Ok (b, t') /\ repr t' (add_to f i m) /\ total t' = w64 (total t + m) /\
    capacity t' = capacity t /\
    b = (if (i <? csize t) && (maxC <=? m) then false else f i =? 0).
Proof.
  intros R H64 Hm Hs. unfold tally_many. pose proof maxC_big as MB.
  destruct (N.ltb_spec i (csize t)) as [Hi|Hi]; cbn [andb].
  - destruct (get_csize t i Hi) as [c E]. destruct (f_small_count t f i c R E) as [EC EF].
    unfold vget. rewrite E. cbn [bind].
    assert (Lp : (N.to_nat i < length (count t))%nat) by (unfold csize in Hi; lia).
    destruct (N.eqb_spec c maxC) as [S|S]; cbn [negb].
    + rewrite (m_get_find i (overflow t) (f i)) by auto. rewrite w64_small by lia.
      eexists _, _. split; [reflexivity|]. split; [|split; [reflexivity|split; [reflexivity|]]].
      * apply (repr_inside t f i m (count t) c); auto.
        -- intros j. destruct (Nat.eqb_spec j (N.to_nat i)); [subst j; auto|auto].
        -- apply sorted_put, R.
        -- intros j. rewrite find_put by apply R. destruct (N.eqb_spec c maxC); [|lia]. auto.
        -- lia.
      * destruct (N.eqb_spec (f i) 0); [lia|]. now destruct (_ <=? _).
    + rewrite (w64_small (c + m)) by lia. assert (c = f i) by lia. clear EC. subst c.
      destruct (N.ltb_spec (f i + m) maxC) as [S2|S2].
      * destruct (put_spec (count t) (N.to_nat i) (to_count cw (f i + m)) Lp) as (w & EW & L & GW).
        unfold vput. rewrite EW. cbn [bind]. rewrite to_count_small in GW by lia.
        eexists _, _. split; [reflexivity|]. split; [|split; [reflexivity|split; [reflexivity|]]].
        -- eapply repr_inside with (c' := f i + m); eauto.
           ++ apply R.
           ++ intros j. destruct (N.eqb_spec (f i + m) maxC); [lia|]. destruct (N.eqb_spec j i); [subst j|]; auto.
           ++ lia.
        -- destruct (N.leb_spec maxC m); [lia|auto].
      * destruct (put_spec (count t) (N.to_nat i) maxC Lp) as (w & EW & L & GW).
        unfold vput. rewrite EW. cbn [bind].
        eexists _, _. split; [reflexivity|]. split; [|split; [reflexivity|split; [reflexivity|]]].
        -- eapply repr_inside with (c' := maxC); eauto.
           ++ apply sorted_put, R.
           ++ intros j. rewrite find_put by apply R. now rewrite N.eqb_refl.
           ++ lia.
        -- destruct (N.leb_spec maxC m); [auto|]. destruct (N.eqb_spec (f i) 0); [lia|auto].
  - destruct (N.ltb_spec i (capacity t)) as [Hc|Hc].
    + pose proof (r_over t f R i Hi) as O.
      assert (Fi : m_find i (overflow t) = None) by (destruct (m_find i (overflow t)); [lia|auto]).
      destruct (N.leb_spec maxC m) as [S|S].
      * edestruct (repr_extend t f i m maxC (m_put i m (overflow t))) as [Z RR]; eauto; try lia.
        -- apply sorted_put, R.
        -- intros j. rewrite find_put by apply R. now rewrite N.eqb_refl.
        -- eexists _, _. split; [reflexivity|]. split; [exact RR|]. split; [reflexivity|]. split; [reflexivity|]. now rewrite Z.
      * rewrite to_count_small by lia.
        edestruct (repr_extend t f i m m (overflow t)) as [Z RR]; eauto; try lia.
        -- apply R.
        -- intros j. destruct (N.eqb_spec m maxC); [lia|]. destruct (N.eqb_spec j i); [subst|]; auto.
        -- eexists _, _. split; [reflexivity|]. split; [exact RR|]. split; [reflexivity|]. split; [reflexivity|]. now rewrite Z.
    + pose proof (r_over t f R i Hi) as O. destruct (m_find i (overflow t)) as [v|] eqn:E.
      * destruct O as (O1 & O2 & O3). rewrite w64_small by lia.
        eexists _, _. split; [reflexivity|]. split; [|split; [reflexivity|split; [reflexivity|]]].
        -- apply repr_outside; auto; [apply sorted_put, R|]. intros j. rewrite find_put by apply R. now rewrite O1.
        -- destruct (N.eqb_spec (f i) 0); [lia|auto].
      * eexists _, _. split; [reflexivity|]. split; [|split; [reflexivity|split; [reflexivity|]]].
        -- apply repr_outside; auto; [apply sorted_put, R|]. intros j. rewrite find_put by apply R. now rewrite O.
        -- now rewrite O.
Qed.

(** tally(i) does what tally(i,1) does *)
Lemma tally_one t f i : repr t f -> i < 2 ^ 64 -> f i + 1 < 2 ^ 64 -> tally cw t i = tally_many cw t i 1.
Proof.
  intros R H64 Hs. pose proof maxC_big as MB. unfold tally, tally_many.
  destruct (N.ltb_spec i (csize t)) as [Hi|Hi].
  - destruct (get_csize t i Hi) as [c E]. destruct (f_small_count t f i c R E) as [EC EF].
    unfold vget. rewrite E. cbn [bind]. destruct (N.eqb_spec c maxC); cbn [negb]; [auto|].
    rewrite (w64_small (c + 1)) by lia. rewrite to_count_small by lia.
    destruct (N.ltb_spec (c + 1) maxC).
    + destruct (vput _ _ _); cbn [bind]; [|auto]. destruct (N.eqb_spec (c + 1) maxC); [lia|].
      replace (c + 1 =? 1) with (c =? 0); [auto|]. destruct (N.eqb_spec c 0), (N.eqb_spec (c + 1) 1); auto; lia.
    + assert (c + 1 = maxC) as Q by lia. rewrite Q. destruct (vput _ _ _); cbn [bind]; [|auto]. now rewrite N.eqb_refl.
  - rewrite to_count_small by lia. destruct (N.leb_spec maxC 1); [lia|]. auto.
Qed.
Lemma tally_ok t f i : repr t f -> i < 2 ^ 64 -> f i + 1 < 2 ^ 64 ->
  exists b t', tally cw t i = Ok (b, t') /\ repr t' (add_to f i 1) /\ total t' = w64 (total t + 1) /\
    capacity t' = capacity t /\ b = (f i =? 0).
Proof.
  intros R H64 Hs. rewrite (tally_one t f i) by auto. destruct (tally_many_ok t f i 1) as (b & t' & A & B & C & D & F); auto; [lia|].
  exists b, t'. split; [auto|]. split; [auto|]. split; [auto|]. split; [auto|]. rewrite F. pose proof maxC_big. destruct (N.leb_spec maxC 1); [lia|]. now rewrite andb_false_r.
Qed.

Lemma size_ok t f : repr t f -> max t < 2 ^ 64 - 1 -> size t = max t + 1.
Proof. intros R H. apply w64_small. lia. Qed.

Lemma count_zero t f i c : repr t f -> get (count t) (N.to_nat i) = Some c -> (c =? 0) = (f i =? 0).
Proof.
  intros R E. destruct (f_small_count t f i c R E) as [EC _]. pose proof maxC_big.
  destruct (N.eqb_spec c 0), (N.eqb_spec (f i) 0); auto; lia.
Qed.

Lemma advance_ok t f i : repr t f -> i < max t -> exists j, advance t i = Ok j /\ is_next f i j.
Proof.
  intros R Hi. unfold advance. destruct (N.leb_spec (max t) i); [lia|].
  enough (GOAL : gives (run i0 <- loop (length (count t))
               (fun i => if i <? csize t then run c <- vget (count t) (N.to_nat i); Ok (c =? 0) else Ok false)
               (fun i => Ok (i + 1)) (i + 1);
    if i0 <? csize t then Ok i0
    else match m_lower_bound i0 (overflow t) with (j, _) :: _ => Ok j | [] => Fail Range end) (is_next f i) sure).
  { destruct (bind _ _) as [j|e]; [exists j; auto|destruct GOAL]. }
  assert (Fm : 0 < f (max t)).
  { destruct (r_max2 t f R) as [G|[G _]]; [auto|lia]. }
  eapply gives_bind.
  - apply (gives_loop (fun j => i < j /\ forall k, i < k < j -> f k = 0) (fun j => N.to_nat (csize t - j))
      (fun j => (j <? csize t) && (f j =? 0))).
    + split; [lia|]. intros k Hk. lia.
    + unfold csize. lia.
    + intros j Hj. destruct (N.ltb_spec j (csize t)) as [L|L]; [|reflexivity].
      destruct (get_csize t j L) as [c E]. unfold vget. rewrite E. cbn [bind]. apply gives_ok. now rewrite (count_zero t f j c R E).
    + intros j [H1 H2] C. apply andb_prop in C as [C1 C2]. apply N.ltb_lt in C1. apply N.eqb_eq in C2.
      split; [lia|]. apply gives_ok. split; [split; [lia|]|lia]. intros k Hk. destruct (N.eq_dec k j); [subst; auto|]. apply H2. lia.
    + intros j Hj Cj. exact (conj Hj Cj).
  - cbn beta. intros j [[H1 H2] C]. destruct (N.ltb_spec j (csize t)) as [L|L].
    + apply gives_ok. destruct (N.ltb_spec j (csize t)); [|lia]. apply N.eqb_neq in C. repeat split; auto. lia.
    + pose proof (lower_bound_spec j (overflow t) (r_sorted t f R)) as LB.
      assert (Mj : j <= max t).
      { destruct (N.le_gt_cases j (max t)); [auto|]. rewrite (H2 (max t)) in Fm; lia. }
      assert (Im : In (max t, f (max t)) (overflow t)).
      { apply m_find_In. pose proof (r_over t f R (max t)) as O. destruct (m_find (max t) (overflow t)) eqn:E.
        - f_equal. symmetry. apply O. lia. - rewrite O in Fm; lia. }
      destruct (m_lower_bound j (overflow t)) as [|[k v] q].
      * specialize (LB _ _ Im). lia.
      * destruct LB as (A & B & D). apply gives_ok. split; [lia|].
        pose proof (m_find_sorted _ _ _ (r_sorted t f R) A) as Fk.
        split.
        -- pose proof (r_over t f R k) as O. rewrite Fk in O. lia.
        -- intros a Ha. destruct (N.lt_ge_cases a j); [apply H2; lia|].
           pose proof (r_over t f R a) as O. destruct (m_find a (overflow t)) as [u|] eqn:E; [|apply O; lia].
           apply m_find_In in E. specialize (D _ _ E). lia.
Qed.
Lemma advance_end t i : max t <= i -> advance t i = Ok (size t).
Proof. intros H. unfold advance. apply N.leb_le in H. now rewrite H. Qed.

Lemma lower_count_ok t f i n : repr t f -> (i <= length (count t))%nat -> N.of_nat i <= n ->
  (forall k, N.of_nat i <= k < n -> f k = 0) ->
  exists b j, lower_count (count t) i = Ok (b, j) /\
    if b : bool then is_previous f n j else j = 2 ^ 64 - 1 /\ forall k, k < n -> f k = 0.
Proof.
  intros R. revert n. induction i as [|k IH]; intros n L Hn Z; cbn [lower_count].
  - eexists _, _. split; [reflexivity|]. cbn. split; auto. intros k Hk. apply Z. lia.
  - destruct (get_some (count t) k) as [c E]; [lia|]. unfold vget. rewrite E. cbn [bind].
    rewrite <- (Nat2N.id k) in E at 1. rewrite (count_zero t f _ c R E). destruct (N.eqb_spec (f (N.of_nat k)) 0); cbn [negb].
    + apply IH; [lia|lia|]. intros a Ha. destruct (N.eq_dec a (N.of_nat k)); [subst; auto|]. apply Z. lia.
    + eexists true, _. split; [reflexivity|]. repeat split; [lia|lia|]. intros a Ha. apply Z. lia.
Qed.
Lemma lower_ok t f i : repr t f ->
  exists b j, lower t i = Ok (b, j) /\
    if b : bool then is_previous f i j else j = 2 ^ 64 - 1 /\ forall k, k < i -> f k = 0.
Proof.
  intros R. unfold lower. destruct (N.ltb_spec (csize t) i) as [L|L].
  - pose proof (before_spec i (overflow t) [] (r_sorted t f R)) as B.
    assert (B1 : forall a : N * N, In a [] -> forall j v, In (j, v) (overflow t) -> fst a < j) by (cbn; tauto).
    specialize (B B1 I).
    assert (Zr : (forall a u, In (a, u) (overflow t) -> a < i -> a < csize t) ->
      forall k, csize t <= k < i -> f k = 0).
    { intros Q k Hk. pose proof (r_over t f R k) as O. destruct (m_find k (overflow t)) eqn:E; [|apply O; lia].
      apply m_find_In in E. apply Q in E; lia. }
    destruct (m_before i (overflow t) []) as [|[j v] q].
    + destruct B as [_ B]. apply lower_count_ok; auto; [unfold csize in L; lia|]. apply Zr.
      intros a u Ia Ha. apply B in Ia. lia.
    + destruct B as ([B|[]] & B2 & B3). destruct (N.leb_spec (csize t) j).
      * eexists true, _. split; [reflexivity|]. pose proof (m_find_sorted _ _ _ (r_sorted t f R) B) as Fj.
        pose proof (r_over t f R j) as O. rewrite Fj in O. repeat split; [lia|lia|].
        intros a Ha. pose proof (r_over t f R a) as Oa. destruct (m_find a (overflow t)) eqn:E; [|apply Oa; lia].
        apply m_find_In in E. specialize (B3 _ _ (or_introl E)). lia.
      * apply lower_count_ok; auto; [unfold csize in L; lia|]. apply Zr.
        intros a u Ia Ha. specialize (B3 _ _ (or_introl Ia) Ha). lia.
  - apply lower_count_ok; auto; [unfold csize in L; lia|lia|]. intros k Hk. lia.
Qed.

(** *** bytes *)

Lemma write_bytes_le n x : write_bytes n x = little_endian n x.
Proof.
  revert x. induction n as [|n IH]; intros x; [auto|]. destruct n as [|n]; [auto|].
  change (N.land x 255 :: write_bytes (S n) (N.shiftr x 8) = x mod 256 :: little_endian (S n) (x / 256)).
  rewrite IH. f_equal; [|now rewrite N.shiftr_div_pow2]. change 255 with (N.ones 8). now rewrite N.land_ones.
Qed.
Lemma le_length n x : length (little_endian n x) = n.
Proof. revert x. induction n; intros; cbn; auto. Qed.
Lemma read_le n x s : (n <= 8)%nat -> x < 256 ^ N.of_nat n -> read_bytes true n (little_endian n x ++ s) = (x, s).
Proof.
  clear cw1 cw. revert x. induction n as [|n IH]; intros x H Hx.
  - cbn in *. f_equal. lia.
  - destruct n as [|n].
    + cbn [little_endian app read_bytes in_get]. rewrite N.mod_small; [auto|]. cbn in Hx. lia.
    + change (read_bytes true (S (S n)) (little_endian (S (S n)) x ++ s)) with
       (let (r, s) := read_bytes true (S n) (little_endian (S n) (x / 256) ++ s) in (w64 (x mod 256 + w64 (N.shiftl r 8)), s)).
      assert (P : 256 ^ N.of_nat (S (S n)) = 256 * 256 ^ N.of_nat (S n)).
      { rewrite (Nat2N.inj_succ (S n)), N.pow_succ_r'. auto. }
      rewrite P in Hx.
      assert (x / 256 < 256 ^ N.of_nat (S n)) by (apply N.div_lt_upper_bound; lia).
      rewrite IH by (auto; lia). rewrite N.shiftl_mul_pow2. change (2 ^ 8) with 256.
      pose proof (N.div_mod x 256 ltac:(lia)) as DM. pose proof (N.mod_lt x 256 ltac:(lia)).
      assert (256 ^ N.of_nat (S (S n)) <= 256 ^ 8) by (apply N.pow_le_mono_r; lia).
      change (256 ^ 8) with (2 ^ 64) in H2. rewrite P in H2.
      assert (x < 2 ^ 64) by lia.
      rewrite (w64_small (x / 256 * 256)) by lia. rewrite w64_small by lia. f_equal. lia.
Qed.
Lemma read_counts_ok cs s : (cw <= 8)%nat -> (forall c, In c cs -> c <= maxC) ->
  read_counts cw true (length cs) (flat_map (write_bytes cw) cs ++ s) = (cs, s).
Proof.
  intros W. induction cs as [|c cs IH]; intros H; cbn [flat_map length read_counts]; [auto|].
  rewrite <- app_assoc, write_bytes_le, read_le; auto.
  - rewrite IH by (intros; apply H; now right). now rewrite to_count_small by (apply H; now left).
  - specialize (H c (or_introl eq_refl)). pose proof maxC_big. unfold maxCount in *.
    change 256 with (2 ^ 8). rewrite <- N.pow_mul_r. lia.
Qed.

(** appending an entry with a larger key *)
Lemma put_last k v m : (forall j u, In (j, u) m -> j < k) -> m_put k v m = m ++ [(k, v)] /\ m_find k m = None.
Proof.
  induction m as [|[j u] r IH]; cbn; intros H; [auto|].
  assert (j < k) by (apply (H j u); auto). destruct (N.ltb_spec k j); [lia|]. destruct (N.eqb_spec j k); [lia|].
  destruct IH as [-> ->]; [intros; eapply H; right; eauto|]. auto.
Qed.
Lemma sorted_app m1 m2 : sorted (m1 ++ m2) -> forall j u k v, In (j, u) m1 -> In (k, v) m2 -> j < k.
Proof.
  induction m1 as [|[a b] r IH]; cbn; [tauto|]. intros [H S] j u k v [E|I] J.
  - injection E as -> ->. apply (H k v). apply in_or_app. auto.
  - eapply IH; eauto.
Qed.
Lemma read_overflow_ok rk rv enck encv m2 m1 mx s : sorted (m1 ++ m2) ->
  (forall k v s, In (k, v) m2 -> rk (enck k ++ s) = Ok (k, s)) ->
  (forall k v s, In (k, v) m2 -> rv (encv v ++ s) = Ok (v, s)) ->
  exists mx', read_overflow rk rv (length m2) m1 mx (flat_map (fun e => enck (fst e) ++ encv (snd e)) m2 ++ s)
   = Ok (m1 ++ m2, mx', s) /\ mx <= mx' /\ (forall k v, In (k, v) m2 -> k <= mx') /\
    (mx' = mx \/ exists v, In (mx', v) m2).
Proof.
  revert m1 mx. induction m2 as [|[k v] r IH]; intros m1 mx S RK RV; cbn [flat_map length read_overflow].
  - exists mx. rewrite app_nil_r. repeat split; auto; [lia|intros ? ? []].
  - cbn [fst snd]. rewrite <- !app_assoc. rewrite (RK k v) by (now left). cbn [bind]. rewrite (RV k v) by (now left). cbn [bind].
    assert (P := put_last k v m1). destruct P as [P1 P2].
    { intros j u I. apply (sorted_app _ _ S j u k v I). now left. }
    unfold m_insert. rewrite P2, P1.
    destruct (IH (m1 ++ [(k, v)]) (if mx <? k then k else mx)) as (mx' & E & A & B & C).
    + now rewrite <- app_assoc.
    + intros k0 v0 s0 I. apply (RK k0 v0 s0). now right.
    + intros k0 v0 s0 I. apply (RV k0 v0 s0). now right.
    + exists mx'. rewrite E. rewrite <- app_assoc. split; [reflexivity|].
      destruct (N.ltb_spec mx k).
      * split; [lia|]. split; [intros k0 v0 [I|I]; [injection I as -> ->; lia|eauto]|].
        destruct C as [->|[w C]]; right; [exists v; now left|exists w; now right].
      * split; [lia|]. split; [intros k0 v0 [I|I]; [injection I as -> ->; lia|eauto]|].
        destruct C as [->|[w C]]; [auto|right; exists w; now right].
Qed.

Lemma repr_read t f mx tot : repr t f -> mx = max t ->
  repr (mk_tv (count t) (csize t) (overflow t) mx tot) f.
Proof.
  intros [A B C D F G H I J] ->. constructor; cbn [count capacity overflow max]; auto.
  - unfold csize; cbn; lia.
  - intros i Hi. change (csize (mk_tv (count t) (csize t) (overflow t) (max t) tot)) with (csize t) in Hi.
    specialize (D i Hi). destruct (m_find i (overflow t)); [|auto]. intuition lia.
Qed.

Definition file (wk wv : nat) (t : tv) : list N :=
  little_endian 4 (csize t) ++ little_endian 4 (N.of_nat (length (overflow t))) ++
  flat_map (little_endian cw) (count t) ++
  flat_map (fun e => little_endian wk (fst e) ++ little_endian wv (snd e)) (overflow t).

Lemma read_with_ok rk rv enck encv t f : (cw <= 8)%nat -> repr t f ->
  csize t < 2 ^ 32 -> N.of_nat (length (overflow t)) < 2 ^ 32 ->
  (forall k v s, In (k, v) (overflow t) -> rk (enck k ++ s) = Ok (k, s)) ->
  (forall k v s, In (k, v) (overflow t) -> rv (encv v ++ s) = Ok (v, s)) ->
  read_with cw true rk rv (little_endian 4 (csize t) ++ little_endian 4 (N.of_nat (length (overflow t))) ++
    flat_map (write_bytes cw) (count t) ++ flat_map (fun e => enck (fst e) ++ encv (snd e)) (overflow t)) =
  Ok (mk_tv (count t) (csize t) (overflow t) (max t) 0).
Proof.
  intros W R S1 S2 RK RV. unfold read_with.
  rewrite read_le by (auto with arith; cbn; lia). rewrite read_le by (auto with arith; cbn; lia).
  assert (E : read_counts cw true (N.to_nat (csize t)) (flat_map (write_bytes cw) (count t) ++
     flat_map (fun e => enck (fst e) ++ encv (snd e)) (overflow t)) =
     (count t, flat_map (fun e => enck (fst e) ++ encv (snd e)) (overflow t))).
  { unfold csize. rewrite Nat2N.id. apply read_counts_ok; auto. intros c I. apply In_nth_error in I as [k E].
    destruct (r_count t f R k c E); lia. }
  rewrite E. rewrite Nat2N.id.
  destruct (read_overflow_ok rk rv enck encv (overflow t) [] (if csize t =? 0 then 0 else csize t - 1) [])
    as (mx' & E2 & A & B & C); auto; [apply R|]. rewrite app_nil_r in E2. rewrite E2. cbn [bind app].
  do 2 f_equal.
  (* the maximum *)
  assert (ov : forall k v, In (k, v) (overflow t) -> k <= max t).
  { intros k v I. apply (m_find_sorted _ _ _ (r_sorted t f R)) in I. apply (r_max t f R).
    destruct (N.lt_ge_cases k (csize t)) as [L|L].
    - destruct (get_csize t k L) as [c Ec]. destruct (f_small_count t f k c R Ec) as [Ha Hb]. pose proof maxC_big.
      destruct (N.eqb_spec c maxC); [lia|]. rewrite Hb in I. discriminate.
    - pose proof (r_over t f R k L) as O. rewrite I in O. lia. }
  assert (M0 : (if csize t =? 0 then 0 else csize t - 1) <= max t).
  { destruct (N.eqb_spec (csize t) 0); [lia|]. apply (r_max t f R), (r_last t f R). lia. }
  apply N.le_antisymm.
  - destruct C as [->|[v C]]; [auto|eauto].
  - destruct (r_max2 t f R) as [G|[G _]]; [|lia].
    destruct (N.lt_ge_cases (max t) (csize t)) as [L|L].
    + destruct (N.eqb_spec (csize t) 0); lia.
    + pose proof (r_over t f R (max t) L) as O. destruct (m_find (max t) (overflow t)) eqn:E3; [|lia].
      apply m_find_In in E3. eauto.
Qed.

Lemma write_to_le t : csize t < 2 ^ 32 -> N.of_nat (length (overflow t)) < 2 ^ 32 -> write_to cw t = file 8 8 t.
Proof.
  intros A B. unfold write_to, file, put_int. rewrite !write_bytes_le, !N.mod_small by auto.
  do 3 f_equal; [|apply flat_map_ext; intros; now rewrite !write_bytes_le].
  apply flat_map_ext. intros. apply write_bytes_le.
Qed.
Lemma over_bound t f k v : repr t f -> In (k, v) (overflow t) -> k < 2 ^ 64 /\ v < 2 ^ 64.
Proof.
  intros R I. apply (m_find_sorted _ _ _ (r_sorted t f R)) in I.
  pose proof (r_small t f R k). pose proof (r_index t f R) as X. pose proof maxC_big.
  destruct (N.lt_ge_cases k (csize t)) as [L|L].
  - destruct (get_csize t k L) as [c Ec]. destruct (f_small_count t f k c R Ec) as [Ha Hb].
    destruct (N.eqb_spec c maxC); [|rewrite Hb in I; discriminate]. rewrite Hb in I. injection I as <-.
    split; auto. assert (k <= max t) by (apply (r_max t f R); lia). lia.
  - pose proof (r_over t f R k L) as O. rewrite I in O. destruct O as (<- & ? & ?). split; auto.
    assert (k <= max t) by (apply (r_max t f R); lia). lia.
Qed.
Lemma tv_read_ok t f : (cw <= 8)%nat -> repr t f -> csize t < 2 ^ 32 -> N.of_nat (length (overflow t)) < 2 ^ 32 ->
  tv_read cw true (write_to cw t) = Ok (mk_tv (count t) (csize t) (overflow t) (max t) 0).
Proof.
  intros W R S1 S2. unfold tv_read, write_to, put_int. rewrite !(write_bytes_le 4), !N.mod_small by auto.
  apply (read_with_ok _ _ (write_bytes 8) (write_bytes 8) t f); auto; intros k v s I;
    rewrite write_bytes_le, read_le; auto; apply (over_bound t f k v R I).
Qed.
Lemma tv_read_widths_ok wk wv t f : (cw <= 8)%nat -> repr t f -> csize t < 2 ^ 32 -> N.of_nat (length (overflow t)) < 2 ^ 32 ->
  (1 <= wk <= 8)%nat -> (1 <= wv <= 8)%nat ->
  (forall k v, In (k, v) (overflow t) -> k < 256 ^ N.of_nat wk /\ v < 256 ^ N.of_nat wv) ->
  tv_read_widths cw true wk wv (file wk wv t) = Ok (mk_tv (count t) (csize t) (overflow t) (max t) 0).
Proof.
  intros W R S1 S2 Hk Hv HB. unfold tv_read_widths, file.
  rewrite (flat_map_ext (little_endian cw) (write_bytes cw)) by (intros; now rewrite write_bytes_le).
  apply (read_with_ok _ _ (little_endian wk) (little_endian wv) t f); auto; intros k v s I; unfold read_var_bytes.
  - destruct wk; [lia|]. replace (_ && _) with true by (symmetry; apply andb_true_intro; split; apply Nat.leb_le; lia).
    f_equal. apply read_le; [lia|]. apply (HB k v I).
  - destruct wv; [lia|]. replace (_ && _) with true by (symmetry; apply andb_true_intro; split; apply Nat.leb_le; lia).
    f_equal. apply read_le; [lia|]. apply (HB k v I).
Qed.
End Count.
