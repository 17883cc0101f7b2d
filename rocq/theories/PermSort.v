(** Permuting data, standardization, and permutations acting on bit sets. *)

From Coq Require Import List Arith Bool ZArith Lia Permutation Sorted FinFun.
From Verif Require Import VecModel VecProofs PermModel PermSpec PermProofs PermCycles.
Import ListNotations.
Open Scope nat_scope.

(** ** permute and pull_back *)
Lemma permute_pull_back {A} n p (v : list A) : is_perm n p -> length v = n ->
  exists q w, inverse p = Some q /\ permute p v = Some w /\ pull_back q v = Some w /\ pull_back p w = Some v.
Proof.
  intros H L. destruct (inverse_ok n p H) as (q & Eq & Pq & Iq). destruct (permute_correct n p v H) as (w & Ew & Lw & Gw & _); [lia|].
  exists q, w. split; [exact Eq|]. split; [exact Ew|].
  assert (Lp := perm_len _ _ H). assert (Lq := perm_len _ _ Pq). split.
  - destruct (pull_back_ok q v) as (r & Er & Lr & Gr); [apply Forall_forall; rewrite L; apply Pq|].
    rewrite Er. f_equal. apply vec_ext; [lia|]. intros i Hi. destruct (perm_get _ _ Pq i) as (x & Ex & Hx); [lia|].
    rewrite (Gr i x Ex). apply Iq in Ex. symmetry. apply Gw. exact Ex.
  - destruct (pull_back_ok p w) as (r & Er & Lr & Gr); [apply Forall_forall; rewrite Lw, L; apply H|].
    rewrite Er. f_equal. apply vec_ext; [lia|]. intros i Hi. destruct (perm_get _ _ H i) as (x & Ex & Hx); [lia|].
    rewrite (Gr i x Ex). apply Gw. exact Ex.
Qed.
Lemma pull_back_permute {A} n p (v : list A) : is_perm n p -> length v = n ->
  exists w, pull_back p v = Some w /\ permute p w = Some v.
Proof.
  intros H L. assert (Lp := perm_len _ _ H).
  destruct (pull_back_ok p v) as (w & Ew & Lw & Gw); [apply Forall_forall; rewrite L; apply H|].
  exists w. split; [exact Ew|]. destruct (permute_correct n p w H) as (r & Er & Lr & Gr & _); [lia|].
  rewrite Er. f_equal. apply vec_ext; [lia|]. intros j Hj. destruct (perm_surj _ _ H j) as (i & Ei & Hi); [lia|].
  rewrite (Gr i j Ei). apply Gw. exact Ei.
Qed.
(** left action *)
Lemma permute_action {A} n a b (v : list A) : is_perm n a -> is_perm n b -> length v = n ->
  exists ab w r, compose a b 0 = Some ab /\ permute b v = Some w /\ permute a w = Some r /\ permute ab v = Some r.
Proof.
  intros Ha Hb L. destruct (compose_full n a b Ha Hb) as (ab & Eab & Pab & Gab).
  destruct (permute_correct n b v Hb) as (w & Ew & Lw & Gw & _); [lia|].
  destruct (permute_correct n a w Ha) as (r & Er & Lr & Gr & _); [lia|].
  destruct (permute_correct n ab v Pab) as (s & Es & Ls & Gs & _); [lia|].
  exists ab, w, r. repeat split; auto. rewrite Es. f_equal. apply vec_ext; [lia|]. intros k Hk.
  destruct (perm_surj _ _ Pab k) as (i & Ei & Hi); [lia|]. rewrite (Gs i k Ei).
  destruct (Gab i Hi) as (j & Ej & Ek). rewrite Ei in Ek. rewrite (Gr j k (eq_sym Ek)). symmetry. apply Gw. exact Ej.
Qed.
Lemma permute_permutation {A} n p (v : list A) w : is_perm n p -> n <= length v -> permute p v = Some w -> Permutation v w.
Proof.
  intros H L E. destruct (permute_correct n p v H L) as (w' & E' & Lw & Gw & Uw). assert (w' = w) by congruence. subst w'. clear E E'.
  symmetry. apply Permutation_nth_error. split; [exact Lw|].
  exists (fun k => match get p k with Some x => x | None => k end). split.
  - intros x y. destruct (get p x) as [a|] eqn:Ex, (get p y) as [b|] eqn:Ey; intros EE; subst.
    + eapply perm_inj; eauto.
    + exfalso. apply (perm_lt _ _ H) in Ex. destruct (perm_get _ _ H y) as (z & Ez & _); [lia|congruence].
    + exfalso. apply (perm_lt _ _ H) in Ey. destruct (perm_get _ _ H b) as (z & Ez & _); [lia|congruence].
    + reflexivity.
  - intros k. destruct (get p k) as [x|] eqn:Ek.
    + symmetry. apply Gw. exact Ek.
    + symmetry. apply Uw. destruct (Nat.lt_ge_cases k n) as [C|C]; [|exact C].
      destruct (perm_get _ _ H k C) as (x & Ex & _). congruence.
Qed.

(** ** standardization *)
Lemma card_le_length {A} (P : A -> bool) l : card P l <= length l.
Proof. induction l as [|x l IH]; [reflexivity|]. rewrite card_cons. cbn [length]. destruct (P x); lia. Qed.
Lemma card_le {A} (P Q : A -> bool) l : (forall x, P x = true -> Q x = true) -> card P l <= card Q l.
Proof.
  intros H. induction l as [|x l IH]; [reflexivity|]. rewrite !card_cons. specialize (H x). destruct (P x); [rewrite H by reflexivity; lia|destruct (Q x); lia].
Qed.
Lemma card_or {A} (P Q R : A -> bool) l : (forall x, R x = P x || Q x) -> (forall x, P x && Q x = false) -> card R l = card P l + card Q l.
Proof.
  intros H D. induction l as [|x l IH]; [reflexivity|]. rewrite !card_cons, H. specialize (D x). destruct (P x), (Q x); try discriminate; cbn [orb]; lia.
Qed.
Lemma card_ext {A} (P Q : A -> bool) l : (forall x, P x = Q x) -> card P l = card Q l.
Proof. intros H. unfold card. rewrite (filter_ext P Q H). reflexivity. Qed.
Lemma skipn_get {A} (l : list A) i x : get l i = Some x -> skipn i l = x :: skipn (S i) l.
Proof.
  revert i. induction l as [|y l IH]; intros [|i] E; try discriminate.
  - cbn in E. injection E as ->. reflexivity.
  - cbn [skipn]. rewrite (IH i E). reflexivity.
Qed.
Lemma firstn_get {A} (l : list A) i x : get l i = Some x -> firstn (S i) l = firstn i l ++ [x].
Proof.
  revert i. induction l as [|y l IH]; intros [|i] E; try discriminate.
  - cbn in E. injection E as ->. reflexivity.
  - cbn [firstn app]. f_equal. apply (IH i E).
Qed.
(** position of entry i (with value x) in the stable sort *)
Definition rank (a : list nat) (x i : nat) : nat := card (fun y => y <? x) a + card (Nat.eqb x) (firstn i a).

Lemma standardization_ranks a bound : Forall (fun x => x < bound) a ->
  exists r stops, standardization a bound = Some (r, stops) /\ length r = length a /\
    (forall i x, get a i = Some x -> get r i = Some (rank a x i)) /\
    length stops = S bound /\ (forall x, x <= bound -> get stops x = Some (card (fun y => y <? x) a)).
Proof.
  intros H. rewrite Forall_forall in H. unfold standardization.
  match goal with |- exists r stops, (match for_down ?n ?b ?s0 with _ => _ end) = _ /\ _ =>
    destruct (for_down_rule (fun i c => length c = bound /\ forall x, x < bound -> get c x = Some (card (Nat.eqb x) (skipn i a))) n b s0) as (c & E & Lc & Gc) end.
  - split; [apply repeat_length|]. intros x Hx. rewrite get_repeat, skipn_all. destruct (Nat.ltb_spec x bound); [reflexivity|lia].
  - intros i c Hi (Lc & Gc). destruct (get_some a i Hi) as [x Ex]. rewrite Ex. assert (Hx : x < bound) by (apply H; eapply get_In; eauto).
    rewrite (Gc x Hx). destruct (put_spec c x (S (card (Nat.eqb x) (skipn (S i) a)))) as (c' & E & Lc' & Gc'); [lia|].
    rewrite E. exists c'. split; [reflexivity|]. split; [lia|]. intros y Hy. rewrite Gc', (skipn_get _ _ _ Ex), card_cons.
    destruct (Nat.eqb_spec y x) as [->|N]; [reflexivity|]. rewrite (Gc y Hy). reflexivity.
  - rewrite E. cbn [skipn] in Gc. clear E.
    match goal with |- exists r stops, (match for_up ?n 0 ?b ?s0 with _ => _ end) = _ /\ _ =>
      destruct (for_up_rule (fun i '(c, sum) => length c = bound /\ sum = card (fun y => y <? i) a /\
         forall x, x < bound -> get c x = Some (if x <? i then card (fun y => y <? x) a else card (Nat.eqb x) a)) n 0 b s0) as ([c2 sum] & E2 & Lc2 & Sm & Gc2) end.
    + split; [exact Lc|]. split; [|intros x Hx; rewrite (Gc x Hx); reflexivity].
      unfold card. clear. induction a; [reflexivity|]. cbn. exact IHa.
    + intros i [d sum] Hi (Ld & Sm & Gd). rewrite (Gd i ltac:(lia)), Nat.ltb_irrefl.
      destruct (put_spec d i sum) as (d' & E & Ld' & Gd'); [lia|]. rewrite E. eexists. split; [reflexivity|].
      split; [lia|]. split.
      * rewrite Sm. symmetry. apply card_or.
        -- intros y. destruct (Nat.ltb_spec y (S i)), (Nat.ltb_spec y i), (Nat.eqb_spec i y); try lia; reflexivity.
        -- intros y. destruct (Nat.ltb_spec y i), (Nat.eqb_spec i y); try lia; reflexivity.
      * intros x Hx. rewrite Gd'. destruct (Nat.eqb_spec x i) as [->|].
        -- destruct (Nat.ltb_spec i (S i)); [congruence|lia].
        -- rewrite (Gd x Hx). destruct (Nat.ltb_spec x i), (Nat.ltb_spec x (S i)); try lia; reflexivity.
    + rewrite E2. clear E2 Gc c Lc. cbn [Nat.add] in *.
      assert (G3 : forall x, x < bound -> get c2 x = Some (card (fun y => y <? x) a)).
      { intros x Hx. rewrite (Gc2 x Hx). destruct (Nat.ltb_spec x bound); [reflexivity|lia]. }
      match goal with |- exists r stops, (match for_up ?n 0 ?b ?s0 with _ => _ end) = _ /\ _ =>
      destruct (for_up_rule (fun i '(r, c) => length c = bound /\ length r = length a /\
         (forall x, x < bound -> get c x = Some (rank a x i)) /\
         (forall j x, j < i -> get a j = Some x -> get r j = Some (rank a x j))) n 0 b s0) as ([r c3] & E3 & Lc3 & Lr & Gc3 & Gr) end.
      * split; [exact Lc2|]. split; [apply repeat_length|]. split; [|intros; lia].
        intros x Hx. rewrite (G3 x Hx). unfold rank. f_equal. cbn. lia.
      * intros i [r d] Hi (Ld & Lr & Gd & Gr). destruct (get_some a i) as [x Ex]; [lia|]. rewrite Ex.
        assert (Hx : x < bound) by (apply H; eapply get_In; eauto). rewrite (Gd x Hx).
        destruct (put_spec d x (S (rank a x i))) as (d' & E & Ld' & Gd'); [lia|]. rewrite E.
        destruct (put_spec r i (rank a x i)) as (r' & Er & Lr' & Gr'); [lia|]. rewrite Er.
        eexists. split; [reflexivity|]. split; [lia|]. split; [lia|]. split.
        -- intros y Hy. rewrite Gd'. unfold rank. rewrite (firstn_get _ _ _ Ex), card_app, card_cons.
           destruct (Nat.eqb_spec y x) as [->|N].
           ++ f_equal. unfold rank. cbn. lia.
           ++ rewrite (Gd y Hy). unfold rank. f_equal. cbn. lia.
        -- intros j y Hj Ey. rewrite Gr'. destruct (Nat.eqb_spec j i) as [->|]; [congruence|]. apply Gr; [lia|exact Ey].
      * rewrite E3. exists r, (c2 ++ [sum]). split; [reflexivity|]. split; [exact Lr|]. split; [|split].
        -- intros i x Ex. apply Gr; [|exact Ex]. apply get_lt in Ex. lia.
        -- rewrite app_length. cbn. lia.
        -- intros x Hx. rewrite get_app. destruct (Nat.ltb_spec x (length c2)); [apply G3; lia|].
           assert (x = bound) by lia. subst x. replace (bound - length c2) with 0 by lia. rewrite <- Sm. reflexivity.
Qed.
Lemma card_firstn_lt (a : list nat) i x m : get a i = Some x -> i < m -> card (Nat.eqb x) (firstn i a) < card (Nat.eqb x) (firstn m a).
Proof.
  intros Ex H. assert (L := get_lt _ _ _ Ex).
  replace (firstn m a) with (firstn (S i) a ++ firstn (m - S i) (skipn (S i) a)).
  - rewrite card_app, (firstn_get _ _ _ Ex), card_app, card_cons, Nat.eqb_refl. lia.
  - rewrite <- (firstn_skipn (S i) a) at 3. rewrite firstn_app. rewrite firstn_firstn. rewrite firstn_length_le by lia.
    replace (Nat.min m (S i)) with (S i) by lia. reflexivity.
Qed.
Lemma rank_lt a i j x y : get a i = Some x -> get a j = Some y -> x < y \/ x = y /\ i < j -> rank a x i < rank a y j.
Proof.
  intros Ex Ey [H|[-> H]]; unfold rank.
  - assert (A := card_firstn_lt a i x (length a) Ex (get_lt _ _ _ Ex)). rewrite firstn_all in A.
    assert (B : card (fun z => z <? x) a + card (Nat.eqb x) a <= card (fun z => z <? y) a).
    { rewrite <- (card_or _ _ (fun z => (z <? x) || (x =? z))) by (intros z; destruct (Nat.ltb_spec z x), (Nat.eqb_spec x z); try lia; reflexivity).
      apply card_le. intros z Hz. apply Nat.ltb_lt. destruct (Nat.ltb_spec z x), (Nat.eqb_spec x z); try lia; discriminate. }
    lia.
  - assert (A := card_firstn_lt a i y j Ex H). lia.
Qed.
Lemma rank_bound a i x : get a i = Some x -> rank a x i < length a.
Proof.
  intros Ex. unfold rank. assert (A := card_firstn_lt a i x (length a) Ex (get_lt _ _ _ Ex)). rewrite firstn_all in A.
  assert (B : card (fun z => z <? x) a + card (Nat.eqb x) a <= length a).
  { rewrite <- (card_or _ _ (fun z => (z <? x) || (x =? z))) by (intros z; destruct (Nat.ltb_spec z x), (Nat.eqb_spec x z); try lia; reflexivity).
    apply card_le_length. }
  lia.
Qed.
Lemma ranks_perm a r : length r = length a -> (forall i x, get a i = Some x -> get r i = Some (rank a x i)) ->
  is_perm (length a) r /\
  (forall i j x y k l, get a i = Some x -> get a j = Some y -> get r i = Some k -> get r j = Some l ->
     (k < l <-> x < y \/ x = y /\ i < j)).
Proof.
  intros L G.
  assert (O : forall i j x y k l, get a i = Some x -> get a j = Some y -> get r i = Some k -> get r j = Some l ->
     (k < l <-> x < y \/ x = y /\ i < j)).
  { intros i j x y k l Ex Ey Ek El. rewrite (G i x Ex) in Ek. rewrite (G j y Ey) in El. injection Ek as <-. injection El as <-.
    split; [|apply rank_lt; auto]. intros R. destruct (Nat.lt_trichotomy x y) as [C|[C|C]]; [auto| |].
    - subst y. destruct (Nat.lt_trichotomy i j) as [C|[C|C]]; [auto|subst j; lia|].
      assert (A := rank_lt a j i x x Ey Ex ltac:(auto)). lia.
    - assert (A := rank_lt a j i y x Ey Ex ltac:(auto)). lia. }
  split; [|exact O]. apply is_perm_intro; [exact L| |].
  - intros i k Ek. destruct (get_some a i) as [x Ex]; [rewrite <- L; eapply get_lt; eauto|]. rewrite (G i x Ex) in Ek. injection Ek as <-.
    apply rank_bound. exact Ex.
  - intros i j k Ei Ej. destruct (get_some a i) as [x Ex]; [rewrite <- L; eapply get_lt; eauto|].
    destruct (get_some a j) as [y Ey]; [rewrite <- L; eapply get_lt; eauto|].
    assert (A := O i j x y k k Ex Ey Ei Ej). assert (B := O j i y x k k Ey Ex Ej Ei). lia.
Qed.
Lemma standardization_ok a bound : Forall (fun x => x < bound) a ->
  exists r stops, standardization a bound = Some (r, stops) /\ is_perm (length a) r /\
    (forall i j x y k l, get a i = Some x -> get a j = Some y -> get r i = Some k -> get r j = Some l ->
     (k < l <-> x < y \/ x = y /\ i < j)) /\
    length stops = S bound /\ (forall x, x <= bound -> get stops x = Some (card (fun y => y <? x) a)).
Proof.
  intros H. destruct (standardization_ranks a bound H) as (r & st & E & L & G & Ls & Gs).
  destruct (ranks_perm a r L G) as (P & O). exists r, st. auto.
Qed.
Lemma standardization_sorts a bound : Forall (fun x => x < bound) a ->
  exists r stops w, standardization a bound = Some (r, stops) /\ permute r a = Some w /\ Permutation a w /\ StronglySorted le w.
Proof.
  intros H. destruct (standardization_ok a bound H) as (r & st & E & P & O & _). exists r, st.
  destruct (permute_correct _ r a P) as (w & Ew & Lw & Gw & _); [lia|]. exists w. split; [exact E|]. split; [exact Ew|].
  split; [eapply permute_permutation; eauto|].
  assert (S1 : forall k l x y, k < l -> get w k = Some x -> get w l = Some y -> x <= y).
  { intros k l x y Hkl Ex Ey. destruct (perm_surj _ _ P k) as (i & Ei & Hi); [rewrite <- Lw; eapply get_lt; eauto|].
    destruct (perm_surj _ _ P l) as (j & Ej & Hj); [rewrite <- Lw; eapply get_lt; eauto|].
    rewrite (Gw i k Ei) in Ex. rewrite (Gw j l Ej) in Ey.
    apply (O i j x y k l) in Hkl; auto. lia. }
  revert S1. clear. induction w as [|x w IH]; intros S1; constructor.
  - apply IH. intros k l u z Hkl Eu Ez. exact (S1 (S k) (S l) u z ltac:(lia) Eu Ez).
  - apply Forall_forall. intros y Hy. destruct (In_get _ _ Hy) as [l El]. exact (S1 0 (S l) x y ltac:(lia) eq_refl El).
Qed.

(** ** standardization with a comparison *)
Section By.
Context {A : Type} (less : A -> A -> bool).
Hypothesis W : strict_weak less.
Definition before (p q : A * nat) : Prop :=
  less (fst p) (fst q) = true \/ less (fst q) (fst p) = false /\ snd p < snd q.
Let pless (p q : A * nat) := less (fst p) (fst q).

Lemma less_asym x y : less x y = true -> less y x = false.
Proof.
  destruct W as (I & T & N). intros H. destruct (less y x) eqn:E; [|reflexivity]. rewrite <- (I x). symmetry. eapply T; eauto.
Qed.
Lemma insert_perm p l : Permutation (p :: l) (insert_sorted pless p l).
Proof.
  induction l as [|q l IH]; cbn [insert_sorted]; [reflexivity|]. destruct (pless p q); [reflexivity|].
  transitivity (q :: p :: l); [apply perm_swap|]. apply perm_skip. exact IH.
Qed.
Lemma insert_sort p l : StronglySorted before l -> Forall (fun q => snd q < snd p) l -> StronglySorted before (insert_sorted pless p l).
Proof.
  destruct W as (I & T & N). induction l as [|q l IH]; intros S B; cbn [insert_sorted]; [repeat constructor|].
  inversion_clear S as [|? ? S' F]. inversion_clear B as [|? ? B1 B2]. unfold pless. destruct (less (fst p) (fst q)) eqn:E.
  - constructor; [constructor; auto|]. constructor; [left; exact E|]. rewrite Forall_forall in *. intros z Hz.
    specialize (F z Hz). left. destruct (less (fst p) (fst z)) eqn:E2; [reflexivity|].
    assert (Zq : less (fst z) (fst q) = false). { destruct F as [F|[F _]]; [apply less_asym; exact F|exact F]. }
    rewrite (N _ _ _ E2 Zq) in E. discriminate.
  - constructor; [apply IH; auto|]. apply Forall_forall. intros z Hz.
    apply (Permutation_in z (Permutation_sym (insert_perm p l))) in Hz. destruct Hz as [<-|Hz].
    + right. auto.
    + rewrite Forall_forall in F. auto.
Qed.
Lemma stable_sort_spec l acc : StronglySorted before acc -> StronglySorted (fun p q => snd p < snd q) l ->
  (forall p q, In p acc -> In q l -> snd p < snd q) ->
  StronglySorted before (fold_left (fun r x => insert_sorted pless x r) l acc) /\
  Permutation (l ++ acc) (fold_left (fun r x => insert_sorted pless x r) l acc).
Proof.
  revert acc. induction l as [|p l IH]; intros acc S L B; cbn [fold_left app]; [auto|].
  inversion_clear L as [|? ? L' F]. rewrite Forall_forall in F. destruct (IH (insert_sorted pless p acc)) as [R1 R2].
  - apply insert_sort; [exact S|]. apply Forall_forall. intros q Hq. apply B; [exact Hq|left; reflexivity].
  - exact L'.
  - intros u z Hu Hz. apply (Permutation_in u (Permutation_sym (insert_perm p acc))) in Hu. destruct Hu as [<-|Hu]; [auto|].
    apply B; [exact Hu|right; exact Hz].
  - split; [exact R1|]. transitivity (l ++ insert_sorted pless p acc); [|exact R2].
    transitivity (l ++ p :: acc); [apply Permutation_middle|]. apply Permutation_app_head. apply insert_perm.
Qed.
Lemma sorted_get (R : A * nat -> A * nat -> Prop) l i j p q : StronglySorted R l -> get l i = Some p -> get l j = Some q -> i < j -> R p q.
Proof.
  intros S. revert i j. induction S as [|u l S IH F]; intros i j Ei Ej H; [destruct i; discriminate|].
  destruct j as [|j]; [lia|]. destruct i as [|i].
  - cbn in Ei. injection Ei as <-. rewrite Forall_forall in F. apply F. eapply get_In. exact Ej.
  - eapply (IH i j); [exact Ei|exact Ej|lia].
Qed.
Lemma get_combine (a : list A) s i : get (combine a (seq s (length a))) i = match get a i with Some x => Some (x, s + i) | None => None end.
Proof.
  revert s i. induction a as [|x a IH]; intros s [|i]; try reflexivity.
  - cbn. rewrite Nat.add_0_r. reflexivity.
  - cbn [combine length seq]. change (get (combine a (seq (S s) (length a))) i = match get a i with Some y => Some (y, s + S i) | None => None end).
    rewrite IH. replace (S s + i) with (s + S i) by lia. reflexivity.
Qed.
Lemma standardization_by_ok a : exists r, standardization_by less a = Some r /\ is_perm (length a) r /\
  forall i j x y k l, get a i = Some x -> get a j = Some y -> get r i = Some k -> get r j = Some l ->
    (k < l <-> less x y = true \/ less y x = false /\ i < j).
Proof.
  unfold standardization_by, stable_sort. set (aux := combine a (seq 0 (length a))).
  assert (La : length aux = length a) by (unfold aux; rewrite combine_length, seq_length; lia).
  assert (SL : StronglySorted (fun p q : A * nat => snd p < snd q) aux).
  { unfold aux. clear. generalize 0. induction a as [|x a IH]; intros s; cbn [combine length seq]; constructor; [apply IH|].
    apply Forall_forall. intros [y k] Hy. apply in_combine_r in Hy. apply in_seq in Hy. cbn. lia. }
  destruct (stable_sort_spec aux []) as [S P]; [constructor|exact SL|intros ? ? []|]. rewrite app_nil_r in P. unfold pless in S, P.
  set (s := fold_left (fun r x => insert_sorted (fun p q => less (fst p) (fst q)) x r) aux []) in *.
  assert (Ls : length s = length a) by (rewrite <- La; symmetry; apply Permutation_length; exact P). rewrite Ls.
  assert (Ps : is_perm (length a) (map snd s)).
  { split; [rewrite map_length; exact Ls|].
    assert (Q : Permutation (seq 0 (length a)) (map snd s)).
    { transitivity (map snd aux); [|apply Permutation_map; exact P]. unfold aux. clear. generalize 0.
      induction a as [|x a IH]; intros k; cbn [length seq combine map]; [constructor|]. apply perm_skip. apply IH. }
    split; [eapply Permutation_NoDup; [exact Q|apply seq_NoDup]|]. intros x Hx.
    apply (Permutation_in x (Permutation_sym Q)) in Hx. apply in_seq in Hx. lia. }
  destruct (for_up_rule (fun m r => length r = length a /\ forall k, k < m -> forall p, get s k = Some p -> get r (snd p) = Some k) (length a) 0
    (fun k r => match get s k with Some p => put r (snd p) k | None => None end) (repeat 0 (length a))) as (r & E & L & G).
  - split; [apply repeat_length|]. intros; lia.
  - intros k r Hk (L & G). destruct (get_some s k) as [p Ep]; [lia|]. rewrite Ep.
    assert (Mp : get (map snd s) k = Some (snd p)) by (unfold get in *; rewrite nth_error_map, Ep; reflexivity).
    destruct (perm_lt _ _ Ps _ _ Mp) as [_ Hp]. destruct (put_spec r (snd p) k) as (r' & E & L' & G'); [lia|].
    exists r'. split; [exact E|]. split; [lia|]. intros l Hl q Eq. rewrite G'.
    assert (Mq : get (map snd s) l = Some (snd q)) by (unfold get in *; rewrite nth_error_map, Eq; reflexivity).
    destruct (Nat.eqb_spec (snd q) (snd p)) as [C|C].
    + f_equal. eapply perm_inj; [exact Ps|exact Mp|]. congruence.
    + apply G; [|exact Eq]. assert (l <> k) by (intros ->; congruence). lia.
  - exists r. split; [exact E|].
    assert (K : forall i x, get a i = Some x -> exists k, get r i = Some k /\ get s k = Some (x, i)).
    { intros i x Ex. assert (I : In (x, i) s).
      { eapply Permutation_in; [exact P|]. eapply get_In with (i := i). unfold aux. rewrite get_combine, Ex. reflexivity. }
      destruct (In_get _ _ I) as [k Ek]. exists k. split; [|exact Ek].
      apply (G k) with (p := (x, i)); [|exact Ek]. apply get_lt in Ek. lia. }
    assert (D : forall i j x y k l, get a i = Some x -> get a j = Some y -> get r i = Some k -> get r j = Some l ->
       k < l -> less x y = true \/ less y x = false /\ i < j).
    { intros i j x y k l Ex Ey Ek El Hkl. destruct (K i x Ex) as (k' & Ek' & Sk), (K j y Ey) as (l' & El' & Sl).
      assert (k' = k) by congruence. assert (l' = l) by congruence. subst.
      exact (sorted_get before s k l _ _ S Sk Sl Hkl). }
    split.
    + apply is_perm_intro; [exact L| |].
      * intros i k Ek. destruct (get_some a i) as [x Ex]; [rewrite <- L; eapply get_lt; eauto|].
        destruct (K i x Ex) as (k' & Ek' & Sk). assert (k' = k) by congruence. subst. apply get_lt in Sk. lia.
      * intros i j k Ei Ej. destruct (get_some a i) as [x Ex]; [rewrite <- L; eapply get_lt; eauto|].
        destruct (get_some a j) as [y Ey]; [rewrite <- L; eapply get_lt; eauto|].
        destruct (K i x Ex) as (k' & Ek' & Sk), (K j y Ey) as (l' & El' & Sl).
        assert (k' = l') by congruence. subst. congruence.
    + intros i j x y k l Ex Ey Ek El. split; [eauto|]. intros H.
      destruct (Nat.lt_trichotomy k l) as [C|[C|C]]; [exact C| |].
      * exfalso. subst l. destruct (K i x Ex) as (k' & Ek' & Sk), (K j y Ey) as (l' & El' & Sl).
        assert (k' = k) by congruence. assert (l' = k) by congruence. subst. assert (x = y /\ i = j) as [-> ->] by (split; congruence).
        destruct W as (I & _). rewrite I in H. destruct H as [H|[_ H]]; [discriminate|lia].
      * exfalso. destruct (D j i y x l k Ey Ex El Ek C) as [D1|[D1 D2]], H as [H|[H1 H2]]; try congruence.
        -- apply less_asym in D1. congruence.
        -- lia.
Qed.
End By.
