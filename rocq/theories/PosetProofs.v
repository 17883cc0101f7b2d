From Coq Require Import List Arith Bool Lia Relations Sorted ZArith.
From Verif Require Import VecModel VecProofs PermProofs SetModel SetProofs PosetModel PosetSpec.
Import ListNotations.
Open Scope nat_scope.
Open Scope vec_scope.

Definition sized (p : poset) : Prop := forall j b, get p j = Some b -> length b = j.
Lemma strictly_mem (p : poset) i j (b : bset) : get p j = Some b -> (strictly p i j <-> bs_mem b i = true).
Proof.
  intros E. split.
  - intros (r & Er & H). unfold get in E. rewrite E in Er. injection Er as <-. exact H.
  - intros H. exists b. split; [exact E|exact H].
Qed.
Lemma strictly_lt (p : poset) i j : sized p -> strictly p i j -> i < j /\ j < length p.
Proof.
  intros S (r & E & H). split; [|eapply get_lt; eauto]. rewrite <- (S _ _ E). apply mem_lt. exact H.
Qed.
Lemma strictly_none (p : poset) i j : length p <= j -> ~ strictly p i j.
Proof. intros H (r & E & _). apply get_lt in E. lia. Qed.

(** *** generating an order *)
Definition gen (p : poset) (B : nat -> nat -> Prop) : Prop :=
  (forall i j k, strictly p i j -> strictly p j k -> strictly p i k) /\
  (forall i j, B i j -> strictly p i j) /\ (forall i j, strictly p i j -> clos_trans nat B i j).
Lemma gen_iff (p : poset) B : gen p B -> forall i j, strictly p i j <-> clos_trans nat B i j.
Proof.
  intros (T & A & C) i j. split; [apply C|]. induction 1; eauto.
Qed.
Lemma clos_trans_mono (A B : nat -> nat -> Prop) : (forall i j, A i j -> B i j) -> forall i j, clos_trans nat A i j -> clos_trans nat B i j.
Proof. intros H i j. induction 1; [apply t_step; auto|eapply t_trans; eauto]. Qed.
Lemma gen_ext (p : poset) A B : (forall i j, A i j <-> B i j) -> gen p A -> gen p B.
Proof.
  intros H (T & P & Q). split; [exact T|]. split; [intros; apply P, H; auto|]. intros i j S. apply Q in S.
  eapply clos_trans_mono; [|exact S]. intros; apply H; auto.
Qed.
Lemma clos_first (B : nat -> nat -> Prop) i j : clos_trans nat B i j -> exists k, B i k.
Proof. induction 1; eauto. Qed.

Lemma cover_ok (p : poset) x y (bx by_ : bset) : get p x = Some bx -> get p y = Some by_ -> length bx = x -> length by_ = y -> x < y ->
  exists p' b, new_cover p x y = Some p' /\ length p' = length p /\ length b = y /\
    (forall j, get p' j = if j =? y then Some b else get p j) /\
    forall i, bs_mem b i = (i =? x) || (bs_mem by_ i || bs_mem bx i).
Proof.
  intros Ex Ey Lx Ly H. unfold new_cover. rewrite Ey, Ex.
  destruct (or_ok by_ bx) as (b & -> & L & M); [lia|]. destruct (insert_ok b x) as (c & -> & L' & M'); [lia|].
  destruct (put_spec p y c) as (p' & -> & L2 & G); [eapply get_lt; eauto|].
  exists p', c. split; [reflexivity|]. split; [exact L2|]. split; [lia|]. split; [exact G|]. intros i. rewrite M', M. reflexivity.
Qed.

Lemma cover_step (p : poset) B x y (bx by_ : bset) : gen p B -> get p x = Some bx -> get p y = Some by_ -> length bx = x -> length by_ = y -> x < y ->
  (forall z, ~ B y z) ->
  exists p' b, new_cover p x y = Some p' /\ length p' = length p /\ length b = y /\
    (forall j, get p' j = if j =? y then Some b else get p j) /\
    gen p' (fun i j => B i j \/ (i = x /\ j = y)).
Proof.
  intros G Ex Ey Lx Ly H N. destruct (cover_ok p x y bx by_ Ex Ey Lx Ly H) as (p' & b & E & L & Lb & Gp & M).
  exists p', b. split; [exact E|]. split; [exact L|]. split; [exact Lb|]. split; [exact Gp|].
  assert (My : forall z, ~ strictly p y z).
  { intros z S. apply (gen_iff _ _ G) in S. destruct (clos_first _ _ _ S) as (k & K). exact (N _ K). }
  assert (S' : forall i j, strictly p' i j <-> strictly p i j \/ (j = y /\ (i = x \/ strictly p i x))).
  { intros i j. destruct (Nat.eq_dec j y) as [->|D].
    - rewrite (strictly_mem p' i y b), (strictly_mem p i y by_), (strictly_mem p i x bx) by (try rewrite Gp, Nat.eqb_refl; auto).
      rewrite M, !orb_true_iff, Nat.eqb_eq. tauto.
    - assert (Q : get p' j = get p j) by (rewrite Gp; destruct (Nat.eqb_spec j y); [lia|auto]).
      unfold strictly. unfold get in Q. rewrite Q. intuition. }
  destruct G as (T & A & C). split; [|split].
  - intros i j k P Q. apply S' in P, Q. apply S'.
    destruct P as [P|(-> & P)], Q as [Q|(-> & Q)].
    + left. eauto.
    + right. split; [reflexivity|]. destruct Q as [->|Q]; [right; exact P|right; eauto].
    + exfalso. eapply My; eauto.
    + exfalso. destruct Q as [->|Q]; [lia|eapply My; eauto].
  - intros i j [P|(-> & ->)]; apply S'; [left; auto|right; auto].
  - assert (C' : forall i j, strictly p i j -> clos_trans nat (fun i j => B i j \/ (i = x /\ j = y)) i j).
    { intros i j S. apply C in S. eapply clos_trans_mono; [|exact S]. auto. }
    intros i j S. apply S' in S. destruct S as [S|(-> & [->|S])]; [auto| |].
    + apply t_step. auto.
    + eapply t_trans; [apply C'; exact S|]. apply t_step. auto.
Qed.

(** rows x and y of length x and y, for links upwards *)
Lemma extend_ok (p : poset) lks : poset_ok p -> upward (length p) lks -> links_ordered lks -> compatible p lks ->
  exists q, extend p lks = Some q /\ length q = length p /\ sized q /\ gen q (fun i j => strictly p i j \/ In (i, j) lks).
Proof.
  intros (Z & T) U O C. unfold extend.
  destruct (for_each_rule (fun pre q => length q = length p /\ sized q /\ gen q (fun i j => strictly p i j \/ In (i, j) pre)) lks
    (fun '(x, y) p => new_cover p x y) p) as (q & E & R); [| |exists q; split; [exact E|exact R]].
  - split; [reflexivity|]. split; [exact Z|]. split; [exact T|]. split; [intros i j [H|[]]; exact H|]. intros i j H. apply t_step. auto.
  - intros pre [x y] suf q El (L & Sz & G). assert (I : In (x, y) lks) by (rewrite El; apply in_or_app; right; left; auto).
    destruct (U x y I) as [Uxy Uy].
    destruct (get_some q x) as [bx Ex]; [lia|]. destruct (get_some q y) as [by_ Ey]; [lia|].
    destruct (cover_step q _ x y bx by_ G Ex Ey) as (q' & b & E & L' & Lb & Gq & G').
    + apply Sz, Ex.
    + apply Sz, Ey.
    + exact Uxy.
    + intros z [H|H]; [exact (C x y z I H)|]. destruct (In_get _ _ H) as [l El2].
      assert (length pre < l).
      { eapply (O _ _ x y z); [rewrite El, nth_error_app2, Nat.sub_diag by lia; reflexivity|].
        rewrite El, nth_error_app1; [exact El2|]. eapply get_lt; eauto. }
      apply get_lt in El2. lia.
    + exists q'. split; [exact E|]. split; [lia|]. split.
      * intros j c. rewrite Gq. destruct (Nat.eqb_spec j y) as [->|]; [intros Q; injection Q as <-; exact Lb|apply Sz].
      * eapply gen_ext; [|exact G']. intros i j. cbn beta. rewrite in_app_iff. cbn [In]. intuition congruence.
Qed.

Lemma discrete_get n j : get (discrete n) j = if j <? n then Some (bs_new j) else None.
Proof.
  unfold discrete, get. rewrite nth_error_map. change (nth_error (seq 0 n) j) with (get (seq 0 n) j). rewrite get_seq.
  destruct (Nat.ltb_spec j n); reflexivity.
Qed.
Lemma discrete_none n i j : ~ strictly (discrete n) i j.
Proof.
  intros (r & E & H). change (get (discrete n) j = Some r) in E. rewrite discrete_get in E. destruct (j <? n); [|discriminate].
  injection E as <-. change (bs_mem (bs_new j) i = true) in H. rewrite mem_new in H. discriminate.
Qed.
Lemma discrete_ok n : poset_ok (discrete n) /\ length (discrete n) = n.
Proof.
  split; [split|].
  - intros j r E. change (get (discrete n) j = Some r) in E. rewrite discrete_get in E. destruct (j <? n); [|discriminate].
    injection E as <-. apply new_len.
  - intros i j k H. destruct (discrete_none _ _ _ H).
  - unfold discrete. rewrite map_length, seq_length. reflexivity.
Qed.

Lemma gen_poset (p : poset) B : sized p -> gen p B -> poset_ok p.
Proof. intros S (T & _). split; [exact S|exact T]. Qed.

Lemma new_max_ok (p : poset) c : poset_ok p -> (forall x, In x c -> x < length p) ->
  exists q, new_max p c = Some q /\ length q = S (length p) /\ sized q /\
    gen q (fun i j => strictly p i j \/ (j = length p /\ In i c)).
Proof.
  intros (Z & T) U. unfold new_max. set (y := length p).
  assert (Q0 : forall i j, strictly (p ++ [bs_new y]) i j <-> strictly p i j).
  { intros i j. split; intros (r & E & H).
    - change (get (p ++ [bs_new y]) j = Some r) in E. rewrite get_app in E. destruct (Nat.ltb_spec j (length p)); [exists r; auto|].
      destruct (j - length p) as [|k]; [|destruct k; discriminate]. injection E as <-. change (bs_mem (bs_new y) i = true) in H.
      rewrite mem_new in H. discriminate.
    - exists r. split; [|exact H]. rewrite nth_error_app1; [exact E|]. eapply get_lt; eauto. }
  destruct (for_each_rule (fun pre q => length q = S (length p) /\ sized q /\ gen q (fun i j => strictly p i j \/ (j = y /\ In i pre))) c
    (fun x p => new_cover p x y) (p ++ [bs_new y])) as (q & E & R); [| |exists q; split; [exact E|exact R]].
  - split; [rewrite app_length; cbn; lia|]. split; [|split; [|split]].
    + intros j b. rewrite get_app. destruct (Nat.ltb_spec j (length p)); [apply Z|].
      destruct (j - length p) as [|k] eqn:D; [|destruct k; discriminate]. intros E. injection E as <-. rewrite new_len. subst y. lia.
    + intros i j k. rewrite !Q0. apply T.
    + intros i j [H|[_ []]]. apply Q0. exact H.
    + intros i j H. apply t_step. left. apply Q0. exact H.
  - intros pre x suf q El (L & Sz & G). assert (I : In x c) by (rewrite El; apply in_or_app; right; left; auto).
    destruct (get_some q x) as [bx Ex]; [specialize (U x I); lia|]. destruct (get_some q y) as [by_ Ey]; [subst y; lia|].
    destruct (cover_step q _ x y bx by_ G Ex Ey) as (q' & b & E & L' & Lb & Gq & G').
    + apply Sz, Ex.
    + apply Sz, Ey.
    + apply U, I.
    + intros z [H|[H1 H2]].
      * apply (strictly_lt p _ _ Z) in H. subst y. lia.
      * subst z. specialize (U y). rewrite El in U. specialize (U ltac:(apply in_or_app; auto)). subst y. lia.
    + exists q'. split; [exact E|]. split; [lia|]. split.
      * intros j d. rewrite Gq. destruct (Nat.eqb_spec j y) as [->|]; [intros Q; injection Q as <-; exact Lb|apply Sz].
      * eapply gen_ext; [|exact G']. intros i j. cbn beta. rewrite in_app_iff. cbn [In]. intuition congruence.
Qed.

Lemma from_hasse_ok h : downward h -> exists p, from_hasse h = Some p /\ length p = length h /\ sized p /\ gen p (link h).
Proof.
  intros D. unfold from_hasse. set (n := length h).
  set (I := fun i p => length p = n /\ (forall j b, j < i -> get p j = Some b -> length b = j) /\
    (forall j b, i <= j -> get p j = Some b -> b = []) /\ gen p (fun x y => y < i /\ link h x y)).
  match goal with |- exists p, for_up n 0 ?body ?st = _ /\ _ => destruct (for_up_rule I n 0 body st) as (p & E & L & R1 & R2 & G) end.
  - split; [apply repeat_length|]. split; [intros; lia|].
    assert (E0 : forall j b, get (repeat ([] : bset) n) j = Some b -> b = []).
    { intros j b. rewrite get_repeat. destruct (j <? n); congruence. }
    assert (N0 : forall i j, ~ strictly (repeat ([] : bset) n) i j).
    { intros i j (r & E & H). apply E0 in E. subst r. destruct i; discriminate. }
    split; [intros; eapply E0; eauto|]. split; [|split].
    + intros i j k H. destruct (N0 _ _ H).
    + intros i j [H _]. lia.
    + intros i j H. destruct (N0 _ _ H).
  - intros i p Hi (L & R1 & R2 & G). destruct (put_spec p i (bs_new i)) as (p0 & E0 & L0 & G0); [lia|]. rewrite E0.
    destruct (get_some h i) as [l El]; [fold n; lia|]. rewrite El.
    assert (S0 : forall a b, strictly p0 a b <-> strictly p a b).
    { intros a b. destruct (Nat.eq_dec b i) as [->|Nb].
      - rewrite (strictly_mem p0 a i (bs_new i)) by (rewrite G0, Nat.eqb_refl; reflexivity). rewrite mem_new.
        split; [discriminate|]. intros (r & Er & H). apply R2 in Er; [|lia]. subst r. destruct a; discriminate.
      - assert (Q : get p0 b = get p b) by (rewrite G0; destruct (Nat.eqb_spec b i); [lia|auto]). unfold strictly. unfold get in Q. rewrite Q. tauto. }
    destruct (for_each_rule (fun pre q => length q = n /\ (forall j b, j <= i -> get q j = Some b -> length b = j) /\
       (forall j b, i < j -> get q j = Some b -> b = []) /\ gen q (fun x y => (y < i /\ link h x y) \/ (y = i /\ In x pre))) l
       (fun x p => new_cover p x i) p0) as (q & E & L' & Q1 & Q2 & G').
    + split; [lia|]. split; [|split].
      * intros j b Hj. rewrite G0. destruct (Nat.eqb_spec j i) as [->|]; [intros Q; injection Q as <-; apply new_len|apply R1; lia].
      * intros j b Hj. rewrite G0. destruct (Nat.eqb_spec j i) as [->|]; [lia|]. apply R2. lia.
      * destruct G as (T & A & C). split; [|split].
        -- intros a b c. rewrite !S0. apply T.
        -- intros a b [H|[_ []]]. apply S0, A, H.
        -- intros a b H. apply S0, C in H. eapply clos_trans_mono; [|exact H]. auto.
    + intros pre x suf q Epre (L' & Q1 & Q2 & G').
      assert (Lk : link h x i) by (exists l; split; [exact El|rewrite Epre; apply in_or_app; right; left; auto]).
      assert (Hx := D _ _ Lk).
      destruct (get_some q x) as [bx Ex]; [lia|]. destruct (get_some q i) as [by_ Ey]; [lia|].
      destruct (cover_step q _ x i bx by_ G' Ex Ey) as (q' & b & E & L2 & Lb & Gq & G2).
      * eapply Q1; [|exact Ex]. lia.
      * eapply Q1; [|exact Ey]. lia.
      * exact Hx.
      * intros z [[H1 H2]|[H1 H2]].
        -- apply D in H2. lia.
        -- subst z. assert (link h i i) by (exists l; split; [exact El|rewrite Epre; apply in_or_app; auto]). apply D in H. lia.
      * exists q'. split; [exact E|]. split; [lia|]. split; [|split].
        -- intros j c Hj. rewrite Gq. destruct (Nat.eqb_spec j i) as [->|]; [intros Q; injection Q as <-; exact Lb|apply Q1; lia].
        -- intros j c Hj. rewrite Gq. destruct (Nat.eqb_spec j i) as [->|]; [lia|]. apply Q2. lia.
        -- eapply gen_ext; [|exact G2]. intros a c. cbn beta. rewrite in_app_iff. cbn [In]. intuition congruence.
    + exists q. split; [exact E|]. split; [exact L'|]. split; [intros j b Hj; apply Q1; lia|]. split; [intros j b Hj; apply Q2; lia|].
      eapply gen_ext; [|exact G']. intros a b. cbn beta. split.
      * intros [[H1 H2]|[-> H2]]; [auto|]. split; [lia|]. exists l. split; [exact El|exact H2].
      * intros [H1 (l' & E' & H2)]. destruct (Nat.eq_dec b i) as [->|]; [|left; split; [lia|exists l'; auto]].
        right. split; [reflexivity|]. unfold get in El. congruence.
  - exists p. split; [exact E|]. split; [exact L|]. split.
    + intros j b Ej. apply (R1 j b); [|exact Ej]. apply get_lt in Ej. lia.
    + eapply gen_ext; [|exact G]. intros a b. cbn beta. split; [tauto|]. intros H. split; [|exact H].
      destruct H as (l & El & _). apply get_lt in El. fold n in El. lia.
Qed.

(** *** the comparison function *)
Lemma lesseq_decides (p : poset) R : sized p -> (forall i j, i < length p -> j < length p -> (R i j <-> i = j \/ strictly p i j)) ->
  decides (lesseq p) (length p) R.
Proof.
  intros S H i j Hi Hj. unfold lesseq. destruct (Nat.ltb_spec i j).
  - destruct (get_some p j Hj) as [b E]. rewrite E. eexists. split; [reflexivity|]. rewrite H, (strictly_mem p i j b E) by auto.
    split; [auto|]. intros [->|]; [lia|auto].
  - eexists. split; [reflexivity|]. rewrite Nat.eqb_eq, H by auto. split; [auto|]. intros [|Q]; [auto|]. apply (strictly_lt _ _ _ S) in Q. lia.
Qed.
Lemma clos_rt_t (B : nat -> nat -> Prop) i j : clos_refl_trans nat B i j <-> i = j \/ clos_trans nat B i j.
Proof.
  split.
  - induction 1 as [a b H| |a b c _ IH1 _ IH2].
    + right. apply t_step. exact H.
    + auto.
    + destruct IH1 as [->|H1]; [exact IH2|]. destruct IH2 as [->|H2]; [auto|]. right. eapply t_trans; eauto.
  - intros [->|H]; [apply rt_refl|]. induction H; [apply rt_step; auto|eapply rt_trans; eauto].
Qed.
Lemma gen_decides (p : poset) B : sized p -> gen p B -> decides (lesseq p) (length p) (clos_refl_trans nat B).
Proof.
  intros S G. apply lesseq_decides; [exact S|]. intros i j _ _. rewrite clos_rt_t, (gen_iff p B G). tauto.
Qed.

Lemma order_ok p : poset_ok p -> is_order (fun i j => i = j \/ strictly p i j) /\
  decides (lesseq p) (length p) (fun i j => i = j \/ strictly p i j).
Proof.
  intros (S & T). split; [|apply lesseq_decides; [exact S|intros; tauto]]. split; [auto|]. split; [|split].
  - intros i j [H|H] [K|K]; auto. apply (strictly_lt _ _ _ S) in H, K. lia.
  - intros i j k [->|H] [->|K]; eauto.
  - intros i j [->|H]; [lia|]. apply (strictly_lt _ _ _ S) in H. lia.
Qed.

(** *** other ways to get a poset *)
Lemma lex_ordered lks n : upward n lks -> StronglySorted lexicographic lks -> links_ordered lks.
Proof.
  intros U S k l x y z Ek El. destruct (Nat.lt_ge_cases k l) as [|H]; [auto|]. exfalso.
  assert (Ux : x < y < n) by (apply U; eapply nth_error_In; eauto).
  assert (Q : forall lks k l a b, StronglySorted lexicographic lks -> nth_error lks k = Some a -> nth_error lks l = Some b -> k < l -> lexicographic a b).
  { clear. induction lks as [|h t IH]; intros k l a b S Ek El H; [destruct k; discriminate|]. inversion S as [|? ? S' F]; subst.
    destruct l as [|l]; [lia|]. destruct k as [|k].
    - injection Ek as <-. rewrite Forall_forall in F. apply F. eapply nth_error_In; eauto.
    - eapply IH; eauto. lia. }
  destruct (Nat.eq_dec l k) as [->|]; [rewrite Ek in El; injection El as <- <-; lia|].
  assert (K := Q _ _ _ _ _ S El Ek ltac:(lia)). unfold lexicographic in K. cbn in K. lia.
Qed.

Lemma dual_ok p : poset_ok p -> 0 < length p -> (Z.of_nat (length p) <= 2 ^ 32)%Z ->
  exists d, dual p = Some d /\ length d = length p /\ sized d /\
    forall i j, i < length p -> j < length p -> (strictly d i j <-> strictly p (length p - 1 - j) (length p - 1 - i)).
Proof.
  intros (S & T) H0 H32. unfold dual.
  replace (Z.to_nat _) with (length p - 1).
  2:{ rewrite Z.mod_small by lia. lia. }
  set (n := length p - 1).
  match goal with |- exists d, for_up ?k 0 ?body ?st = _ /\ _ => destruct (for_up_rule (fun i d => length d = i /\ sized d /\
    forall a b, a < b < i -> (strictly d a b <-> strictly p (n - b) (n - a))) k 0 body st) as (d & E & L & Sd & R) end.
  - split; [reflexivity|]. split; [intros j b E; destruct j; discriminate|]. intros; lia.
  - intros i d Hi (L & Sd & R).
    match goal with |- exists s', (match for_up i 0 ?body ?st with _ => _ end) = _ /\ _ =>
      destruct (for_up_rule (fun j b => length b = i /\ forall a, bs_mem b a = true <-> a < j /\ strictly p (n - i) (n - a)) i 0 body st) as (b & E & Lb & M) end.
    + split; [apply new_len|]. intros a. rewrite mem_new. split; [discriminate|lia].
    + intros j b Hj (Lb & M). unfold lesseq. destruct (Nat.ltb_spec (n - i) (n - j)); [|lia].
      destruct (get_some p (n - j)) as [r Er]; [lia|]. rewrite Er.
      destruct (bs_mem r (n - i)) eqn:Em.
      * destruct (insert_ok b j) as (c & E & Lc & Mc); [lia|]. exists c. split; [exact E|]. split; [lia|]. intros a.
        rewrite Mc, orb_true_iff, Nat.eqb_eq, M. split.
        -- intros [->|[A B]]; [|split; [lia|exact B]]. split; [lia|]. apply (strictly_mem _ _ _ _ Er). exact Em.
        -- intros [A B]. destruct (Nat.eq_dec a j); [auto|]. right. split; [lia|exact B].
      * exists b. split; [reflexivity|]. split; [exact Lb|]. intros a. rewrite M. split.
        -- intros [A B]. split; [lia|exact B].
        -- intros [A B]. split; [|exact B]. destruct (Nat.eq_dec a j) as [->|]; [|lia].
           apply (strictly_mem _ _ _ _ Er) in B. congruence.
    + rewrite E. eexists. split; [reflexivity|]. split; [rewrite app_length; cbn; lia|]. split.
      * intros j c. rewrite get_app. destruct (Nat.ltb_spec j (length d)); [apply Sd|].
        destruct (j - length d) as [|k] eqn:Ek; [|destruct k; discriminate]. intros Q. injection Q as <-. lia.
      * intros a c Hac. destruct (Nat.eq_dec c i) as [->|Nc].
        -- rewrite (strictly_mem _ a i b) by (rewrite get_app, L, Nat.ltb_irrefl, Nat.sub_diag; reflexivity). rewrite M. cbn [plus]. intuition.
        -- rewrite <- R by lia. unfold strictly. rewrite nth_error_app1 by lia. tauto.
  - exists d. split; [exact E|]. split; [unfold n in L; lia|]. split; [exact Sd|]. intros i j Hi Hj. fold n.
    destruct (Nat.lt_ge_cases i j) as [A|A]; [apply R; lia|]. split; intros H; exfalso.
    + apply (strictly_lt _ _ _ Sd) in H. lia.
    + apply (strictly_lt _ _ _ S) in H. lia.
Qed.
Lemma dual_poset (p : poset) d : poset_ok p -> sized d -> length d = length p ->
  (forall i j, i < length p -> j < length p -> (strictly d i j <-> strictly p (length p - 1 - j) (length p - 1 - i))) -> poset_ok d.
Proof.
  intros (S & T) Sd L R. split; [exact Sd|]. intros i j k H1 H2.
  destruct (strictly_lt _ _ _ Sd H1), (strictly_lt _ _ _ Sd H2). apply R in H1, H2; try lia. apply R; try lia. eauto.
Qed.
Lemma dual_empty : dual [] = None.
Proof.
  unfold dual. change ((Z.of_nat (length (@nil bset)) - 1) mod 2 ^ 32)%Z with 4294967295%Z.
  assert (E : exists m, Z.to_nat 4294967295 = S (S m)).
  { exists (Z.to_nat 4294967293). replace 4294967295%Z with (Z.succ (Z.succ 4294967293)) by reflexivity. rewrite !Z2Nat.inj_succ by lia. reflexivity. }
  destruct E as [m ->]. cbn [for_up length app]. unfold lesseq. destruct (Nat.ltb_spec (S (S m) - 1) (S (S m) - 0)); [|lia].
  rewrite get_ge by (cbn; lia). reflexivity.
Qed.

Lemma poset_eqb_ok (p : poset) q : sized p -> sized q -> exists r, poset_eqb p q = Some r /\
  (r = true <-> length p = length q /\ forall i j, strictly p i j <-> strictly q i j).
Proof.
  intros Sp Sq. unfold poset_eqb. destruct (Nat.eqb_spec (length p) (length q)) as [L|L].
  2:{ exists false. split; [reflexivity|]. split; [discriminate|]. tauto. }
  match goal with |- exists r, for_up ?k 0 ?body ?st = _ /\ _ => destruct (for_up_rule (fun n r => r = true <-> forall j, j < n -> get p j = get q j) k 0 body st) as (r & E & R) end.
  - split; [intros; lia|auto].
  - intros i r Hi R. destruct (get_some p i) as [a Ea]; [lia|]. destruct (get_some q i) as [b Eb]; [lia|]. rewrite Ea, Eb.
    eexists. split; [reflexivity|]. rewrite andb_true_iff, R, bs_eqb_ok. split.
    + intros [A ->] j Hj. destruct (Nat.eq_dec j i) as [->|]; [congruence|apply A; lia].
    + intros A. split; [intros j Hj; apply A; lia|]. specialize (A i ltac:(lia)). congruence.
  - exists r. split; [exact E|]. rewrite R. split.
    + intros A. split; [exact L|]. assert (p = q) by (apply vec_ext; [exact L|exact A]). subst. tauto.
    + intros [_ A] j Hj. destruct (get_some p j) as [a Ea]; [lia|]. destruct (get_some q j) as [b Eb]; [lia|]. rewrite Ea, Eb. f_equal.
      apply bset_ext; [rewrite (Sp _ _ Ea), (Sq _ _ Eb); reflexivity|]. intros i. apply eq_true_iff_eq.
      rewrite <- (strictly_mem p i j a Ea), <- (strictly_mem q i j b Eb). apply A.
Qed.

Lemma resize_ok (p : poset) n : poset_ok p -> poset_ok (resize p n) /\ length (resize p n) = n /\
  forall i j, strictly (resize p n) i j <-> j < n /\ strictly p i j.
Proof.
  intros (S & T). unfold resize.
  assert (G : forall j, get (firstn n p ++ map bs_new (seq (length p) (n - length p))) j =
    if j <? n then match get p j with Some b => Some b | None => Some (bs_new j) end else None).
  { intros j. rewrite get_app, firstn_length. destruct (Nat.ltb_spec j (Nat.min n (length p))).
    - destruct (Nat.ltb_spec j n); [|lia]. destruct (get_some p j) as [b E]; [lia|]. rewrite E. unfold get in *.
      rewrite <- E. revert H. clear. revert j p. induction n as [|n IH]; intros [|j] [|h t] H; cbn in *; try lia; auto. apply IH. lia.
    - unfold get at 1. rewrite nth_error_map. change (nth_error (seq (length p) (n - length p)) (j - Nat.min n (length p)))
        with (get (seq (length p) (n - length p)) (j - Nat.min n (length p))). rewrite get_seq.
      destruct (Nat.ltb_spec j n).
      + destruct (Nat.ltb_spec (j - Nat.min n (length p)) (n - length p)); [|lia]. cbn. rewrite get_ge by lia. do 2 f_equal. lia.
      + destruct (Nat.ltb_spec (j - Nat.min n (length p)) (n - length p)); [lia|]. reflexivity. }
  assert (R : forall i j, strictly (firstn n p ++ map bs_new (seq (length p) (n - length p))) i j <-> j < n /\ strictly p i j).
  { intros i j. unfold strictly at 1. change (nth_error (firstn n p ++ map bs_new (seq (length p) (n - length p))) j) with
      (get (firstn n p ++ map bs_new (seq (length p) (n - length p))) j). rewrite G. destruct (Nat.ltb_spec j n).
    - destruct (get p j) as [b|] eqn:E.
      + rewrite (strictly_mem p i j b E). split.
        * intros (r & Q & H1). injection Q as <-. auto.
        * intros [_ H1]. exists b. auto.
      + split.
        * intros (r & Q & H1). injection Q as <-. change (bs_mem (bs_new j) i = true) in H1. rewrite mem_new in H1. discriminate.
        * intros [_ (r & Q & _)]. unfold get in E. congruence.
    - split; [intros (r & Q & _); discriminate|intros; lia]. }
  split; [split|split; [|exact R]].
  - intros j r. change (nth_error (firstn n p ++ map bs_new (seq (length p) (n - length p))) j) with
      (get (firstn n p ++ map bs_new (seq (length p) (n - length p))) j). rewrite G. destruct (Nat.ltb_spec j n); [|discriminate].
    destruct (get p j) as [b|] eqn:E; intros Q; injection Q as <-; [apply S; exact E|apply new_len].
  - intros i j k. rewrite !R. intros [A B] [C D]. split; [exact C|]. eauto.
  - rewrite app_length, firstn_length, map_length, seq_length. lia.
Qed.
