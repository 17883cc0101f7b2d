(** Proofs about permutations. *)

From Coq Require Import List Arith Bool ZArith Lia Permutation.
From Verif Require Import VecModel VecProofs PermModel PermSpec.
Import ListNotations.
Open Scope nat_scope.

Lemma get_repeat {A} (x : A) n i : get (repeat x n) i = if i <? n then Some x else None.
Proof.
  unfold get. revert i. induction n as [|n IH]; intros [|i]; try reflexivity. cbn [repeat nth_error]. rewrite IH. reflexivity.
Qed.
Lemma get_app {A} (v w : list A) i : get (v ++ w) i = if i <? length v then get v i else get w (i - length v).
Proof.
  unfold get. destruct (Nat.ltb_spec i (length v)); [apply nth_error_app1|apply nth_error_app2]; auto.
Qed.
Lemma get_In {A} (v : list A) i x : get v i = Some x -> In x v.
Proof. apply nth_error_In. Qed.
Lemma In_get {A} (v : list A) x : In x v -> exists i, get v i = Some x.
Proof. apply In_nth_error. Qed.
Lemma get_seq a n i : get (seq a n) i = if i <? n then Some (a + i) else None.
Proof.
  destruct (Nat.ltb_spec i n).
  - rewrite (get_nth _ _ 0) by (rewrite seq_length; lia). rewrite seq_nth by lia. reflexivity.
  - apply get_ge. rewrite seq_length. lia.
Qed.

(** ** is_perm *)
Section P.
Context (n : nat) (p : list nat) (H : is_perm n p).
Lemma perm_len : length p = n. Proof. apply H. Qed.
Lemma perm_get i : i < n -> exists x, get p i = Some x /\ x < n.
Proof.
  intros Hi. destruct (get_some p i) as [x E]; [rewrite perm_len; exact Hi|]. exists x. split; [exact E|].
  apply H. eapply get_In; eauto.
Qed.
Lemma perm_inj i j x : get p i = Some x -> get p j = Some x -> i = j.
Proof.
  intros Ei Ej. assert (L := get_lt _ _ _ Ei). destruct H as (_ & N & _). rewrite NoDup_nth_error in N.
  apply N; [exact L|]. unfold get in *. congruence.
Qed.
Lemma perm_lt i x : get p i = Some x -> i < n /\ x < n.
Proof.
  intros E. split; [rewrite <- perm_len; eapply get_lt; eauto|]. apply H. eapply get_In; eauto.
Qed.
Lemma perm_perm : Permutation p (seq 0 n).
Proof.
  apply NoDup_Permutation_bis.
  - apply H.
  - rewrite seq_length, perm_len. lia.
  - intros x Hx. apply in_seq. destruct H as (_ & _ & B). specialize (B x Hx). lia.
Qed.
Lemma perm_surj x : x < n -> exists i, get p i = Some x /\ i < n.
Proof.
  intros Hx. assert (I : In x p). { eapply Permutation_in; [symmetry; apply perm_perm|]. apply in_seq. lia. }
  destruct (In_get _ _ I) as [i E]. exists i. split; [exact E|]. apply (perm_lt _ _ E).
Qed.
End P.
Lemma is_perm_intro n p : length p = n -> (forall i x, get p i = Some x -> x < n) ->
  (forall i j x, get p i = Some x -> get p j = Some x -> i = j) -> is_perm n p.
Proof.
  intros L B J. split; [exact L|]. split.
  - apply NoDup_nth_error. intros i j Hi E. destruct (nth_error p i) eqn:E1.
    + eapply J; unfold get; eauto.
    + apply nth_error_None in E1. lia.
  - intros x Hx. destruct (In_get _ _ Hx) as [i E]. eapply B; eauto.
Qed.
Lemma is_perm_seq n : is_perm n (seq 0 n).
Proof.
  split; [apply seq_length|]. split; [apply seq_NoDup|]. intros x Hx. apply in_seq in Hx. lia.
Qed.

(** ** identity, inverse, composition *)
Lemma identity_ok n : identity n = Some (seq 0 n).
Proof.
  unfold identity.
  destruct (for_down_rule (fun i v => length v = n /\ forall j, i <= j < n -> get v j = Some j) n
    (fun i v => put v i i) (repeat 0 n)) as (v & E & L & G).
  - split; [apply repeat_length|]. intros; lia.
  - intros i v Hi [L G]. destruct (put_spec v i i) as (w & E & Lw & Gw); [lia|]. exists w. split; [exact E|].
    split; [lia|]. intros j Hj. rewrite Gw. destruct (Nat.eqb_spec j i) as [->|N]; [reflexivity|]. apply G. lia.
  - rewrite E. f_equal. apply vec_ext; [rewrite seq_length; exact L|]. intros i Hi. rewrite G, get_seq by lia.
    destruct (Nat.ltb_spec i n); [reflexivity|lia].
Qed.
Lemma inverse_ok n p : is_perm n p -> exists q, inverse p = Some q /\ is_perm n q /\
  forall i j, get q j = Some i <-> get p i = Some j.
Proof.
  intros H. assert (Lp := perm_len _ _ H). unfold inverse. rewrite Lp.
  destruct (for_down_rule (fun i v => length v = n /\ forall k j, i <= k -> get p k = Some j -> get v j = Some k) n
    (fun i v => match get p i with Some x => put v x i | None => None end) (repeat 0 n)) as (q & E & L & G).
  - split; [apply repeat_length|]. intros k j Hk Ek. apply (perm_lt _ _ H) in Ek. lia.
  - intros i v Hi [L G]. destruct (perm_get _ _ H i Hi) as (x & Ex & Hx). rewrite Ex.
    destruct (put_spec v x i) as (w & E & Lw & Gw); [lia|]. exists w. split; [exact E|].
    split; [lia|]. intros k j Hk Ek. rewrite Gw. destruct (Nat.eqb_spec j x) as [->|N].
    + f_equal. eapply perm_inj; eauto.
    + apply G; [|exact Ek]. assert (i <> k) by (intros ->; congruence). lia.
  - exists q. split; [exact E|]. assert (Q : forall i j, get q j = Some i <-> get p i = Some j).
    { intros i j. split; intros E1.
      - assert (j < n) by (rewrite <- L; eapply get_lt; eauto).
        destruct (perm_surj _ _ H j) as (k & Ek & Hk); [lia|]. assert (A := G k j ltac:(lia) Ek). congruence.
      - apply G; [lia|exact E1]. }
    split; [|exact Q]. apply is_perm_intro; [exact L| |].
    + intros i x Ei. apply Q in Ei. apply (perm_lt _ _ H) in Ei. lia.
    + intros i j x Ei Ej. apply Q in Ei, Ej. congruence.
Qed.
Lemma get_firstn_skipn {A} (v : list A) n m i : i < m -> get (firstn m (skipn n v)) i = get v (n + i).
Proof.
  intros H. unfold get. revert n m i H. induction v as [|x v IH]; intros n m i H.
  - rewrite skipn_nil, firstn_nil. transitivity (@None A); [destruct i; reflexivity|destruct (n + i); reflexivity].
  - destruct n as [|n].
    + cbn [skipn]. destruct m as [|m]; [lia|]. destruct i as [|i]; [reflexivity|]. cbn [firstn nth_error Nat.add].
      exact (IH 0 m i ltac:(lia)).
    + cbn [skipn Nat.add nth_error]. apply IH. exact H.
Qed.
Lemma compose_ok N M a b n : is_perm N a -> is_perm M b -> n + M <= N ->
  exists r, compose a b n = Some r /\ is_perm N r /\
    (forall j, j < M -> exists x, get b j = Some x /\ get r (n + j) = get a (n + x)) /\
    (forall j, j < n \/ n + M <= j -> get r j = get a j).
Proof.
  intros Ha Hb HM. assert (La := perm_len _ _ Ha). assert (Lb := perm_len _ _ Hb). unfold compose. rewrite La, Lb.
  destruct (Nat.leb_spec (n + M) N) as [_|]; [|lia].
  destruct (for_up_rule (fun k r => length r = N /\ (forall j, j < k -> exists x, get b j = Some x /\ get r (n + j) = get a (n + x)) /\
      (forall j, j < n \/ n + k <= j -> get r j = get a j)) M 0
    (fun j a0 => match get b j with Some bj => match get (firstn M (skipn n a)) bj with Some x => put a0 (j + n) x | None => None end | None => None end) a)
    as (r & E & L & G1 & G2).
  - split; [exact La|]. split; [intros; lia|]. reflexivity.
  - intros j r Hj (L & G1 & G2). destruct (perm_get _ _ Hb j) as (x & Ex & Hx); [lia|]. rewrite Ex.
    rewrite get_firstn_skipn by lia. destruct (perm_get _ _ Ha (n + x)) as (y & Ey & Hy); [lia|]. rewrite Ey.
    destruct (put_spec r (j + n) y) as (w & E & Lw & Gw); [lia|]. exists w. split; [exact E|]. split; [lia|]. split.
    + intros k Hk. destruct (Nat.eq_dec k j) as [->|].
      * exists x. split; [exact Ex|]. rewrite Gw. replace (n + j =? j + n) with true by (symmetry; apply Nat.eqb_eq; lia). congruence.
      * destruct (G1 k) as (z & Ez & Rz); [lia|]. exists z. split; [exact Ez|]. rewrite Gw.
        replace (n + k =? j + n) with false by (symmetry; apply Nat.eqb_neq; lia). exact Rz.
    + intros k Hk. rewrite Gw. replace (k =? j + n) with false by (symmetry; apply Nat.eqb_neq; lia). apply G2. lia.
  - exists r. split; [exact E|]. cbn [Nat.add] in *. split; [|auto].
    assert (R : forall j, j < N -> exists k, k < N /\ get r j = get a k /\
      ((j < n \/ n + M <= j) /\ k = j \/ (exists i x, j = n + i /\ get b i = Some x /\ k = n + x))).
    { intros j Hj. destruct (Nat.lt_ge_cases j n); [exists j; split; [lia|]; split; [apply G2; lia|left; lia]|].
      destruct (Nat.lt_ge_cases j (n + M)); [|exists j; split; [lia|]; split; [apply G2; lia|left; lia]].
      destruct (G1 (j - n)) as (x & Ex & Rx); [lia|]. exists (n + x). split.
      - apply (perm_lt _ _ Hb) in Ex. lia.
      - replace (n + (j - n)) with j in Rx by lia. split; [exact Rx|]. right. exists (j - n), x. split; [lia|]. auto. }
    apply is_perm_intro; [exact L| |].
    + intros i x Ei. destruct (R i) as (k & Hk & Ek & _); [rewrite <- L; eapply get_lt; eauto|].
      rewrite Ek in Ei. apply (perm_lt _ _ Ha) in Ei. lia.
    + intros i j x Ei Ej. destruct (R i) as (k & Hk & Ek & Ck); [rewrite <- L; eapply get_lt; eauto|].
      destruct (R j) as (l & Hl & El & Cl); [rewrite <- L; eapply get_lt; eauto|].
      rewrite Ek in Ei. rewrite El in Ej. assert (k = l) by (eapply perm_inj; [exact Ha| |]; eauto). subst l.
      destruct Ck as [[C1 C2]|(u & x1 & -> & E1 & C1)], Cl as [[C3 C4]|(v & x2 & -> & E2 & C3)]; subst; try lia.
      * apply (perm_lt _ _ Hb) in E2. lia.
      * apply (perm_lt _ _ Hb) in E1. lia.
      * assert (x1 = x2) by lia. subst. f_equal. eapply perm_inj; [exact Hb| |]; eauto.
Qed.
(** full composition, same size *)
Lemma compose_full n a b : is_perm n a -> is_perm n b ->
  exists r, compose a b 0 = Some r /\ is_perm n r /\
    forall i, i < n -> exists x, get b i = Some x /\ get r i = get a x.
Proof.
  intros Ha Hb. destruct (compose_ok n n a b 0 Ha Hb) as (r & E & P & G & _); [lia|]. exists r. auto.
Qed.
Lemma perm_ext n p q : is_perm n p -> is_perm n q -> (forall i, i < n -> get p i = get q i) -> p = q.
Proof.
  intros Hp Hq E. apply vec_ext; [rewrite (perm_len _ _ Hp), (perm_len _ _ Hq); reflexivity|].
  intros i Hi. apply E. rewrite <- (perm_len _ _ Hp). exact Hi.
Qed.
Lemma group_laws n a b c : is_perm n a -> is_perm n b -> is_perm n c ->
  exists e a' ab bc abc,
    identity n = Some e /\ inverse a = Some a' /\ compose a b 0 = Some ab /\ compose b c 0 = Some bc /\
    compose ab c 0 = Some abc /\ compose a bc 0 = Some abc /\
    compose a e 0 = Some a /\ compose e a 0 = Some a /\
    compose a a' 0 = Some e /\ compose a' a 0 = Some e.
Proof.
  intros Ha Hb Hc. assert (He := is_perm_seq n).
  destruct (inverse_ok n a Ha) as (a' & Ea' & Pa' & Ia').
  destruct (compose_full n a b Ha Hb) as (ab & Eab & Pab & Gab).
  destruct (compose_full n b c Hb Hc) as (bc & Ebc & Pbc & Gbc).
  destruct (compose_full n ab c Pab Hc) as (r1 & E1 & P1 & G1).
  destruct (compose_full n a bc Ha Pbc) as (r2 & E2 & P2 & G2).
  destruct (compose_full n a _ Ha He) as (r3 & E3 & P3 & G3).
  destruct (compose_full n _ a He Ha) as (r4 & E4 & P4 & G4).
  destruct (compose_full n a a' Ha Pa') as (r5 & E5 & P5 & G5).
  destruct (compose_full n a' a Pa' Ha) as (r6 & E6 & P6 & G6).
  exists (seq 0 n), a', ab, bc, r1. rewrite identity_ok. repeat split; auto.
  - rewrite E2. f_equal. apply (perm_ext n); auto. intros i Hi. destruct (G2 i Hi) as (x & Ex & ->).
    destruct (G1 i Hi) as (y & Ey & ->). destruct (Gbc i Hi) as (z & Ez & Rz). assert (z = y) by congruence. subst z.
    rewrite Ex in Rz. destruct (Gab y) as (u & Eu & ->); [apply (perm_lt _ _ Hc _ _ Ey)|]. congruence.
  - rewrite E3. f_equal. apply (perm_ext n); auto. intros i Hi. destruct (G3 i Hi) as (x & Ex & ->).
    rewrite get_seq in Ex. destruct (i <? n) eqn:C; [|discriminate]. cbn in Ex. congruence.
  - rewrite E4. f_equal. apply (perm_ext n); auto. intros i Hi. destruct (G4 i Hi) as (x & Ex & ->).
    rewrite get_seq, Ex. apply (perm_lt _ _ Ha) in Ex. destruct (Nat.ltb_spec x n); [reflexivity|lia].
  - rewrite E5. f_equal. apply (perm_ext n); auto. intros i Hi. destruct (G5 i Hi) as (x & Ex & ->).
    apply Ia' in Ex. rewrite Ex, get_seq. destruct (Nat.ltb_spec i n); [reflexivity|lia].
  - rewrite E6. f_equal. apply (perm_ext n); auto. intros i Hi. destruct (G6 i Hi) as (x & Ex & ->).
    apply Ia' in Ex. rewrite Ex, get_seq. destruct (Nat.ltb_spec i n); [reflexivity|lia].
Qed.
Lemma is_identity_ok p : is_identity p = true <-> p = seq 0 (length p).
Proof.
  unfold is_identity. cut (forall i, is_id_from i p = true <-> p = seq i (length p)); [auto|].
  induction p as [|x p IH]; intros i; cbn [is_id_from length seq]; [tauto|].
  destruct (Nat.eqb_spec x i) as [->|N]; cbn [negb].
  - rewrite IH. split; [congruence|]. intros E. injection E. auto.
  - split; [discriminate|congruence].
Qed.

(** ** pull_back, renumber *)
Lemma for_each_map {A B} (f : A -> option B) l acc : (forall x, In x l -> exists y, f x = Some y) ->
  exists r, for_each l (fun x r => match f x with Some y => Some (r ++ [y]) | None => None end) acc = Some (acc ++ r) /\
    length r = length l /\ forall i x, get l i = Some x -> get r i = f x.
Proof.
  revert acc. induction l as [|x l IH]; intros acc H.
  - exists []. rewrite app_nil_r. split; [reflexivity|]. split; [reflexivity|]. intros [|i] x E; discriminate.
  - destruct (H x) as [y Ey]; [left; auto|]. cbn [for_each]. rewrite Ey.
    destruct (IH (acc ++ [y])) as (r & E & L & G); [intros z Hz; apply H; right; auto|].
    exists (y :: r). rewrite E, <- app_assoc. split; [reflexivity|]. split; [cbn; lia|].
    intros [|i] z Ez; [cbn in Ez; injection Ez as <-; rewrite Ey; reflexivity|]. exact (G i z Ez).
Qed.
Lemma pull_back_ok {A} p (v : list A) : Forall (fun x => x < length v) p ->
  exists r, pull_back p v = Some r /\ length r = length p /\ forall i x, get p i = Some x -> get r i = get v x.
Proof.
  intros H. unfold pull_back. destruct (for_each_map (get v) p []) as (r & E & L & G).
  - intros x Hx. apply get_some. rewrite Forall_forall in H. auto.
  - exists r. split; [exact E|]. auto.
Qed.
Lemma renumbering_ok p v : Forall (fun x => x < length p) v ->
  exists r, renumbering p v = Some r /\ length r = length v /\ forall i x, get v i = Some x -> get r i = get p x.
Proof.
  intros H. unfold renumbering. destruct (for_each_map (get p) v []) as (r & E & L & G).
  - intros x Hx. apply get_some. rewrite Forall_forall in H. auto.
  - exists r. split; [exact E|]. auto.
Qed.
Lemma renumber_except_ok p v e : Forall (fun x => x = e \/ x < length p) v ->
  exists r, renumber_except p v e = Some r /\ length r = length v /\
    forall i x, get v i = Some x -> get r i = if x =? e then Some e else get p x.
Proof.
  intros H. rewrite Forall_forall in H. unfold renumber_except.
  destruct (for_up_rule (fun k r => length r = length v /\
     (forall i x, get v i = Some x -> get r i = if i <? k then (if x =? e then Some e else get p x) else Some x)) (length v) 0
    (fun i v0 => match get v0 i with Some x => if negb (x =? e) then match get p x with Some y => put v0 i y | None => None end else Some v0 | None => None end) v)
    as (r & E & L & G).
  - split; [reflexivity|]. intros i x E. exact E.
  - intros i r Hi (L & G). destruct (get_some v i) as [x Ex]; [lia|]. assert (Gx := G i x Ex). rewrite Nat.ltb_irrefl in Gx.
    rewrite Gx. destruct (Nat.eqb_spec x e) as [->|Ne]; cbn [negb].
    + exists r. split; [reflexivity|]. split; [exact L|]. intros j y Ey. rewrite (G j y Ey).
      destruct (Nat.ltb_spec j i), (Nat.ltb_spec j (S i)); try lia; try reflexivity.
      assert (j = i) by lia. subst j. assert (y = e) by congruence. subst y. rewrite Nat.eqb_refl. reflexivity.
    + destruct (H x) as [?|Hx]; [eapply get_In; eauto|lia|]. destruct (get_some p x Hx) as [y Ey]. rewrite Ey.
      destruct (put_spec r i y) as (w & E & Lw & Gw); [lia|]. exists w. split; [exact E|]. split; [lia|].
      intros j z Ez. rewrite Gw. destruct (Nat.eqb_spec j i) as [->|].
      * assert (z = x) by congruence. subst z. destruct (Nat.ltb_spec i (S i)); [|lia].
        destruct (Nat.eqb_spec x e); [lia|congruence].
      * rewrite (G j z Ez). destruct (Nat.ltb_spec j i), (Nat.ltb_spec j (S i)); try lia; reflexivity.
  - exists r. split; [exact E|]. split; [exact L|]. intros i x Ex. rewrite (G i x Ex).
    destruct (Nat.ltb_spec i (0 + length v)) as [|C]; [reflexivity|]. apply get_lt in Ex. lia.
Qed.
Lemma renumber_ok p v : Forall (fun x => x < length p) v ->
  exists r, renumber p v = Some r /\ length r = length v /\ forall i x, get v i = Some x -> get r i = get p x.
Proof.
  intros H. destruct (renumber_except_ok p v (length p)) as (r & E & L & G).
  { rewrite Forall_forall in *. intros x Hx. right. auto. }
  exists r. split.
  - rewrite <- E. unfold renumber, renumber_except. clear E. rewrite Forall_forall in H.
    assert (K : forall w, (forall x, In x w -> x < length p) \/ True) by auto. clear K.
    destruct (for_up_rule (fun k r => length r = length v /\ (forall i x, get v i = Some x -> get r i = if i <? k then get p x else Some x)) (length v) 0
      (fun i v0 => match get v0 i with Some x => match get p x with Some y => put v0 i y | None => None end | None => None end) v) as (s & Es & Ls & Gs).
    + split; [reflexivity|]. intros i x E. exact E.
    + intros i s Hi (Ls & Gs). destruct (get_some v i) as [x Ex]; [lia|]. assert (Gx := Gs i x Ex). rewrite Nat.ltb_irrefl in Gx.
      rewrite Gx. destruct (get_some p x) as [y Ey]; [apply H; eapply get_In; eauto|]. rewrite Ey.
      destruct (put_spec s i y) as (w & E & Lw & Gw); [lia|]. exists w. split; [exact E|]. split; [lia|].
      intros j z Ez. rewrite Gw. destruct (Nat.eqb_spec j i) as [->|].
      * assert (z = x) by congruence. subst z. destruct (Nat.ltb_spec i (S i)); [|lia]. congruence.
      * rewrite (Gs j z Ez). destruct (Nat.ltb_spec j i), (Nat.ltb_spec j (S i)); try lia; reflexivity.
    + rewrite Es. symmetry. destruct (renumber_except_ok p v (length p)) as (r' & E' & L' & G').
      { rewrite Forall_forall. intros x Hx. right. auto. }
      unfold renumber_except in E'. rewrite E'. f_equal. apply vec_ext; [lia|]. intros i Hi.
      destruct (get_some v i) as [x Ex]; [lia|]. rewrite (G' i x Ex), (Gs i x Ex).
      assert (x < length p) by (apply H; eapply get_In; eauto).
      destruct (Nat.eqb_spec x (length p)); [lia|]. destruct (Nat.ltb_spec i (0 + length v)); [reflexivity|lia].
  - split; [exact L|]. intros i x Ex. rewrite (G i x Ex). rewrite Forall_forall in H.
    assert (x < length p) by (apply H; eapply get_In; eauto). destruct (Nat.eqb_spec x (length p)); [lia|reflexivity].
Qed.
