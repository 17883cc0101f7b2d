(** Proofs about the ring operations of [Polynomial]. *)

From Coq Require Import List Arith ZArith Lia Bool.
From Verif Require Import VecModel VecProofs PolyModel PolySpec.
Import ListNotations.
Open Scope Z_scope.
Open Scope vec_scope.

Lemma cf_ge p i : (length p <= i)%nat -> cf p i = 0.
Proof. intros H. apply nth_overflow. exact H. Qed.
Lemma cf_get p i : (i < length p)%nat -> get p i = Some (cf p i).
Proof. intros H. apply get_nth. exact H. Qed.
Lemma cf_lt p i : cf p i <> 0 -> (i < length p)%nat.
Proof. intros H. destruct (Nat.lt_ge_cases i (length p)) as [L|L]; [exact L|]. rewrite cf_ge in H; lia. Qed.
Lemma coef_cf p i : coef p i = cf p i.
Proof. unfold coef. destruct (Nat.leb_spec (length p) i); [rewrite cf_ge; auto|reflexivity]. Qed.
Lemma put_cf p i x : (i < length p)%nat ->
  exists p', put p i x = Some p' /\ length p' = length p /\ forall j, cf p' j = if (j =? i)%nat then x else cf p j.
Proof.
  intros H. destruct (put_spec p i x H) as (p' & E & L & G). exists p'. split; [exact E|]. split; [exact L|]. intros j.
  destruct (Nat.lt_ge_cases j (length p)) as [Lj|Lj].
  - specialize (G j). rewrite (cf_get p j), (cf_get p' j) in G by lia. destruct (j =? i)%nat; congruence.
  - destruct (Nat.eqb_spec j i); [lia|]. rewrite !cf_ge by lia. reflexivity.
Qed.
Lemma cf_ext p q : length p = length q -> (forall i, cf p i = cf q i) -> p = q.
Proof. intros L H. apply (nth_ext _ _ 0 0 L). intros. apply H. Qed.
Lemma is_zero_true p : is_zero p = true <-> p = [].
Proof. unfold is_zero. rewrite Nat.eqb_eq. apply length_zero_iff_nil. Qed.
Lemma is_zero_false p : is_zero p = false <-> (0 < length p)%nat.
Proof. unfold is_zero. rewrite Nat.eqb_neq. lia. Qed.
Lemma cf_nil i : cf [] i = 0.
Proof. destruct i; reflexivity. Qed.
Lemma cf_app p q i : cf (p ++ q) i = if (i <? length p)%nat then cf p i else cf q (i - length p).
Proof. unfold cf. destruct (Nat.ltb_spec i (length p)); [apply app_nth1 | apply app_nth2]; lia. Qed.
Lemma cf_repeat n i : cf (repeat 0 n) i = 0.
Proof. revert i. induction n as [|n IH]; intros [|i]; try reflexivity. apply IH. Qed.
Lemma normal_nil : normal [].
Proof. left. reflexivity. Qed.
Lemma normal_lead p : normal p -> (0 < length p)%nat -> cf p (length p - 1) <> 0.
Proof. intros [->|H]; [cbn; lia|auto]. Qed.
Lemma normal_intro p : ((0 < length p)%nat -> cf p (length p - 1) <> 0) -> normal p.
Proof. intros H. destruct p as [|x p]; [left; reflexivity|right; apply H; cbn; lia]. Qed.
Lemma normal_length p q : normal p -> normal q -> (forall i, cf p i = cf q i) -> length p = length q.
Proof.
  intros Np Nq H. destruct (Nat.lt_trichotomy (length p) (length q)) as [L|[L|L]]; [|exact L|]; exfalso.
  - apply (normal_lead q Nq); [lia|]. rewrite <- H. apply cf_ge. lia.
  - apply (normal_lead p Np); [lia|]. rewrite H. apply cf_ge. lia.
Qed.
(** a polynomial is determined by its coefficients *)
Lemma normal_ext p q : normal p -> normal q -> (forall i, cf p i = cf q i) -> p = q.
Proof. intros Np Nq H. apply cf_ext; [apply normal_length|]; auto. Qed.

Lemma resize_length p d : length (resize p d) = d.
Proof. unfold resize. rewrite app_length, firstn_length, repeat_length. lia. Qed.
Lemma resize_cf p d i : (length p <= d)%nat -> cf (resize p d) i = cf p i.
Proof.
  intros H. unfold resize. rewrite firstn_all2 by lia. rewrite cf_app, cf_repeat.
  destruct (Nat.ltb_spec i (length p)); [reflexivity|]. symmetry. apply cf_ge. lia.
Qed.
Lemma removelast_length (p : poly) : length (removelast p) = (length p - 1)%nat.
Proof.
  destruct p as [|x p]; [reflexivity|]. rewrite (app_removelast_last 0 (l := x :: p)) at 2 by discriminate.
  rewrite app_length. cbn [length]. lia.
Qed.
Lemma removelast_cf (p : poly) i : cf (removelast p) i = if (i <? length p - 1)%nat then cf p i else 0.
Proof.
  destruct p as [|x p]; [rewrite cf_nil; destruct i; reflexivity|].
  destruct (Nat.ltb_spec i (length (x :: p) - 1)) as [H|H].
  - rewrite (app_removelast_last 0 (l := x :: p)) at 2 by discriminate. rewrite cf_app.
    destruct (Nat.ltb_spec i (length (removelast (x :: p)))) as [L|L]; [reflexivity|].
    rewrite removelast_length in L. lia.
  - apply cf_ge. rewrite removelast_length. lia.
Qed.
Lemma adjust_loop_spec j p : j = length p ->
  normal (adjust_loop j p) /\ (forall i, cf (adjust_loop j p) i = cf p i) /\ (length (adjust_loop j p) <= length p)%nat.
Proof.
  revert p. induction j as [|k IH]; intros p H.
  - destruct p; [|discriminate]. cbn. split; [apply normal_nil|]. split; [reflexivity|lia].
  - cbn [adjust_loop]. destruct (Z.eqb_spec (nth k p 0) 0) as [E|E].
    + destruct (IH (removelast p)) as (N & C & L); [rewrite removelast_length; lia|].
      split; [exact N|]. split; [|rewrite removelast_length in L; lia].
      intros i. rewrite C, removelast_cf. destruct (Nat.ltb_spec i (length p - 1)) as [Li|Li]; [reflexivity|].
      destruct (Nat.eq_dec i k) as [->|D]; [symmetry; exact E|]. symmetry. apply cf_ge. lia.
    + split; [|auto]. right. replace (length p - 1)%nat with k by lia. exact E.
Qed.
Lemma adjust_normal p : normal (adjustSize p).
Proof. apply (adjust_loop_spec (length p) p eq_refl). Qed.
Lemma adjust_cf p i : cf (adjustSize p) i = cf p i.
Proof. apply (adjust_loop_spec (length p) p eq_refl). Qed.
Lemma adjust_length p : (length (adjustSize p) <= length p)%nat.
Proof. apply (adjust_loop_spec (length p) p eq_refl). Qed.
Lemma adjust_id p : normal p -> adjustSize p = p.
Proof. intros H. apply normal_ext; [apply adjust_normal|exact H|apply adjust_cf]. Qed.

Definition grow (p : poly) n := if (length p <? n)%nat then resize p n else p.
Lemma grow_length p n : length (grow p n) = Nat.max (length p) n.
Proof. unfold grow. destruct (Nat.ltb_spec (length p) n); [rewrite resize_length|]; lia. Qed.
Lemma grow_cf p n i : cf (grow p n) i = cf p i.
Proof. unfold grow. destruct (Nat.ltb_spec (length p) n); [apply resize_cf; lia|reflexivity]. Qed.

(** a loop that changes the entries below n one by one *)
Lemma pointwise (f : Z -> Z -> Z) q p n : (n <= length p)%nat -> (n <= length (alias q p))%nat ->
  exists p', for_down n (fun j p => do s <- get (alias q p) j; do d <- get p j; put p j (f d s)) p = Some p' /\
    length p' = length p /\
    forall i, cf p' i = if (i <? n)%nat then f (cf p i) (cf (alias q p) i) else cf p i.
Proof.
  intros Hp Hq.
  match goal with |- exists _, for_down n ?b p = _ /\ _ =>
    destruct (for_down_rule (fun k r => length r = length p /\ forall i,
       cf r i = if (i <? n)%nat && (k <=? i)%nat then f (cf p i) (cf (alias q p) i) else cf p i) n b p) as (p' & E & L & C) end.
  - split; [reflexivity|]. intros i. destruct (Nat.ltb_spec i n), (Nat.leb_spec n i); try lia; reflexivity.
  - intros k r Hk [L C].
    assert (Es : get (alias q r) k = Some (cf (alias q p) k)).
    { destruct q as [q|]; cbn [alias] in *; [apply cf_get; lia|]. rewrite cf_get by lia. rewrite C.
      destruct (Nat.leb_spec (S k) k); [lia|]. rewrite andb_false_r. reflexivity. }
    rewrite Es, (cf_get r k) by lia. destruct (put_cf r k (f (cf r k) (cf (alias q p) k))) as (r' & E & L' & C'); [lia|].
    exists r'. split; [exact E|]. split; [lia|]. intros i. rewrite C', !C.
    destruct (Nat.eqb_spec i k) as [->|D].
    + destruct (Nat.ltb_spec k n), (Nat.leb_spec (S k) k), (Nat.leb_spec k k); try lia. reflexivity.
    + destruct (Nat.ltb_spec i n), (Nat.leb_spec (S k) i), (Nat.leb_spec k i); try lia; reflexivity.
  - exists p'. split; [exact E|]. split; [exact L|]. intros i. rewrite C. rewrite andb_true_r. reflexivity.
Qed.

Lemma plus_assign_correct p q : normal p ->
  exists r, plus_assign p q = Some r /\ normal r /\ forall i, cf r i = cf p i + cf (alias q p) i.
Proof.
  intros Np. unfold plus_assign. destruct (is_zero (alias q p)) eqn:Z.
  - apply is_zero_true in Z. exists p. split; [reflexivity|]. split; [exact Np|]. intros i. rewrite Z, cf_nil. lia.
  - fold (grow p (length (alias q p))). set (g := grow p (length (alias q p))).
    assert (Eq : forall i, cf (alias q g) i = cf (alias q p) i).
    { intros i. destruct q; [reflexivity|]. cbn [alias]. unfold g. apply grow_cf. }
    assert (Lq : (length (alias q p) <= length (alias q g))%nat).
    { destruct q as [q|]; [reflexivity|]. unfold g; cbn [alias]. rewrite grow_length. lia. }
    destruct (pointwise Z.add q g (length (alias q p))) as (r & E & L & C); [unfold g; rewrite grow_length; lia|exact Lq|].
    rewrite E. exists (adjustSize r). split; [reflexivity|]. split; [apply adjust_normal|].
    intros i. rewrite adjust_cf, C, Eq. unfold g. rewrite !grow_cf. destruct (Nat.ltb_spec i (length (alias q p))); [reflexivity|].
    rewrite (cf_ge (alias q p)) by lia. lia.
Qed.
Lemma minus_assign_correct p q : normal p ->
  exists r, minus_assign p q = Some r /\ normal r /\ forall i, cf r i = cf p i - cf (alias q p) i.
Proof.
  intros Np. unfold minus_assign. destruct (is_zero (alias q p)) eqn:Z.
  - apply is_zero_true in Z. exists p. split; [reflexivity|]. split; [exact Np|]. intros i. rewrite Z, cf_nil. lia.
  - fold (grow p (length (alias q p))). set (g := grow p (length (alias q p))).
    assert (Eq : forall i, cf (alias q g) i = cf (alias q p) i).
    { intros i. destruct q; [reflexivity|]. cbn [alias]. unfold g. apply grow_cf. }
    assert (Lq : (length (alias q p) <= length (alias q g))%nat).
    { destruct q as [q|]; [reflexivity|]. unfold g; cbn [alias]. rewrite grow_length. lia. }
    destruct (pointwise Z.sub q g (length (alias q p))) as (r & E & L & C); [unfold g; rewrite grow_length; lia|exact Lq|].
    rewrite E. exists (adjustSize r). split; [reflexivity|]. split; [apply adjust_normal|].
    intros i. rewrite adjust_cf, C, Eq. unfold g. rewrite !grow_cf. destruct (Nat.ltb_spec i (length (alias q p))); [reflexivity|].
    rewrite (cf_ge (alias q p)) by lia. lia.
Qed.
(** a loop that changes the entries from n on *)
Lemma negate_high p n m : (n + m <= length p)%nat ->
  exists p', for_down m (fun j p => do d <- get p (n + j); put p (n + j) (- d)) p = Some p' /\
    length p' = length p /\
    forall i, cf p' i = if (n <=? i)%nat && (i <? n + m)%nat then - cf p i else cf p i.
Proof.
  intros Hp.
  match goal with |- exists _, for_down m ?b p = _ /\ _ =>
    destruct (for_down_rule (fun k r => length r = length p /\ forall i,
       cf r i = if (n + k <=? i)%nat && (i <? n + m)%nat then - cf p i else cf p i) m b p) as (p' & E & L & C) end.
  - split; [reflexivity|]. intros i. destruct (Nat.leb_spec (n + m) i), (Nat.ltb_spec i (n + m)); try lia; reflexivity.
  - intros k r Hk [L C]. rewrite cf_get by lia.
    destruct (put_cf r (n + k) (- cf r (n + k))) as (r' & E & L' & C'); [lia|].
    exists r'. split; [exact E|]. split; [lia|]. intros i. rewrite C', !C.
    destruct (Nat.eqb_spec i (n + k)) as [->|D].
    + destruct (Nat.leb_spec (n + S k) (n + k)), (Nat.leb_spec (n + k) (n + k)), (Nat.ltb_spec (n + k) (n + m)); try lia; reflexivity.
    + destruct (Nat.leb_spec (n + S k) i), (Nat.leb_spec (n + k) i); try lia; reflexivity.
  - exists p'. split; [exact E|]. split; [exact L|]. intros i. rewrite C, Nat.add_0_r. reflexivity.
Qed.
Lemma subtract_from_correct p q :
  exists r, subtract_from p q = Some r /\ normal r /\ forall i, cf r i = cf (alias q p) i - cf p i.
Proof.
  unfold subtract_from. fold (grow p (length (alias q p))). set (n := length (alias q p)). set (g := grow p n).
  assert (Lg : length g = Nat.max (length p) n) by apply grow_length.
  destruct (negate_high g n (length g - n)) as (h & Eh & Lh & Ch); [lia|]. rewrite Eh.
  assert (Eq : forall i, cf (alias q h) i = cf (alias q p) i).
  { intros i. destruct q as [q|]; [reflexivity|]. cbn [alias] in *. subst n.
    rewrite Ch. replace (length g - length p)%nat with 0%nat by lia. rewrite Nat.add_0_r. unfold g.
    rewrite grow_cf. destruct (Nat.leb_spec (length p) i), (Nat.ltb_spec i (length p)); try lia; reflexivity. }
  assert (Lq : (n <= length (alias q h))%nat).
  { destruct q as [q|]; [reflexivity|]. cbn [alias] in *. lia. }
  destruct (pointwise (fun d s => s - d) q h n) as (r & E & L & C); [lia|exact Lq|].
  rewrite E. exists (adjustSize r). split; [reflexivity|]. split; [apply adjust_normal|].
  assert (Cg : forall i, cf g i = cf p i) by (intros; apply grow_cf).
  intros i. rewrite adjust_cf, C, Eq, Ch, Cg.
  destruct (Nat.ltb_spec i n) as [H|H].
  - destruct (Nat.leb_spec n i); [lia|]. reflexivity.
  - rewrite (cf_ge (alias q p)) by (fold n; lia).
    destruct (Nat.leb_spec n i); [|lia]. destruct (Nat.ltb_spec i (n + (length g - n))); cbn [andb]; [lia|].
    rewrite (cf_ge p) by lia. reflexivity.
Qed.
Lemma scale_correct p c : normal p ->
  exists r, scale p c = Some r /\ normal r /\ forall i, cf r i = c * cf p i.
Proof.
  intros Np. unfold scale. destruct (Z.eqb_spec c 0) as [->|Hc].
  - exists []. split; [reflexivity|]. split; [apply normal_nil|]. intros i. apply cf_nil.
  - destruct (for_down_rule (fun k r => length r = length p /\ forall i,
       cf r i = if (k <=? i)%nat then c * cf p i else cf p i) (length p)
       (fun j p => do d <- get p j; put p j (d * c)) p) as (r & E & L & C).
    + split; [reflexivity|]. intros i. destruct (Nat.leb_spec (length p) i); [rewrite cf_ge by lia; lia|reflexivity].
    + intros k r Hk [L C]. rewrite cf_get by lia. destruct (put_cf r k (cf r k * c)) as (r' & E & L' & C'); [lia|].
      exists r'. split; [exact E|]. split; [lia|]. intros i. rewrite C', !C.
      destruct (Nat.eqb_spec i k) as [->|D].
      * destruct (Nat.leb_spec (S k) k), (Nat.leb_spec k k); lia.
      * destruct (Nat.leb_spec (S k) i), (Nat.leb_spec k i); try lia; reflexivity.
    + exists r. split; [exact E|]. cbn in C. split; [|exact C]. apply normal_intro. intros H. rewrite L in *.
      rewrite C. pose proof (normal_lead p Np H). nia.
Qed.
Lemma plus_correct p q : normal p -> normal q ->
  exists r, plus p q = Some r /\ normal r /\ forall i, cf r i = cf p i + cf q i.
Proof.
  intros Np Nq. unfold plus. destruct (Nat.leb_spec (length q) (length p)).
  - apply (plus_assign_correct p (Some q) Np).
  - destruct (plus_assign_correct q (Some p) Nq) as (r & E & N & C). exists r. split; [exact E|]. split; [exact N|].
    intros i. rewrite C. cbn [alias]. lia.
Qed.
Lemma minus_correct p q : normal p -> normal q ->
  exists r, minus p q = Some r /\ normal r /\ forall i, cf r i = cf p i - cf q i.
Proof.
  intros Np Nq. unfold minus. destruct (Nat.leb_spec (length q) (length p)).
  - apply (minus_assign_correct p (Some q) Np).
  - destruct (scale_correct q (-1) Nq) as (n & E & N & C). rewrite E.
    destruct (plus_assign_correct n (Some p) N) as (r & E' & N' & C'). exists r. split; [exact E'|]. split; [exact N'|].
    intros i. rewrite C', C. cbn [alias]. lia.
Qed.
Lemma negate_correct p : normal p ->
  exists r, negate p = Some r /\ normal r /\ forall i, cf r i = - cf p i.
Proof.
  intros Np. destruct (scale_correct p (-1) Np) as (r & E & N & C). exists r. split; [exact E|]. split; [exact N|].
  intros i. rewrite C. lia.
Qed.

(** sums *)
Lemma sum_ext n f g : (forall i, (i < n)%nat -> f i = g i) -> sum n f = sum n g.
Proof.
  induction n as [|n IH]; intros H; [reflexivity|]. cbn [sum]. rewrite IH by (intros; apply H; lia). rewrite H by lia. reflexivity.
Qed.
Lemma sum_zero n f : (forall i, (i < n)%nat -> f i = 0) -> sum n f = 0.
Proof. induction n as [|n IH]; intros H; [reflexivity|]. cbn [sum]. rewrite IH, H by (intros; apply H; lia) || lia. lia. Qed.
Lemma sum_add n f g : sum n (fun i => f i + g i) = sum n f + sum n g.
Proof. induction n as [|n IH]; [reflexivity|]. cbn [sum]. rewrite IH. lia. Qed.
Lemma sum_split n m f : sum (n + m) f = sum n f + sum m (fun i => f (n + i)%nat).
Proof.
  induction m as [|m IH]; [rewrite Nat.add_0_r; cbn; lia|]. rewrite Nat.add_succ_r. cbn [sum]. rewrite IH. lia.
Qed.
Lemma sum_single n f k : (k < n)%nat -> (forall i, (i < n)%nat -> i <> k -> f i = 0) -> sum n f = f k.
Proof.
  intros Hk H. replace n with (S k + (n - S k))%nat by lia. rewrite sum_split. cbn [sum].
  rewrite (sum_zero k) by (intros; apply H; lia). rewrite sum_zero by (intros; apply H; lia). lia.
Qed.

(** the product *)
Definition from (j : nat) (p : nat -> Z) (i : nat) : Z := if (j <=? i)%nat then p i else 0.
Lemma conv_from_step p q j k :
  conv (from j p) q k = conv (from (S j) p) q k + (if (j <=? k)%nat then p j * q (k - j)%nat else 0).
Proof.
  unfold conv. destruct (Nat.leb_spec j k) as [H|H].
  - transitivity (sum (S k) (fun i => from (S j) p i * q (k - i)%nat + (if (i =? j)%nat then p j * q (k - j)%nat else 0))).
    + apply sum_ext. intros i Hi. unfold from. destruct (Nat.eqb_spec i j) as [->|D].
      * destruct (Nat.leb_spec j j), (Nat.leb_spec (S j) j); lia.
      * destruct (Nat.leb_spec j i), (Nat.leb_spec (S j) i); lia.
    + rewrite sum_add. f_equal. rewrite (sum_single _ _ j) by (try lia; intros i Hi D; destruct (Nat.eqb_spec i j); lia).
      rewrite Nat.eqb_refl. reflexivity.
  - rewrite Z.add_0_r. apply sum_ext. intros i Hi. unfold from. destruct (Nat.leb_spec j i), (Nat.leb_spec (S j) i); lia.
Qed.
Lemma mult_correct p q : normal p -> normal q ->
  exists r, mult p q = Some r /\ normal r /\ forall k, cf r k = conv (cf p) (cf q) k.
Proof.
  intros Np Nq. unfold mult. destruct (is_zero p) eqn:Zp; [|destruct (is_zero q) eqn:Zq].
  - apply is_zero_true in Zp. subst p. exists []. split; [reflexivity|]. split; [apply normal_nil|].
    intros k. rewrite cf_nil. symmetry. apply sum_zero. intros i _. rewrite cf_nil. lia.
  - apply is_zero_true in Zq. subst q. exists []. split; [reflexivity|]. split; [apply normal_nil|].
    intros k. rewrite cf_nil. symmetry. apply sum_zero. intros i _. rewrite cf_nil. lia.
  - cbn [orb]. apply is_zero_false in Zp, Zq.
    unfold monomial. set (n := (length p - 1 + (length q - 1))%nat).
    destruct (put_cf (repeat 0 (n + 1)) n 1) as (r1 & E1 & L1 & C1); [rewrite repeat_length; lia|]. rewrite E1.
    rewrite repeat_length in L1.
    destruct (put_cf r1 (length r1 - 1) 0) as (r2 & E2 & L2 & C2); [lia|]. rewrite E2.
    assert (Z2 : forall i, cf r2 i = 0).
    { intros i. rewrite C2, C1. replace (length r1 - 1)%nat with n by lia. destruct (i =? n)%nat; [reflexivity|apply cf_repeat]. }
    match goal with |- exists _, for_down (length p) ?b r2 = _ /\ _ =>
      destruct (for_down_rule (fun j r => length r = (n + 1)%nat /\ forall k, cf r k = conv (from j (cf p)) (cf q) k) (length p) b r2)
        as (r & E & L & C) end.
    + split; [lia|]. intros k. rewrite Z2. symmetry. apply sum_zero. intros i _. unfold from.
      destruct (Nat.leb_spec (length p) i); [rewrite cf_ge by lia|]; lia.
    + intros j r Hj [L C]. rewrite (cf_get p j) by lia.
      match goal with |- exists _, for_down (length q) ?b r = _ /\ _ =>
        destruct (for_down_rule (fun m s => length s = (n + 1)%nat /\ forall k, cf s k = cf r k +
            (if (j + m <=? k)%nat && (k <? j + length q)%nat then cf p j * cf q (k - j)%nat else 0)) (length q) b r)
          as (s & E & Ls & Cs) end.
      * split; [exact L|]. intros k. destruct (Nat.leb_spec (j + length q) k), (Nat.ltb_spec k (j + length q)); cbn; lia.
      * intros m s Hm [Ls Cs]. rewrite (cf_get q m), (cf_get s (m + j)) by lia.
        destruct (put_cf s (m + j) (cf s (m + j) + cf p j * cf q m)) as (s' & E & L' & C'); [lia|].
        exists s'. split; [exact E|]. split; [lia|]. intros k. rewrite C', !Cs.
        destruct (Nat.eqb_spec k (m + j)) as [->|D].
        -- destruct (Nat.leb_spec (j + S m) (m + j)), (Nat.leb_spec (j + m) (m + j)), (Nat.ltb_spec (m + j) (j + length q)); try lia.
           cbn [andb]. replace (m + j - j)%nat with m by lia. lia.
        -- destruct (Nat.leb_spec (j + S m) k), (Nat.leb_spec (j + m) k), (Nat.ltb_spec k (j + length q)); cbn [andb]; try lia.
      * exists s. split; [exact E|]. split; [exact Ls|]. intros k. rewrite Cs, C, (conv_from_step _ _ j), Nat.add_0_r. f_equal.
        destruct (Nat.leb_spec j k), (Nat.ltb_spec k (j + length q)); cbn [andb]; try reflexivity.
        rewrite (cf_ge q) by lia. lia.
    + exists r. split; [exact E|]. assert (C0 : forall k, cf r k = conv (cf p) (cf q) k) by (intros k; rewrite C; reflexivity).
      split; [|exact C0]. apply normal_intro. intros _. rewrite C0, L. unfold conv.
      rewrite (sum_single _ _ (length p - 1)%nat).
      * replace (n + 1 - 1 - (length p - 1))%nat with (length q - 1)%nat by lia.
        pose proof (normal_lead p Np Zp). pose proof (normal_lead q Nq Zq). apply Z.neq_mul_0. auto.
      * lia.
      * intros i Hi D. destruct (Nat.lt_ge_cases i (length p - 1)).
        -- rewrite (cf_ge q) by lia. lia.
        -- rewrite (cf_ge p) by lia. lia.
Qed.

Lemma constant_correct c : normal (constant c) /\ forall i, cf (constant c) i = if (i =? 0)%nat then c else 0.
Proof.
  unfold constant. destruct (Z.eqb_spec c 0) as [->|H]; split; try (intros [|i]; reflexivity).
  - apply normal_nil.
  - right. exact H.
  - intros [|[|i]]; reflexivity.
Qed.
Lemma monomial_correct d c : c <> 0 ->
  exists r, monomial d c = Some r /\ normal r /\ forall i, cf r i = if (i =? d)%nat then c else 0.
Proof.
  intros Hc. unfold monomial. destruct (put_cf (repeat 0 (d + 1)) d c) as (r & E & L & C); [rewrite repeat_length; lia|].
  rewrite repeat_length in L. exists r. split; [exact E|]. split.
  - apply normal_intro. intros _. rewrite C, L. replace (d + 1 - 1)%nat with d by lia. rewrite Nat.eqb_refl. exact Hc.
  - intros i. rewrite C, cf_repeat. reflexivity.
Qed.
Lemma shifted_correct d q : normal q -> normal (shifted d q) /\ forall i, cf (shifted d q) i = shift d (cf q) i.
Proof.
  intros Nq. unfold shifted. destruct (is_zero q) eqn:Z.
  - apply is_zero_true in Z. subst q. split; [apply normal_nil|]. intros i. unfold shift. rewrite !cf_nil. destruct (i <? d)%nat; reflexivity.
  - apply is_zero_false in Z.
    assert (C : forall i, cf (repeat 0 d ++ q) i = shift d (cf q) i).
    { intros i. rewrite cf_app, repeat_length, cf_repeat. reflexivity. }
    split; [|exact C]. apply normal_intro. intros _. rewrite C, app_length, repeat_length. unfold shift.
    destruct (Nat.ltb_spec (d + length q - 1) d); [lia|]. replace (d + length q - 1 - d)%nat with (length q - 1)%nat by lia.
    apply normal_lead; auto.
Qed.

(** division by a scalar *)
Lemma divide_correct p c : normal p ->
  match divide p c with
  | Done r => c <> 0 /\ normal r /\ forall i, cf p i = c * cf r i
  | Threw _ => c = 0 \/ exists i, ~ (c | cf p i)
  | Undefined => False
  end.
Proof.
  intros Np. unfold divide. destruct (Z.eqb_spec c 0) as [->|Hc]; [left; reflexivity|].
  match goal with |- match down ?n0 ?b p with _ => _ end => set (body := b);
    assert (A : forall n r, (n <= length p)%nat -> length r = length p ->
     (forall i, cf p i = if (n <=? i)%nat then c * cf r i else cf r i) ->
     match down n body r with
     | Done r => length r = length p /\ forall i, cf p i = c * cf r i
     | Threw _ => exists i, ~ (c | cf p i)
     | Undefined => False end) end.
  { induction n as [|n IH]; intros r Hn L C; [split; auto|]. cbn [down]. unfold body at 1. rewrite cf_get by lia.
    assert (Cn : cf p n = cf r n) by (rewrite C; destruct (Nat.leb_spec (S n) n); [lia|reflexivity]).
    destruct (Z.eqb_spec (Z.rem (cf r n) c) 0) as [E|E].
    - destruct (put_cf r n (cf r n ÷ c)) as (r' & E' & L' & C'); [lia|]. rewrite E'. apply IH; [lia|lia|].
      intros i. rewrite C'. destruct (Nat.eqb_spec i n) as [->|D].
      + rewrite Nat.leb_refl, Cn. apply Z.rem_divide in E; [|exact Hc]. destruct E as [x ->]. rewrite Z.quot_mul by exact Hc. lia.
      + rewrite C. destruct (Nat.leb_spec (S n) i), (Nat.leb_spec n i); try lia; reflexivity.
    - exists n. rewrite Cn. intros D. apply E. apply Z.rem_divide; assumption. }
  specialize (A (length p) p (le_n _) eq_refl). 
  destruct (down (length p) body p) as [r|r|].
  - destruct A as [L C].
    { intros i. destruct (Nat.leb_spec (length p) i); [rewrite cf_ge by lia; lia|reflexivity]. }
    split; [exact Hc|]. split; [|exact C]. apply normal_intro. intros H. rewrite L in *.
    pose proof (normal_lead p Np H). rewrite C in H0. nia.
  - right. apply A. intros i. destruct (Nat.leb_spec (length p) i); [rewrite cf_ge by lia; lia|reflexivity].
  - apply A. intros i. destruct (Nat.leb_spec (length p) i); [rewrite cf_ge by lia; lia|reflexivity].
Qed.
