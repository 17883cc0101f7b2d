(** Queries and iteration. *)

From Coq Require Import ZArith List Bool Lia.
From Verif Require Import BitsModel BitsSpec BitsProofs BitmapModel BitmapSpec BitmapBase BitmapOps BitmapRange.
Import ListNotations.
Open Scope Z_scope.

(** ** counting *)
Lemma count_ext P Q k : (forall i, 0 <= i < Z.of_nat k -> P i = Q i) -> count P k = count Q k.
Proof.
  induction k as [|k IH]; intros H; cbn [count]; [reflexivity|]. rewrite IH by (intros; apply H; lia).
  rewrite H by lia. reflexivity.
Qed.
Lemma count_plus P a b : count P (a + b) = count P a + count (fun i => P (Z.of_nat a + i)) b.
Proof.
  induction b as [|b IH]; [rewrite Nat.add_0_r; cbn [count]; lia|].
  rewrite Nat.add_succ_r. cbn [count]. rewrite IH, Nat2Z.inj_add. lia.
Qed.
Lemma count_false P k : (forall i, 0 <= i < Z.of_nat k -> P i = false) -> count P k = 0.
Proof.
  induction k as [|k IH]; intros H; cbn [count]; [reflexivity|]. rewrite IH by (intros; apply H; lia).
  rewrite H by lia. reflexivity.
Qed.
Lemma count_nonneg P k : 0 <= count P k.
Proof. induction k; cbn [count]; [lia|]. destruct (P _); lia. Qed.
Lemma count_le P k : count P k <= Z.of_nat k.
Proof. induction k; cbn [count]; [lia|]. destruct (P _); lia. Qed.
Lemma count_mono P a b : (a <= b)%nat -> count P a <= count P b.
Proof.
  intros H. replace b with (a + (b - a))%nat by lia. rewrite count_plus.
  pose proof (count_nonneg (fun i => P (Z.of_nat a + i)) (b - a)). lia.
Qed.
Lemma count_cut P a c : (forall i, Z.of_nat c <= i -> P i = false) -> (c <= a)%nat -> count P a = count P c.
Proof.
  intros H L. replace a with (c + (a - c))%nat by lia. rewrite count_plus.
  rewrite (count_false (fun i => P (Z.of_nat c + i))); [lia|]. intros. apply H. lia.
Qed.
Lemma bits_below_count v k : bits_below v k = count (Z.testbit v) k.
Proof. induction k; cbn [bits_below count]; congruence. Qed.
Lemma bitCount_count w : word w -> bitCount w = count (Z.testbit w) 64.
Proof. intros H. rewrite bitCount_correct by exact H. apply bits_below_count. Qed.

Lemma count_mb_cons w t k : count (mb (w :: t)) (64 + k) = count (Z.testbit w) 64 + count (mb t) k.
Proof.
  rewrite count_plus. apply f_equal2.
  - apply count_ext. intros i Hi. rewrite mb_cons by lia. rewrite (proj2 (Z.ltb_lt _ _)) by lia. reflexivity.
  - apply count_ext. intros i Hi. rewrite mb_cons by lia. rewrite (proj2 (Z.ltb_ge _ _)) by lia. f_equal. lia.
Qed.

(** ** size *)
Lemma size_fold m : forall c, Forall word m -> fold_left (fun c w => c + bitCount w) m c = c + count (mb m) (64 * length m).
Proof.
  induction m as [|w m IH]; intros c H; [cbn [fold_left length]; replace (64 * 0)%nat with 0%nat by lia; cbn [count]; lia|].
  inversion H; subst. cbn [fold_left length]. rewrite IH, bitCount_count by auto.
  replace (64 * S (length m))%nat with (64 + 64 * length m)%nat by lia. rewrite count_mb_cons. lia.
Qed.
Lemma count_words b : wf b -> count (mb (words b)) (64 * length (words b)) = count (isMember b) (Z.to_nat (cap b)).
Proof.
  intros W. pose proof W as (W1 & W2 & W3 & W4).
  rewrite (count_cut _ _ (Z.to_nat (cap b))).
  - apply count_ext. intros i Hi. rewrite isMember_wf by (auto; lia). reflexivity.
  - intros i Hi. rewrite <- raw_mb. apply W4. lia.
  - dm.
Qed.
Theorem size_correct b : wf b -> size b = count (isMember b) (Z.to_nat (cap b)).
Proof. intros W. unfold size. rewrite size_fold by apply W. rewrite count_words by exact W. lia. Qed.

(** ** position *)
Lemma pos_loop_spec m : Forall word m -> forall k j p, 0 <= j -> j + Z.of_nat k <= Z.of_nat (length m) ->
  pos_loop m j k p = Some (p + count (fun i => mb m (64 * j + i)) (64 * k)).
Proof.
  intros F. induction k as [|k IH]; intros j p Hj Hk; cbn [pos_loop].
  - f_equal. replace (64 * 0)%nat with 0%nat by lia. cbn [count]. lia.
  - rewrite wget_some by lia. rewrite IH by lia. f_equal.
    rewrite bitCount_count by (apply nth_word; auto).
    replace (64 * S k)%nat with (64 + 64 * k)%nat by lia. rewrite count_plus.
    rewrite <- Z.add_assoc. apply f_equal. apply f_equal2; apply count_ext.
    + intros i Hi. rewrite mb_nth by lia. reflexivity.
    + intros i Hi. f_equal. lia.
Qed.
Theorem position_correct b n : wf b -> 0 <= n <= cap b -> position b n = Some (count (isMember b) (Z.to_nat n)).
Proof.
  intros W Hn. pose proof W as (W1 & W2 & W3 & W4). unfold position, base, pos.
  rewrite pos_loop_spec by (auto; dm). rewrite Z.add_0_l.
  assert (E : count (fun i => mb (words b) (64 * 0 + i)) (64 * Z.to_nat (n / 64)) = count (isMember b) (64 * Z.to_nat (n / 64))).
  { apply count_ext. intros i Hi. rewrite isMember_wf by (auto; lia). f_equal. }
  rewrite E. destruct (Z.eqb_spec (n mod 64) 0) as [Z0|Z0].
  - repeat f_equal. dm.
  - rewrite wget_some by (split; [dm|rewrite W2; dm]). f_equal.
    assert (WL : word (lt_mask (n mod 64))) by (apply lt_mask_word; dm).
    rewrite bitCount_count by (apply land_word; [apply nth_word; auto|unfold word in WL; lia]).
    replace (Z.to_nat n) with (64 * Z.to_nat (n / 64) + Z.to_nat (n mod 64))%nat by dm.
    rewrite count_plus. apply f_equal.
    rewrite (count_cut _ 64 (Z.to_nat (n mod 64))).
    + apply count_ext. intros i Hi. rewrite Z.land_spec, lt_mask_testbit by lia.
      rewrite (proj2 (Z.ltb_lt _ _)) by dm. rewrite andb_true_r. rewrite raw_word by (auto; dm). f_equal. dm.
    + intros i Hi. rewrite Z.land_spec, lt_mask_testbit by dm. rewrite (proj2 (Z.ltb_ge _ _)) by dm. apply andb_false_r.
    + dm.
Qed.

(** ** n_th *)
Lemma land_pred f q : 0 < f -> 0 <= q -> Z.testbit f q = true -> (forall i, 0 <= i < q -> Z.testbit f i = false) ->
  forall i, 0 <= i -> Z.testbit (Z.land f (f - 1)) i = Z.testbit f i && negb (i =? q).
Proof.
  intros Hf Hq Tq Tl i Hi. rewrite Z.land_spec.
  destruct (Z.lt_trichotomy i q) as [L|[->|L]].
  - rewrite Tl by lia. reflexivity.
  - rewrite Z.eqb_refl, Tq. cbn [andb negb].
    assert (M : f mod 2 ^ q = 0).
    { apply Z.bits_inj'. intros j Hj. rewrite Z.bits_0. destruct (Z.lt_ge_cases j q).
      - rewrite Z.mod_pow2_bits_low by lia. apply Tl. lia.
      - apply Z.mod_pow2_bits_high. lia. }
    assert (P : 0 < 2 ^ q) by (apply Z.pow_pos_nonneg; lia).
    assert (E : (f - 1) / 2 ^ q = f / 2 ^ q - 1).
    { symmetry. apply Z.div_unique with (r := 2 ^ q - 1); [left; lia|].
      rewrite (Z.div_mod f (2 ^ q)) at 1 by lia. rewrite M. ring. }
    rewrite Z.testbit_odd, Z.shiftr_div_pow2 in * by lia. rewrite E, Z.odd_sub, Tq. reflexivity.
  - rewrite (proj2 (Z.eqb_neq i q)) by lia. cbn [negb]. rewrite andb_true_r.
    assert (P : 0 < 2 ^ (q + 1)) by (apply Z.pow_pos_nonneg; lia).
    assert (M : 0 < f mod 2 ^ (q + 1)).
    { pose proof (Z.mod_pos_bound f (2 ^ (q + 1)) P). destruct (Z.eq_dec (f mod 2 ^ (q + 1)) 0) as [Z0|]; [|lia].
      assert (X : Z.testbit (f mod 2 ^ (q + 1)) q = true) by (rewrite Z.mod_pow2_bits_low by lia; exact Tq).
      rewrite Z0, Z.bits_0 in X. discriminate. }
    assert (E : (f - 1) / 2 ^ (q + 1) = f / 2 ^ (q + 1)).
    { symmetry. apply Z.div_unique with (r := f mod 2 ^ (q + 1) - 1).
      - left. pose proof (Z.mod_pos_bound f (2 ^ (q + 1)) P). lia.
      - rewrite (Z.div_mod f (2 ^ (q + 1))) at 1 by lia. ring. }
    assert (X : Z.testbit (f - 1) i = Z.testbit f i).
    { replace i with (i - (q + 1) + (q + 1)) by lia. rewrite <- !Z.div_pow2_bits by lia. rewrite E. reflexivity. }
    rewrite X. apply andb_diag.
Qed.

Lemma count_one_less P q k : P q = true -> 0 <= q ->
  count (fun i => P i && negb (i =? q)) k = count P k - (if q <? Z.of_nat k then 1 else 0).
Proof.
  intros Pq Hq. induction k as [|k IH]; cbn [count].
  - rewrite (proj2 (Z.ltb_ge _ _)) by lia. reflexivity.
  - rewrite IH. destruct (Z.eqb_spec (Z.of_nat k) q) as [E|E].
    + rewrite E, Pq. cbn [negb andb]. rewrite (proj2 (Z.ltb_ge q q)) by lia. rewrite (proj2 (Z.ltb_lt _ _)) by lia. lia.
    + rewrite andb_true_r. destruct (Z.ltb_spec q (Z.of_nat k)), (Z.ltb_spec q (Z.of_nat (S k))); try lia.
Qed.

Lemma clear_low_spec k : forall f, word f -> Z.of_nat k < count (Z.testbit f) 64 ->
  exists q, firstBit (clear_low k f) = q /\ 0 <= q < 64 /\ Z.testbit f q = true /\ count (Z.testbit f) (Z.to_nat q) = Z.of_nat k.
Proof.
  induction k as [|k IH]; intros f W C; cbn [clear_low].
  - destruct (firstBit_correct f W) as [[-> _]|(N & R & T & L)].
    + rewrite count_false in C; [cbn in C; lia|]. intros; apply Z.bits_0.
    + exists (firstBit f). split; [reflexivity|]. split; [exact R|]. split; [exact T|].
      apply count_false. intros i Hi. apply L. lia.
  - destruct (firstBit_correct f W) as [[-> _]|(N & R & T & L)].
    { rewrite count_false in C; [lia|]. intros; apply Z.bits_0. }
    set (p := firstBit f) in *.
    assert (B : forall i, 0 <= i -> Z.testbit (Z.land f (f - 1)) i = Z.testbit f i && negb (i =? p)).
    { apply land_pred; auto; unfold word in W; lia. }
    assert (Cn : forall k, count (Z.testbit (Z.land f (f - 1))) k = count (Z.testbit f) k - (if p <? Z.of_nat k then 1 else 0)).
    { intros j. rewrite <- count_one_less by (auto; lia). apply count_ext. intros i Hi. apply B. lia. }
    assert (W' : word (Z.land f (f - 1))) by (apply land_word; auto; unfold word in W; lia).
    destruct (IH _ W') as (q & E & Rq & Tq & Cq).
    { rewrite Cn. rewrite (proj2 (Z.ltb_lt p (Z.of_nat 64))) by lia. lia. }
    exists q. rewrite B in Tq by lia. apply andb_true_iff in Tq as [Tq Nq].
    apply negb_true_iff, Z.eqb_neq in Nq. split; [exact E|]. split; [exact Rq|]. split; [exact Tq|].
    rewrite Cn in Cq. destruct (Z.ltb_spec p (Z.of_nat (Z.to_nat q))) as [G|G]; [lia|].
    rewrite L in Tq by lia. discriminate.
Qed.

Lemma nth_loop_spec m : forall i p c, 0 <= i -> Forall word m ->
  (i < count (mb m) (64 * length m) -> exists q, nth_loop m i p c = p + q /\
      0 <= q < 64 * Z.of_nat (length m) /\ mb m q = true /\ count (mb m) (Z.to_nat q) = i) /\
  (count (mb m) (64 * length m) <= i -> nth_loop m i p c = c).
Proof.
  induction m as [|w m IH]; intros i p c Hi F; cbn [nth_loop].
  - cbn [length]. replace (64 * 0)%nat with 0%nat by lia. cbn [count]. split; [lia|reflexivity].
  - inversion F as [|x y Hw Fm]; subst. cbn [length].
    replace (64 * S (length m))%nat with (64 + 64 * length m)%nat by lia. rewrite count_mb_cons.
    rewrite bitCount_count by exact Hw.
    pose proof (count_nonneg (mb m) (64 * length m)) as C0.
    destruct (Z.ltb_spec i (count (Z.testbit w) 64)) as [L|L].
    + split; [|lia]. intros _. destruct (clear_low_spec (Z.to_nat i) w Hw) as (q & E & R & T & C); [lia|].
      exists q. split; [rewrite E; reflexivity|]. split; [lia|].
      rewrite mb_cons by lia. rewrite (proj2 (Z.ltb_lt _ _)) by lia. split; [exact T|].
      rewrite Z2Nat.id in C by lia. rewrite <- C. apply count_ext. intros j Hj. rewrite mb_cons by lia.
      rewrite (proj2 (Z.ltb_lt _ _)) by lia. reflexivity.
    + destruct (IH (i - count (Z.testbit w) 64) (p + 64) c) as [H1 H2]; [lia|exact Fm|]. split.
      * intros H. destruct H1 as (q & E & R & T & C); [lia|]. exists (64 + q). split; [lia|]. split; [lia|].
        rewrite mb_cons by lia. rewrite (proj2 (Z.ltb_ge _ _)) by lia. replace (64 + q - 64) with q by lia.
        split; [exact T|]. replace (Z.to_nat (64 + q)) with (64 + Z.to_nat q)%nat by lia.
        rewrite count_mb_cons. lia.
      * intros H. apply H2. lia.
Qed.
Theorem n_th_correct b i : wf b -> 0 <= i ->
  (i < count (isMember b) (Z.to_nat (cap b)) ->
     0 <= n_th b i < cap b /\ isMember b (n_th b i) = true /\ count (isMember b) (Z.to_nat (n_th b i)) = i) /\
  (count (isMember b) (Z.to_nat (cap b)) <= i -> n_th b i = cap b).
Proof.
  intros W Hi. pose proof W as (W1 & W2 & W3 & W4). unfold n_th.
  destruct (nth_loop_spec (words b) i 0 (cap b) Hi W3) as [H1 H2]. rewrite count_words in H1, H2 by exact W.
  split; [|exact H2]. intros H. destruct (H1 H) as (q & E & R & T & C). rewrite Z.add_0_l in E. rewrite E.
  assert (M : isMember b q = true) by (rewrite isMember_wf by (auto; lia); exact T).
  split; [|split; [exact M|]].
  - split; [lia|]. destruct (Z.lt_ge_cases q (cap b)); [lia|]. rewrite isMember_beyond in M by lia. discriminate.
  - rewrite <- C. apply count_ext. intros j Hj. apply isMember_wf; [exact W|lia].
Qed.

(** ** front, empty, full *)
Lemma front_loop_spec m : forall bt c, Forall word m ->
  (exists q, front_loop m bt c = bt * 64 + q /\ 0 <= q < 64 * Z.of_nat (length m) /\ mb m q = true /\ forall i, 0 <= i < q -> mb m i = false)
  \/ (front_loop m bt c = c /\ forall i, 0 <= i -> mb m i = false).
Proof.
  induction m as [|w m IH]; intros bt c F; cbn [front_loop].
  - right. split; [reflexivity|]. intros. apply mb_nil.
  - inversion F as [|x y Hw Fm]; subst. destruct (Z.eqb_spec w 0) as [->|N].
    + destruct (IH (bt + 1) c Fm) as [(q & E & R & T & L)|[E L]].
      * left. exists (64 + q). cbn [length]. split; [lia|]. split; [lia|]. split.
        -- rewrite mb_cons by lia. rewrite (proj2 (Z.ltb_ge _ _)) by lia. replace (64 + q - 64) with q by lia. exact T.
        -- intros i Hi. rewrite mb_cons by lia. destruct (Z.ltb_spec i 64); [apply Z.bits_0|apply L; lia].
      * right. split; [exact E|]. intros i Hi. rewrite mb_cons by lia.
        destruct (Z.ltb_spec i 64); [apply Z.bits_0|apply L; lia].
    + left. destruct (firstBit_correct w Hw) as [[X _]|(_ & R & T & L)]; [contradiction|].
      exists (firstBit w). cbn [length]. split; [reflexivity|]. split; [lia|]. split.
      * rewrite mb_cons by lia. rewrite (proj2 (Z.ltb_lt _ _)) by lia. exact T.
      * intros i Hi. rewrite mb_cons by lia. rewrite (proj2 (Z.ltb_lt _ _)) by lia. apply L. lia.
Qed.
Theorem front_correct b : wf b -> first_from (isMember b) 0 (cap b) (front b).
Proof.
  intros W. pose proof W as (W1 & W2 & W3 & W4). unfold front, first_from.
  destruct (front_loop_spec (words b) 0 (cap b) W3) as [(q & E & R & T & L)|[E L]]; rewrite E.
  - cbn [Z.mul]. rewrite Z.add_0_l.
    assert (M : isMember b q = true) by (rewrite isMember_wf by (auto; lia); exact T).
    assert (q < cap b) by (destruct (Z.lt_ge_cases q (cap b)); [lia|]; rewrite isMember_beyond in M by lia; discriminate).
    split; [lia|]. split; [|auto]. intros i Hi. rewrite isMember_wf by (auto; lia). apply L. lia.
  - split; [lia|]. split; [|lia]. intros i Hi. rewrite isMember_wf by (auto; lia). apply L. lia.
Qed.
Theorem empty_correct b : wf b -> (empty b = true <-> forall n, 0 <= n -> isMember b n = false).
Proof.
  intros W. pose proof W as (W1 & W2 & W3 & W4). unfold empty. rewrite forallb_forall. split.
  - intros H n Hn. rewrite isMember_wf by auto. unfold mb.
    assert (E : nth (Z.to_nat (n / 64)) (words b) 0 = 0); [|rewrite E; apply Z.bits_0].
    destruct (Nat.lt_ge_cases (Z.to_nat (n / 64)) (length (words b))).
    + apply Z.eqb_eq, H, nth_In. auto.
    + apply nth_overflow. auto.
  - intros H w Hw. apply Z.eqb_eq. apply In_nth with (d := 0) in Hw as (j & Hj & <-).
    apply word_zero; [apply nth_word; auto|]. intros i Hi.
    specialize (H (64 * Z.of_nat j + i) ltac:(lia)). rewrite isMember_wf, mb_nth, Nat2Z.id in H by (auto; lia). exact H.
Qed.

Lemma last_nth (m : list Z) : List.last m 0 = nth (length m - 1) m 0.
Proof.
  induction m as [|w [|w' m] IH]; auto. change (List.last (w :: w' :: m) 0) with (List.last (w' :: m) 0).
  rewrite IH. cbn [length]. replace (S (S (length m)) - 1)%nat with (S (S (length m) - 1)) by lia. reflexivity.
Qed.
Theorem full_correct b : wf b -> (full b = true <-> forall n, 0 <= n < cap b -> isMember b n = true).
Proof.
  intros W. pose proof W as (W1 & W2 & W3 & W4). unfold full, base, pos.
  assert (WM : word (lt_mask (cap b mod 64))) by (apply lt_mask_word; dm).
  assert (Whole : forallb (fun w => not64 w =? 0) (firstn (Z.to_nat (cap b / 64)) (words b)) = true <->
    forall n, 0 <= n < 64 * (cap b / 64) -> isMember b n = true).
  { rewrite forallb_forall. split.
    - intros H n Hn. rewrite isMember_wf by (auto; lia).
      pose proof (mb_firstn (Z.to_nat (cap b / 64)) (words b) n ltac:(lia)) as M.
      rewrite (proj2 (Z.ltb_lt _ _)) in M by dm. cbn [andb] in M. rewrite <- M.
      unfold mb. set (m := firstn _ _) in *.
      assert (Lm : length m = Z.to_nat (cap b / 64)) by (unfold m; rewrite firstn_length; dm).
      assert (I : In (nth (Z.to_nat (n / 64)) m 0) m) by (apply nth_In; rewrite Lm; dm).
      specialize (H _ I). apply Z.eqb_eq in H.
      assert (Fm : Forall word m) by (apply Forall_firstn; auto).
      assert (X : Z.testbit (not64 (nth (Z.to_nat (n / 64)) m 0)) (n mod 64) = false) by (rewrite H; apply Z.bits_0).
      rewrite not64_testbit in X by (try apply nth_word; auto; dm).
      rewrite (proj2 (Z.ltb_lt _ _)) in X by dm. cbn [andb] in X. apply negb_false_iff in X. exact X.
    - intros H w Hw. apply Z.eqb_eq. apply In_nth with (d := 0) in Hw as (j & Hj & <-).
      assert (Fm : Forall word (firstn (Z.to_nat (cap b / 64)) (words b))) by (apply Forall_firstn; auto).
      rewrite firstn_length in Hj.
      apply word_zero; [apply not64_word, nth_word; auto|]. intros i Hi.
      rewrite not64_testbit by (try apply nth_word; auto; lia). rewrite (proj2 (Z.ltb_lt _ _)) by lia.
      cbn [andb]. apply negb_false_iff.
      specialize (H (64 * Z.of_nat j + i)). rewrite isMember_wf in H by (auto; lia).
      pose proof (mb_firstn (Z.to_nat (cap b / 64)) (words b) (64 * Z.of_nat j + i) ltac:(lia)) as M.
      rewrite (proj2 (Z.ltb_lt _ _)) in M by dm. cbn [andb] in M.
      rewrite <- M in H. rewrite mb_nth, Nat2Z.id in H by lia. apply H. dm. }
  destruct (Z.eqb_spec (cap b mod 64) 0) as [Z0|Z0]; cbn [negb andb].
  - rewrite Whole. replace (64 * (cap b / 64)) with (cap b) by dm. reflexivity.
  - assert (Last : List.last (words b) 0 = lt_mask (cap b mod 64) <->
      forall n, 64 * (cap b / 64) <= n < cap b -> isMember b n = true).
    { rewrite last_nth. replace (length (words b) - 1)%nat with (Z.to_nat (cap b / 64)) by dm. split.
      - intros E n Hn. rewrite isMember_wf by (auto; dm). unfold mb.
        replace (n / 64) with (cap b / 64) by dm. rewrite E, lt_mask_testbit by dm. apply Z.ltb_lt. dm.
      - intros H. apply word_ext; [apply nth_word; auto|auto|]. intros i Hi.
        rewrite raw_word by (auto; dm). rewrite lt_mask_testbit by lia.
        destruct (Z.ltb_spec i (cap b mod 64)); [apply H; dm|apply isMember_beyond; dm]. }
    destruct (Z.eqb_spec (List.last (words b) 0) (lt_mask (cap b mod 64))) as [E|E]; cbn [negb].
    + rewrite Whole. split; [|intros H n Hn; apply H; dm].
      intros H n Hn. destruct (Z.lt_ge_cases n (64 * (cap b / 64))); [apply H; lia|].
      apply (proj1 Last E). lia.
    + split; [discriminate|]. intros H. exfalso. apply E, Last. intros n Hn. apply H. dm.
Qed.

(** ** back_up *)
Lemma back_loop_spec m : forall i, (i <= length m)%nat -> Forall word m ->
  (exists j w, back_loop m i = Some (Some (j, w)) /\ (j < i)%nat /\ w = nth j m 0 /\ w <> 0 /\
     forall n, 64 * (Z.of_nat j + 1) <= n < 64 * Z.of_nat i -> mb m n = false)
  \/ (back_loop m i = Some None /\ forall n, 0 <= n < 64 * Z.of_nat i -> mb m n = false).
Proof.
  induction i as [|i IH]; intros L F; cbn [back_loop].
  - right. split; [reflexivity|]. intros; lia.
  - rewrite (nth_error_nth' m 0) by lia. destruct (Z.eqb_spec (nth i m 0) 0) as [E|E].
    + assert (Z0 : forall n, 64 * Z.of_nat i <= n < 64 * Z.of_nat (S i) -> mb m n = false).
      { intros n Hn. unfold mb. replace (Z.to_nat (n / 64)) with i by dm. rewrite E. apply Z.bits_0. }
      destruct (IH ltac:(lia) F) as [(j & w & E1 & Lj & Ew & Nw & H)|[E1 H]].
      * left. exists j, w. split; [exact E1|]. split; [lia|]. split; [exact Ew|]. split; [exact Nw|].
        intros n Hn. destruct (Z.lt_ge_cases n (64 * Z.of_nat i)); [apply H; lia|apply Z0; lia].
      * right. split; [exact E1|]. intros n Hn. destruct (Z.lt_ge_cases n (64 * Z.of_nat i)); [apply H; lia|apply Z0; lia].
    + left. exists i, (nth i m 0). split; [reflexivity|]. split; [lia|]. split; [reflexivity|]. split; [exact E|].
      intros n Hn. lia.
Qed.
Lemma lastBit_spec w : word w -> w <> 0 -> 0 < lastBit w <= 64 /\ Z.testbit w (lastBit w - 1) = true /\
  forall i, lastBit w <= i -> Z.testbit w i = false.
Proof.
  intros W N. assert (P : 0 < w) by (unfold word in W; lia).
  destruct (lastBit_correct w W) as [[E _]|[R _]]; [contradiction|]. split; [exact R|].
  rewrite lastBit_log2 by auto. replace (Z.log2 w + 1 - 1) with (Z.log2 w) by lia.
  split; [apply Z.bit_log2; lia|]. intros i Hi. apply Z.bits_above_log2; lia.
Qed.

Theorem back_up_correct b n : wf b -> cap b <= 2 ^ 32 -> 0 <= n <= cap b ->
  (exists r, back_up b n = Some (Some r) /\ 0 <= r < n /\ isMember b r = true /\ forall i, r < i < n -> isMember b i = false)
  \/ (back_up b n = Some None /\ forall i, 0 <= i < n -> isMember b i = false).
Proof.
  intros W C Hn. pose proof W as (W1 & W2 & W3 & W4). unfold back_up, base, pos.
  assert (I : w32 (n / 64) = n / 64) by (unfold w32; apply Z.mod_small; dm). rewrite I.
  set (res := fun i w => Some (Some (w32 (i * 64 + lastBit w - 1)))).
  (* a nonzero word found at index i, nothing above below n *)
  assert (Found : forall i w, 0 <= i < Z.of_nat (length (words b)) -> word w -> w <> 0 -> 64 * i < n ->
    (forall k, 0 <= k < 64 -> Z.testbit w k = true -> 64 * i + k < n) ->
    (forall k, 0 <= k < 64 -> 64 * i + k < n -> Z.testbit w k = mb (words b) (64 * i + k)) ->
    (forall k, 64 * (i + 1) <= k < n -> mb (words b) k = false) ->
    exists r, res i w = Some (Some r) /\ 0 <= r < n /\ isMember b r = true /\ forall k, r < k < n -> isMember b k = false).
  { intros i w Hi Hw Nw H1 H2 H3 H4. destruct (lastBit_spec w Hw Nw) as (R & T & A).
    exists (64 * i + (lastBit w - 1)). unfold res.
    pose proof (H2 (lastBit w - 1) ltac:(lia) T) as Lt. split; [do 2 f_equal; unfold w32; rewrite Z.mod_small; lia|].
    split; [lia|]. split.
    - rewrite isMember_wf by (auto; lia). rewrite <- H3 by lia. exact T.
    - intros k Hk. rewrite isMember_wf by (auto; lia). destruct (Z.lt_ge_cases k (64 * (i + 1))).
      + replace k with (64 * i + (k - 64 * i)) by lia. rewrite <- H3 by lia. apply A. lia.
      + apply H4. lia. }
  assert (Down : (forall k, 64 * (n / 64) <= k < n -> mb (words b) k = false) ->
    let d := match back_loop (words b) (Z.to_nat (n / 64)) with
             | None => None | Some None => Some None | Some (Some (j, w)) => res (Z.of_nat j) w end in
    (exists r, d = Some (Some r) /\ 0 <= r < n /\ isMember b r = true /\ forall i, r < i < n -> isMember b i = false)
    \/ (d = Some None /\ forall i, 0 <= i < n -> isMember b i = false)).
  { intros H. destruct (back_loop_spec (words b) (Z.to_nat (n / 64))) as [(j & w & E & Lj & Ew & Nw & G)|[E G]]; [dm|exact W3|..]; rewrite E.
    - left. apply Found; [dm|subst w; apply nth_word; auto|exact Nw|dm|intros; dm| |].
      + intros k Hk _. rewrite mb_nth by lia. rewrite Nat2Z.id, Ew. reflexivity.
      + intros k Hk. destruct (Z.lt_ge_cases k (64 * (n / 64))); [apply G; dm|apply H; lia].
    - right. split; [reflexivity|]. intros i Hi. rewrite isMember_wf by (auto; lia).
      destruct (Z.lt_ge_cases i (64 * (n / 64))); [apply G; dm|apply H; lia]. }
  destruct (Z.eqb_spec (n mod 64) 0) as [Z0|Z0].
  - apply Down. intros k Hk. dm.
  - rewrite wget_some by (split; [dm|rewrite W2; dm]).
    assert (WL : word (lt_mask (n mod 64))) by (apply lt_mask_word; dm).
    set (w := Z.land _ _).
    assert (Ww : word w) by (apply land_word; [apply nth_word; auto|unfold word in WL; lia]).
    assert (Tw : forall k, 0 <= k < 64 -> Z.testbit w k = mb (words b) (64 * (n / 64) + k) && (64 * (n / 64) + k <? n)).
    { intros k Hk. unfold w. rewrite Z.land_spec, lt_mask_testbit, mb_nth by dm. f_equal. cases; try reflexivity; dm. }
    destruct (Z.eqb_spec w 0) as [E|E].
    + apply Down. intros k Hk. specialize (Tw (k - 64 * (n / 64)) ltac:(dm)). rewrite E, Z.bits_0 in Tw.
      replace (64 * (n / 64) + (k - 64 * (n / 64))) with k in Tw by lia.
      rewrite (proj2 (Z.ltb_lt _ _)) in Tw by lia. rewrite andb_true_r in Tw. auto.
    + left. apply Found; [split; [dm|rewrite W2; dm]|exact Ww|exact E|dm| | |].
      * intros k Hk T. rewrite Tw in T by lia. apply andb_true_iff in T as [_ T]. apply Z.ltb_lt in T. exact T.
      * intros k Hk L. rewrite Tw by lia. rewrite (proj2 (Z.ltb_lt _ _)) by lia. apply andb_true_r.
      * intros k Hk. dm.
Qed.

Theorem last_correct b : wf b -> cap b <= 2 ^ 32 -> (exists n, 0 <= n /\ isMember b n = true) ->
  exists r, last b = Some r /\ 0 <= r < cap b /\ isMember b r = true /\ forall i, r < i -> isMember b i = false.
Proof.
  intros W C (n & Hn & M). unfold last.
  destruct (back_up_correct b (cap b) W C) as [(r & E & R & T & L)|[E L]]; [destruct W; lia|..]; rewrite E.
  - exists r. split; [reflexivity|]. split; [exact R|]. split; [exact T|]. intros i Hi.
    destruct (Z.lt_ge_cases i (cap b)); [apply L; lia|apply isMember_beyond; lia].
  - destruct (Z.lt_ge_cases n (cap b)); [rewrite L in M by lia|rewrite isMember_beyond in M by lia]; discriminate.
Qed.
(** The word index and the result pass through an unsigned int. *)
Lemma back_up_wraps k : Z.of_nat k = 2 ^ 26 ->
  let b := mkb (2 ^ 32 + 1) (repeat 0 k ++ [1]) in
  wf b /\ isMember b (2 ^ 32) = true /\ back_up b (2 ^ 32 + 1) = Some (Some 0).
Proof.
  intros K b.
  assert (Nk : nth k (repeat 0 k ++ [1]) 0 = 1).
  { rewrite app_nth2 by (rewrite repeat_length; lia). rewrite repeat_length, Nat.sub_diag. reflexivity. }
  split; [|split].
  - split; [cbn [cap b]; lia|]. split.
    { cbn [cap words b]. rewrite app_length, repeat_length. cbn [length]. change ((2 ^ 32 + 1 + 63) / 64) with (2 ^ 26 + 1). lia. }
    split.
    { cbn [words b]. apply Forall_app. split; [|constructor; [unfold word; lia|constructor]].
      apply Forall_forall. intros x Hx. apply repeat_spec in Hx. subst. unfold word; lia. }
    intros n Hn. cbn [cap b] in Hn. rewrite raw_mb. cbn [words b].
    rewrite mb_app by lia. rewrite repeat_length, K. rewrite (proj2 (Z.ltb_ge _ _)) by lia.
    rewrite mb_cons by lia. destruct (Z.ltb_spec (n - 64 * 2 ^ 26) 64).
    + assert (P : 0 < n - 64 * 2 ^ 26) by lia. destruct (n - 64 * 2 ^ 26); try lia. reflexivity.
    + apply mb_nil.
  - unfold isMember. cbn [cap words b]. rewrite (proj2 (Z.leb_gt _ _)) by lia.
    change (base (2 ^ 32)) with (2 ^ 26). rewrite <- K, Nat2Z.id, Nk. reflexivity.
  - unfold back_up. cbn [words b]. change (w32 (base (2 ^ 32 + 1))) with (2 ^ 26).
    change (pos (2 ^ 32 + 1) =? 0) with false. cbn beta iota.
    unfold wget. rewrite <- K, Nat2Z.id. rewrite (nth_error_nth' _ 0) by (rewrite app_length, repeat_length; cbn [length]; lia).
    rewrite Nk. change (Z.land 1 (lt_mask (pos (2 ^ 32 + 1)))) with 1. change (1 =? 0) with false. cbn beta iota.
    rewrite K. reflexivity.
Qed.

(** ** contains, disjoint, equality *)
Lemma contains_words_spec : forall b m, (length b <= length m)%nat -> Forall word m -> Forall word b ->
  exists r, contains_words m b = Some r /\ (r = true <-> forall n, 0 <= n -> mb b n = true -> mb m n = true).
Proof.
  induction b as [|y b IH]; intros m L Fm Fb.
  - exists true. split; [destruct m; reflexivity|]. split; [|reflexivity]. intros _ n Hn H. rewrite mb_nil in H. discriminate.
  - destruct m as [|x m]; [cbn in L; lia|]. inversion Fm as [|x' m' Hx Fm']; inversion Fb as [|y' b' Hy Fb']; subst.
    destruct (IH m ltac:(cbn in L; lia) Fm' Fb') as (r & E & H). cbn [contains_words].
    assert (Head : Z.land y (not64 x) = 0 <-> forall i, 0 <= i < 64 -> Z.testbit y i = true -> Z.testbit x i = true).
    { rewrite word_zero by (apply land_word; auto; apply not64_word; auto). split.
      - intros A i Hi T. specialize (A i Hi). rewrite Z.land_spec, not64_testbit, T in A by (auto; lia).
        rewrite (proj2 (Z.ltb_lt _ _)) in A by lia. cbn [andb] in A. apply negb_false_iff in A. exact A.
      - intros A i Hi. rewrite Z.land_spec, not64_testbit by (auto; lia). rewrite (proj2 (Z.ltb_lt _ _)) by lia.
        destruct (Z.testbit y i) eqn:T; [|reflexivity]. rewrite A by auto. reflexivity. }
    destruct (Z.eqb_spec (Z.land y (not64 x)) 0) as [Z0|Z0].
    + exists r. split; [exact E|]. rewrite H. split.
      * intros A n Hn. rewrite !mb_cons by lia. destruct (Z.ltb_spec n 64); [apply (proj1 Head Z0); lia|apply A; lia].
      * intros A n Hn T. specialize (A (n + 64) ltac:(lia)). rewrite !mb_cons in A by lia.
        rewrite (proj2 (Z.ltb_ge _ _)) in A by lia. replace (n + 64 - 64) with n in A by lia. auto.
    + exists false. split; [reflexivity|]. split; [discriminate|]. intros A. exfalso. apply Z0, Head.
      intros i Hi T. specialize (A i ltac:(lia)). rewrite !mb_cons in A by lia.
      rewrite (proj2 (Z.ltb_lt _ _)) in A by lia. auto.
Qed.
Theorem contains_correct a b : wf a -> wf b -> cap b <= cap a ->
  exists r, contains a b = Some r /\ (r = true <-> forall n, 0 <= n -> isMember b n = true -> isMember a n = true).
Proof.
  intros Wa Wb C. pose proof Wa as (A1 & A2 & A3 & A4). pose proof Wb as (B1 & B2 & B3 & B4).
  destruct (contains_words_spec (words b) (words a)) as (r & E & H); auto; [dm|].
  exists r. split; [exact E|]. rewrite H. split; intros X n Hn; specialize (X n Hn); rewrite !isMember_wf in * by auto; auto.
Qed.
Lemma disjoint_words_spec : forall m b, Forall word m -> Forall word b ->
  (disjoint_words m b = true <-> forall n, 0 <= n -> mb m n && mb b n = false).
Proof.
  induction m as [|x m IH]; intros b Fm Fb.
  - split; [|reflexivity]. intros _ n Hn. rewrite mb_nil. reflexivity.
  - destruct b as [|y b].
    { split; [|reflexivity]. intros _ n Hn. rewrite mb_nil. apply andb_false_r. }
    inversion Fm as [|x' m' Hx Fm']; inversion Fb as [|y' b' Hy Fb']; subst. cbn [disjoint_words].
    assert (Head : Z.land x y = 0 <-> forall i, 0 <= i < 64 -> Z.testbit x i && Z.testbit y i = false).
    { rewrite word_zero by (apply land_word; auto; unfold word in Hy; lia).
      split; intros A i Hi; specialize (A i Hi); rewrite ?Z.land_spec in *; exact A. }
    destruct (Z.eqb_spec (Z.land x y) 0) as [Z0|Z0].
    + rewrite IH by auto. split.
      * intros A n Hn. rewrite !mb_cons by lia. destruct (Z.ltb_spec n 64); [apply (proj1 Head Z0); lia|apply A; lia].
      * intros A n Hn. specialize (A (n + 64) ltac:(lia)). rewrite !mb_cons in A by lia.
        rewrite (proj2 (Z.ltb_ge _ _)) in A by lia. replace (n + 64 - 64) with n in A by lia. auto.
    + split; [discriminate|]. intros A. exfalso. apply Z0, Head. intros i Hi.
      specialize (A i ltac:(lia)). rewrite !mb_cons in A by lia. rewrite (proj2 (Z.ltb_lt _ _)) in A by lia. exact A.
Qed.
Theorem disjoint_correct a b : wf a -> wf b ->
  (disjoint a b = true <-> forall n, 0 <= n -> isMember a n && isMember b n = false).
Proof.
  intros Wa Wb. unfold disjoint. rewrite disjoint_words_spec by (apply Wa || apply Wb).
  split; intros X n Hn; specialize (X n Hn); rewrite !isMember_wf in * by auto; auto.
Qed.
Lemma words_eqb_eq : forall m b, words_eqb m b = true <-> m = b.
Proof.
  induction m as [|x m IH]; intros [|y b]; cbn [words_eqb]; try (split; [discriminate|discriminate]); [split; reflexivity|].
  rewrite andb_true_iff, Z.eqb_eq, IH. split; [intros [-> ->]; reflexivity|intros E; inversion E; auto].
Qed.
Theorem eqb_correct a b : wf a -> wf b -> cap a = cap b ->
  (bm_eqb a b = true <-> forall n, 0 <= n -> isMember a n = isMember b n).
Proof.
  intros Wa Wb C. pose proof Wa as (A1 & A2 & A3 & A4). pose proof Wb as (B1 & B2 & B3 & B4).
  unfold bm_eqb. rewrite words_eqb_eq. split.
  - intros E n Hn. rewrite !isMember_wf by auto. rewrite E. reflexivity.
  - intros H. apply mb_ext; auto; [apply Nat2Z.inj; congruence|]. intros n Hn.
    specialize (H n Hn). rewrite !isMember_wf in H by auto. exact H.
Qed.

(** ** iteration *)
Lemma inc_loop_spec b : wf b -> forall fuel ch, 0 <= ch -> ch < Z.of_nat (length (words b)) -> 
  Z.of_nat (length (words b)) - ch < Z.of_nat fuel ->
  exists i', inc_loop (words b) fuel ch (64 * ch) (cap b) = Some i' /\ icap i' = cap b /\
    first_from (isMember b) (Z.min (64 * (ch + 1)) (cap b)) (cap b) (addr i') /\ (addr i' < cap b -> chunk i' = addr i' / 64).
Proof.
  intros W. pose proof W as (W1 & W2 & W3 & W4). unfold first_from.
  induction fuel as [|fuel IH]; intros ch Hc Hl Hf; [lia|]. cbn [inc_loop].
  destruct (Z.ltb_spec (64 * ch + 64) (cap b)) as [L|L].
  - rewrite wget_some by dm. destruct (Z.eqb_spec (nth (Z.to_nat (ch + 1)) (words b) 0) 0) as [Z0|Z0].
    + replace (64 * ch + 64) with (64 * (ch + 1)) by lia.
      destruct (IH (ch + 1)) as (i' & E & Ci & (R & Lo & T) & Ch); [lia|dm|lia|].
      exists i'. split; [exact E|]. split; [exact Ci|]. split; [|exact Ch]. split; [lia|]. split; [|exact T].
      intros i Hi. destruct (Z.lt_ge_cases i (64 * (ch + 1 + 1))).
      * rewrite isMember_wf by (auto; lia). unfold mb. replace (Z.to_nat (i / 64)) with (Z.to_nat (ch + 1)) by dm.
        rewrite Z0. apply Z.bits_0.
      * apply Lo. lia.
    + destruct (firstBit_correct _ (nth_word (words b) (Z.to_nat (ch + 1)) W3)) as [[X _]|(_ & R & T & Lo)]; [contradiction|].
      set (f := nth (Z.to_nat (ch + 1)) (words b) 0) in *.
      eexists. split; [reflexivity|]. cbn [icap addr chunk]. split; [reflexivity|].
      assert (M : isMember b (64 * ch + 64 + firstBit f) = true).
      { rewrite isMember_wf by (auto; lia). replace (64 * ch + 64 + firstBit f) with (64 * (ch + 1) + firstBit f) by lia.
        rewrite mb_nth by lia. exact T. }
      assert (64 * ch + 64 + firstBit f < cap b).
      { destruct (Z.lt_ge_cases (64 * ch + 64 + firstBit f) (cap b)); [lia|]. rewrite isMember_beyond in M by lia. discriminate. }
      split; [|intros; dm]. split; [lia|]. split; [|auto].
      intros i Hi. rewrite isMember_wf by (auto; lia). replace i with (64 * (ch + 1) + (i - 64 * (ch + 1))) by lia.
      rewrite mb_nth by lia. apply Lo. lia.
  - eexists. split; [reflexivity|]. cbn [icap addr chunk]. split; [reflexivity|]. split; [|lia].
    split; [lia|]. split; [|lia]. intros i Hi. lia.
Qed.

Theorem it_next_correct b i : wf b -> icap i = cap b -> 0 <= addr i < cap b -> chunk i = addr i / 64 ->
  exists i', it_next (words b) i = Some i' /\ icap i' = cap b /\
    first_from (isMember b) (addr i + 1) (cap b) (addr i') /\ (addr i' < cap b -> chunk i' = addr i' / 64).
Proof.
  intros W Ic Ha Ec. pose proof W as (W1 & W2 & W3 & W4). unfold it_next, pos.
  rewrite wget_some by (rewrite Ec; apply wf_index; auto).
  set (w := nth (Z.to_nat (chunk i)) (words b) 0).
  assert (Ww : word w) by (apply nth_word; auto).
  assert (Wf : word (shr (shr w (addr i mod 64)) 1)) by (apply shr_word; [lia|apply shr_word; [dm|auto]]).
  assert (Tf : forall k, 0 <= k -> Z.testbit (shr (shr w (addr i mod 64)) 1) k = Z.testbit w (k + 1 + addr i mod 64)).
  { intros k Hk. rewrite !shr_testbit by dm. reflexivity. }
  assert (Tw : forall k, 0 <= k < 64 -> Z.testbit w k = isMember b (64 * (addr i / 64) + k)).
  { intros k Hk. unfold w. rewrite Ec. apply raw_word; auto; lia. }
  set (f := shr (shr w (addr i mod 64)) 1) in *. unfold first_from.
  destruct (Z.eqb_spec f 0) as [Z0|Z0].
  - replace (addr i - addr i mod 64) with (64 * chunk i) by (rewrite Ec; dm). rewrite Ic.
    pose proof (wf_index b (addr i) W Ha) as I0.
    destruct (inc_loop_spec b W (S (length (words b))) (chunk i)) as (i' & E & Ci & (R & Lo & T) & Ch); [lia|lia|lia|].
    exists i'. split; [exact E|]. split; [exact Ci|]. split; [|exact Ch]. split; [rewrite Ec in R; dm|].
    split; [|exact T]. intros k Hk. destruct (Z.lt_ge_cases k (Z.min (64 * (chunk i + 1)) (cap b))).
    + assert (Q : Z.testbit w (k - 64 * (addr i / 64)) = false).
      { replace (k - 64 * (addr i / 64)) with (k - addr i - 1 + 1 + addr i mod 64) by dm.
        rewrite <- Tf by lia. rewrite Z0. apply Z.bits_0. }
      rewrite Tw in Q by dm. replace (64 * (addr i / 64) + (k - 64 * (addr i / 64))) with k in Q by lia. exact Q.
    + apply Lo. lia.
  - destruct (firstBit_correct f Wf) as [[X _]|(_ & R & T & Lo)]; [contradiction|].
    eexists. split; [reflexivity|]. cbn [icap addr chunk]. split; [exact Ic|].
    rewrite Tf in T by lia.
    assert (B : firstBit f + 1 + addr i mod 64 < 64).
    { destruct (Z.lt_ge_cases (firstBit f + 1 + addr i mod 64) 64); [lia|]. rewrite word_testbit in T by (auto; lia). discriminate. }
    rewrite Tw in T by dm.
    replace (64 * (addr i / 64) + (firstBit f + 1 + addr i mod 64)) with (addr i + (firstBit f + 1)) in T by dm.
    assert (addr i + (firstBit f + 1) < cap b).
    { destruct (Z.lt_ge_cases (addr i + (firstBit f + 1)) (cap b)); [lia|]. rewrite isMember_beyond in T by lia. discriminate. }
    split; [|intros; rewrite Ec; dm]. split; [lia|]. split; [|auto].
    intros k Hk. specialize (Lo (k - addr i - 1) ltac:(lia)). rewrite Tf in Lo by lia. rewrite Tw in Lo by dm.
    replace (64 * (addr i / 64) + (k - addr i - 1 + 1 + addr i mod 64)) with k in Lo by dm. exact Lo.
Qed.

Lemma select_skip P : forall k lo a c, first_from P lo c a -> c = lo + Z.of_nat k ->
  select P lo k = if a <? c then a :: select P (a + 1) (Z.to_nat (c - a - 1)) else [].
Proof.
  unfold first_from. induction k as [|k IH]; intros lo a c (R & L & T) E.
  - rewrite (proj2 (Z.ltb_ge _ _)) by lia. reflexivity.
  - cbn [select]. destruct (Z.eq_dec a lo) as [->|N].
    + rewrite T by lia. rewrite (proj2 (Z.ltb_lt _ _)) by lia. do 2 f_equal. lia.
    + rewrite L by lia. apply IH; [|lia]. split; [lia|]. split; [intros; apply L; lia|exact T].
Qed.
Lemma select_ext P Q : forall k lo, (forall i, lo <= i -> P i = Q i) -> select P lo k = select Q lo k.
Proof.
  induction k as [|k IH]; intros lo H; cbn [select]; [reflexivity|].
  rewrite H by lia. rewrite (IH (lo + 1)) by (intros; apply H; lia). reflexivity.
Qed.

Lemma traverse_spec body : mild body -> forall fuel b i lo, wf b -> icap i = cap b -> 0 <= lo ->
  first_from (isMember b) lo (cap b) (addr i) -> (addr i < cap b -> chunk i = addr i / 64) ->
  cap b - addr i < Z.of_nat fuel ->
  exists b', traverse fuel body b i = Some (select (isMember b) lo (Z.to_nat (cap b - lo)), b') /\ wf b' /\ cap b' = cap b.
Proof.
  intros M. induction fuel as [|fuel IH]; intros b i lo W Ic H0 F Ec Hf; [destruct F; lia|].
  cbn [traverse]. unfold it_valid. rewrite Ic.
  assert (LE : lo <= cap b) by (destruct F; lia).
  rewrite (select_skip _ _ lo (addr i) (cap b) F) by lia.
  destruct (Z.eqb_spec (addr i) (cap b)) as [E|E]; cbn [negb].
  - rewrite (proj2 (Z.ltb_ge _ _)) by lia. exists b. auto.
  - assert (A : addr i < cap b) by (destruct F as [R _]; lia). rewrite (proj2 (Z.ltb_lt _ _)) by lia.
    assert (A0 : 0 <= addr i) by (destruct F as [R _]; lia).
    destruct (M (addr i) b W ltac:(lia)) as (W' & C' & E').
    destruct (it_next_correct (body (addr i) b) i W') as (i' & N & Ci & Fi & Ch); [congruence|lia|auto|].
    rewrite N. rewrite C' in *.
    destruct (IH (body (addr i) b) i' (addr i + 1) W') as (b' & T & Wb & Cb).
    + congruence.
    + lia.
    + rewrite C'. exact Fi.
    + rewrite C'. exact Ch.
    + rewrite C'. destruct Fi as [R _]. lia.
    + rewrite T, C'. exists b'. split; [|split; congruence]. do 2 f_equal. f_equal.
      replace (cap b - addr i - 1) with (cap b - (addr i + 1)) by lia. apply select_ext. intros n Hn. apply E'. lia.
Qed.
Theorem traverse_correct body b : mild body -> wf b ->
  exists b', traverse (S (Z.to_nat (cap b))) body b (bm_begin b) = Some (select (isMember b) 0 (Z.to_nat (cap b)), b')
    /\ wf b' /\ cap b' = cap b.
Proof.
  intros M W. pose proof (front_correct b W) as F.
  destruct (traverse_spec body M (S (Z.to_nat (cap b))) b (bm_begin b) 0 W) as (b' & E & X); auto; try lia.
  - destruct F as [R _]. cbn [bm_begin addr]. lia.
  - exists b'. rewrite Z.sub_0_r in E. auto.
Qed.
(** removing the current element is such a body *)
Lemma mild_remove : mild (fun a b => match remove b a with Some b' => b' | None => b end).
Proof.
  intros a b W H. destruct (remove_correct b a W H) as (b' & E & W' & C & M). rewrite E.
  split; [exact W'|]. split; [exact C|]. intros n Hn. rewrite M by lia. rewrite (proj2 (Z.eqb_neq _ _)) by lia. reflexivity.
Qed.
Lemma mild_nothing : mild (fun _ b => b).
Proof. intros a b W H. auto. Qed.

(** ** histories *)
Definition op_run (o : op) (b : bitmap) : option bitmap :=
  match o with
  | OInsert n => insert b n
  | ORemove n => remove b n
  | OFlip n => flip b n
  | OSetTo n v => set_to b n v
  | OInsertList l => insert_list b l
  | OAnd c => match bm_and b c with Some (r, _) => Some r | None => None end
  | OOr c => bm_or b c
  | OXor c => bm_xor b c
  | OAndNot c => bm_andnot b c
  | OComplement => Some (take_complement b)
  | OFill => Some (fill b)
  | OReset => Some (reset b)
  | OFillRange s e => fill_range b s e
  | OClearRange s e => clear_range b s e
  | OSetRange n r a => setRange b n r a
  | OSetCapacity n => set_capacity b n
  | OExtend v => extend_capacity b v
  end.
Fixpoint run (l : list op) (b : bitmap) : option bitmap :=
  match l with
  | [] => Some b
  | o :: t => match op_run o b with Some b' => run t b' | None => None end
  end.
Lemma op_run_correct o b : wf b -> op_legal o (cap b) ->
  gives (op_run o b) (fst (op_set o (cap b, isMember b))) (snd (op_set o (cap b, isMember b))).
Proof.
  intros W L. destruct o; cbn [op_run op_set op_legal fst snd] in *.
  - apply insert_correct; auto.
  - apply remove_correct; auto.
  - apply flip_correct; auto.
  - apply set_to_correct; auto.
  - apply insert_list_correct; auto.
  - destruct L as [L1 L2]. destruct (and_correct b b0 W L1 L2) as (r & any & E & G & _). rewrite E. exact G.
  - destruct L. apply or_correct; auto.
  - destruct L. apply xor_correct; auto.
  - destruct L. apply andnot_correct; auto.
  - apply complement_correct; auto.
  - apply fill_correct; auto.
  - apply reset_correct; auto.
  - destruct L. apply fill_range_correct; auto.
  - destruct L. apply clear_range_correct; auto.
  - apply setRange_correct; auto; lia.
  - apply set_capacity_correct; auto.
  - apply extend_capacity_correct; auto.
Qed.
Lemma op_set_ext o c P Q : (forall n, 0 <= n -> P n = Q n) ->
  fst (op_set o (c, P)) = fst (op_set o (c, Q)) /\
  forall n, 0 <= n -> snd (op_set o (c, P)) n = snd (op_set o (c, Q)) n.
Proof. intros H. destruct o; cbn [op_set fst snd]; (split; [reflexivity|]); intros i Hi; rewrite ?H by exact Hi; reflexivity. Qed.
Lemma history_ext l : forall c P Q, (forall n, 0 <= n -> P n = Q n) ->
  (legal_history l (c, P) -> legal_history l (c, Q)) /\
  fst (history_set l (c, P)) = fst (history_set l (c, Q)) /\
  forall n, 0 <= n -> snd (history_set l (c, P)) n = snd (history_set l (c, Q)) n.
Proof.
  unfold history_set. induction l as [|o l IH]; intros c P Q H.
  - cbn [legal_history fold_left fst snd]. auto.
  - cbn [legal_history fold_left fst]. destruct (op_set_ext o c P Q H) as [E1 E2].
    destruct (op_set o (c, P)) as [c1 P1], (op_set o (c, Q)) as [c2 Q1]. cbn [fst snd] in E1, E2. subst c2.
    destruct (IH c1 P1 Q1 E2) as (A & B & C). split; [intros [X Y]; auto|]. auto.
Qed.
Theorem run_correct l : forall b, wf b -> legal_history l (cap b, isMember b) ->
  gives (run l b) (fst (history_set l (cap b, isMember b))) (snd (history_set l (cap b, isMember b))).
Proof.
  induction l as [|o l IH]; intros b W L; cbn [run].
  - exists b. cbn. auto.
  - cbn [legal_history fst] in L. destruct L as [L1 L2].
    destruct (op_run_correct o b W L1) as (b' & E & W' & C & M). rewrite E.
    unfold history_set. cbn [fold_left]. fold (history_set l (op_set o (cap b, isMember b))).
    destruct (op_set o (cap b, isMember b)) as [c P] eqn:EO. cbn [fst snd] in C, M. subst c.
    assert (M' : forall n, 0 <= n -> P n = isMember b' n) by (intros; symmetry; auto).
    destruct (history_ext l (cap b') P (isMember b') M') as (A & B & D).
    destruct (IH b' W' (A L2)) as (r & Er & Wr & Cr & Mr).
    exists r. split; [exact Er|]. split; [exact Wr|]. split; [congruence|]. intros n Hn. rewrite Mr, D by exact Hn. reflexivity.
Qed.
