(** Ranges of bits, change of capacity, bit fields, shifts. *)

From Coq Require Import ZArith List Bool Lia.
From Verif Require Import BitsModel BitsSpec BitsProofs BitmapModel BitmapSpec BitmapBase BitmapOps.
Import ListNotations.
Open Scope Z_scope.

Lemma wmod_range_spec c whole : (forall w i, 0 <= i < 64 -> Z.testbit (whole w) i = c) ->
  (forall w, word (whole w)) ->
  forall k m i, 0 <= i -> i + Z.of_nat k <= Z.of_nat (length m) -> Forall word m ->
  exists m', wmod_range whole m i k = Some m' /\ length m' = length m /\ Forall word m' /\
    forall n, 0 <= n -> mb m' n = if (i <=? n / 64) && (n / 64 <? i + Z.of_nat k) then c else mb m n.
Proof.
  intros Hc Hw. induction k as [|k IH]; intros m i Hi Hk F; cbn [wmod_range].
  - exists m. split; [reflexivity|]. split; [reflexivity|]. split; [exact F|].
    intros n Hn. replace ((i <=? n / 64) && (n / 64 <? i + Z.of_nat 0)) with false; [reflexivity|].
    symmetry. apply andb_false_iff. rewrite Z.leb_gt, Z.ltb_ge. lia.
  - destruct (wmod_spec whole m i ltac:(lia)) as (m1 & E1 & L1 & F1 & B1). rewrite E1.
    destruct (IH m1 (i + 1)) as (m2 & E2 & L2 & F2 & B2); [lia|lia|apply F1; auto|].
    exists m2. split; [exact E2|]. split; [congruence|]. split; [exact F2|].
    intros n Hn. rewrite B2, B1 by exact Hn. rewrite Hc by dm. rewrite Nat2Z.inj_succ.
    cases; cbn [andb]; try reflexivity; lia.
Qed.

Lemma range_op_gives c one head whole b start stop : wf b ->
  (forall w i, 0 <= i < 64 -> Z.testbit (whole w) i = c) -> (forall w, word (whole w)) ->
  (forall w k, word w -> word k -> word (one w k)) ->
  (forall w k, word w -> word k -> word (head w k)) ->
  (forall w k i, word w -> word k -> 0 <= i < 64 -> Z.testbit (one w k) i = if Z.testbit k i then c else Z.testbit w i) ->
  (forall w k i, word w -> word k -> 0 <= i < 64 -> Z.testbit (head w k) i = if Z.testbit k i then Z.testbit w i else c) ->
  0 <= start -> stop <= cap b ->
  gives (range_op one head whole b start stop) (cap b)
    (fun i => if (start <=? i) && (i <? stop) then c else isMember b i).
Proof.
  intros W Hc Hw Wo Wh Ho Hh H0 H1. pose proof W as (W1 & W2 & W3 & W4). unfold range_op.
  destruct (Z.leb_spec stop start) as [H|H].
  - exists b. split; [reflexivity|]. split; [exact W|]. split; [reflexivity|].
    intros n Hn. replace ((start <=? n) && (n <? stop)) with false; [reflexivity|].
    symmetry. apply andb_false_iff. rewrite Z.leb_gt, Z.ltb_ge. lia.
  - assert (HB : forall i, cap b <= i -> (if (start <=? i) && (i <? stop) then c else isMember b i) = false).
    { intros i Hi. rewrite (proj2 (Z.ltb_ge _ _)) by lia. rewrite andb_false_r. apply isMember_beyond, Hi. }
    unfold base, pos. destruct (Z.eqb_spec (start / 64) (stop / 64)) as [E|E].
    + apply wmod_gives; auto; [lia|..].
      * intros w Hw'. apply Wo; auto. apply shl_word.
      * intros w i Hw' Hi ->. rewrite Ho by (auto using shl_word).
        rewrite shl_testbit by (auto; dm). rewrite raw_word by auto.
        destruct (Z.leb_spec (start mod 64) i).
        -- rewrite lt_mask_testbit by lia. rewrite (proj2 (Z.ltb_lt i 64)) by lia.
           rewrite (proj2 (Z.leb_le start _)) by dm. cbn [andb].
           destruct (Z.ltb_spec (i - start mod 64) (stop - start)), (Z.ltb_spec (64 * (start / 64) + i) stop); try reflexivity; dm.
        -- rewrite (proj2 (Z.leb_gt start _)) by dm. reflexivity.
      * intros i Hi Hd. replace ((start <=? i) && (i <? stop)) with false; [reflexivity|].
        symmetry. apply andb_false_iff. rewrite Z.leb_gt, Z.ltb_ge. dm.
    + pose proof (wf_index b start W ltac:(lia)) as I0.
      destruct (wmod_spec (fun w => head w (lt_mask (start mod 64))) (words b) (start / 64) I0) as (m1 & E1 & L1 & F1 & B1).
      rewrite E1. specialize (F1 W3 ltac:(intros; apply Wh; auto; apply lt_mask_word; dm)).
      destruct (wmod_range_spec c whole Hc Hw (Z.to_nat (stop / 64 - (start / 64 + 1))) m1 (start / 64 + 1))
        as (m2 & E2 & L2 & F2 & B2); [dm|rewrite L1; dm|exact F1|].
      rewrite E2.
      assert (WL : word (lt_mask (start mod 64))) by (apply lt_mask_word; dm).
      assert (X2 : forall n, 0 <= n -> mb m2 n = if (start <=? n) && (n / 64 <? stop / 64) then c else isMember b n).
      { intros n Hn. rewrite B2, B1 by exact Hn. rewrite Z2Nat.id by dm.
        replace (start / 64 + 1 + (stop / 64 - (start / 64 + 1))) with (stop / 64) by lia.
        destruct (Z.eqb_spec (n / 64) (start / 64)) as [En|En].
        - rewrite (proj2 (Z.leb_gt _ _)) by lia. cbn [andb]. rewrite Hh by (auto; try apply nth_word; auto; dm).
          rewrite lt_mask_testbit by dm. rewrite (proj2 (Z.ltb_lt (n / 64) _)) by dm. rewrite andb_true_r.
          rewrite raw_word by (auto; dm). replace (64 * (start / 64) + n mod 64) with n by dm.
          destruct (Z.ltb_spec (n mod 64) (start mod 64)), (Z.leb_spec start n); try reflexivity; dm.
        - rewrite <- isMember_wf by auto.
          replace (start / 64 + 1 <=? n / 64) with (start <=? n); [reflexivity|].
          destruct (Z.leb_spec start n), (Z.leb_spec (start / 64 + 1) (n / 64)); try reflexivity; dm. }
      destruct (Z.eqb_spec (stop mod 64) 0) as [Z0|Z0].
      * cbn [on_map]. apply gives_intro; auto; [congruence|].
        intros n Hn. rewrite X2 by exact Hn.
        replace (n / 64 <? stop / 64) with (n <? stop); [reflexivity|].
        destruct (Z.ltb_spec n stop), (Z.ltb_spec (n / 64) (stop / 64)); try reflexivity; dm.
      * destruct (wmod_spec (fun w => one w (lt_mask (stop mod 64))) m2 (stop / 64)) as (m3 & E3 & L3 & F3 & B3).
        { rewrite L2, L1. dm. }
        rewrite E3. cbn [on_map].
        assert (WS : word (lt_mask (stop mod 64))) by (apply lt_mask_word; dm).
        apply gives_intro; auto; [congruence|].
        intros n Hn. rewrite B3 by exact Hn. destruct (Z.eqb_spec (n / 64) (stop / 64)) as [En|En].
        -- rewrite Ho by (auto; try apply nth_word; auto; dm). rewrite lt_mask_testbit by dm.
           replace (Z.testbit (nth (Z.to_nat (stop / 64)) m2 0) (n mod 64)) with (mb m2 n) by (unfold mb; rewrite En; reflexivity).
           rewrite X2 by exact Hn. rewrite (proj2 (Z.ltb_ge (n / 64) (stop / 64))) by lia. rewrite andb_false_r.
           rewrite (proj2 (Z.leb_le start n)) by dm. cbn [andb].
           destruct (Z.ltb_spec (n mod 64) (stop mod 64)), (Z.ltb_spec n stop); try reflexivity; dm.
        -- rewrite X2 by exact Hn.
           replace (n / 64 <? stop / 64) with (n <? stop); [reflexivity|].
           destruct (Z.ltb_spec n stop), (Z.ltb_spec (n / 64) (stop / 64)); try reflexivity; dm.
Qed.

Theorem fill_range_correct b start stop : wf b -> 0 <= start -> stop <= cap b ->
  gives (fill_range b start stop) (cap b) (fun i => (start <=? i) && (i <? stop) || isMember b i).
Proof.
  intros W H0 H1. eapply gives_ext; [apply (range_op_gives true); auto|].
  - intros _ i Hi. rewrite not64_testbit, Z.bits_0 by (try apply word_0; lia). rewrite (proj2 (Z.ltb_lt _ _)) by lia. reflexivity.
  - intros _. apply not64_word, word_0.
  - apply lor_word.
  - intros w k Hw Hk. apply lor_word; auto. apply not64_word; auto.
  - intros w k i Hw Hk Hi. rewrite Z.lor_spec. destruct (Z.testbit k i); [apply orb_true_r|apply orb_false_r].
  - intros w k i Hw Hk Hi. rewrite Z.lor_spec, not64_testbit by (auto; lia). rewrite (proj2 (Z.ltb_lt _ _)) by lia.
    destruct (Z.testbit k i); [apply orb_false_r|apply orb_true_r].
  - intros n Hn. cbv beta. destruct ((start <=? n) && (n <? stop)); reflexivity.
Qed.
Theorem clear_range_correct b start stop : wf b -> 0 <= start -> stop <= cap b ->
  gives (clear_range b start stop) (cap b) (fun i => negb ((start <=? i) && (i <? stop)) && isMember b i).
Proof.
  intros W H0 H1. eapply gives_ext; [apply (range_op_gives false); auto|].
  - intros _ i Hi. apply Z.bits_0.
  - intros _. apply word_0.
  - intros w k Hw Hk. apply land_word; auto. apply not64_word; auto.
  - intros w k Hw Hk. apply land_word; auto. unfold word in Hk; lia.
  - intros w k i Hw Hk Hi. rewrite Z.land_spec, not64_testbit by (auto; lia). rewrite (proj2 (Z.ltb_lt _ _)) by lia.
    destruct (Z.testbit k i); [apply andb_false_r|apply andb_true_r].
  - intros w k i Hw Hk Hi. rewrite Z.land_spec. destruct (Z.testbit k i); [apply andb_true_r|apply andb_false_r].
  - intros n Hn. cbv beta. destruct ((start <=? n) && (n <? stop)); reflexivity.
Qed.

(** ** capacity *)
Lemma mb_firstn k m n : 0 <= n -> mb (firstn k m) n = (n <? 64 * Z.of_nat k) && mb m n.
Proof.
  intros Hn. unfold mb. destruct (Z.ltb_spec n (64 * Z.of_nat k)); cbn [andb].
  - f_equal. assert (L : (Z.to_nat (n / 64) < k)%nat) by dm. revert L. generalize (Z.to_nat (n / 64)).
    clear H. revert m. induction k as [|k IH]; intros m j L; [lia|]. destruct m, j; cbn; auto. apply IH. lia.
  - rewrite nth_overflow; [apply Z.bits_0|]. rewrite firstn_length. dm.
Qed.
Lemma mb_resize m k n : 0 <= n -> mb (resize m k) n = (n <? 64 * Z.of_nat k) && mb m n.
Proof.
  intros Hn. unfold resize. rewrite mb_app by exact Hn. rewrite mb_repeat0, mb_firstn by exact Hn. rewrite firstn_length.
  destruct (Z.ltb_spec n (64 * Z.of_nat (Nat.min k (length m)))); [reflexivity|].
  destruct (Z.ltb_spec n (64 * Z.of_nat k)); [|reflexivity]. rewrite mb_beyond by lia. reflexivity.
Qed.
Lemma resize_length m k : length (resize m k) = k.
Proof. unfold resize. rewrite app_length, firstn_length, repeat_length. lia. Qed.
Lemma Forall_firstn (P : Z -> Prop) k m : Forall P m -> Forall P (firstn k m).
Proof. intros H. revert k. induction H; intros [|k]; cbn; constructor; auto. Qed.
Lemma resize_Forall m k : Forall word m -> Forall word (resize m k).
Proof.
  intros H. unfold resize. apply Forall_app. split; [apply Forall_firstn, H|].
  apply Forall_forall. intros x Hx. apply repeat_spec in Hx. subst. apply word_0.
Qed.

Theorem set_capacity_correct b n : wf b -> 0 <= n ->
  gives (set_capacity b n) n (fun i => (i <? n) && isMember b i).
Proof.
  intros W Hn. pose proof W as (W1 & W2 & W3 & W4). unfold set_capacity, base, pos.
  assert (NW : Z.of_nat (n_words n) = (n + 63) / 64) by (unfold n_words; dm).
  destruct (Z.ltb_spec n (cap b)) as [L|L]; cbn [andb]; [destruct (Z.eqb_spec (n mod 64) 0) as [E|E]; cbn [negb]|].
  - apply gives_intro; auto.
    + rewrite resize_length. auto.
    + apply resize_Forall; auto.
    + intros i Hi. rewrite mb_resize, isMember_wf by auto. f_equal. cases; try reflexivity; dm.
    + intros i Hi. rewrite (proj2 (Z.ltb_ge _ _)) by lia. reflexivity.
  - destruct (wmod_spec (fun w => Z.land w (lt_mask (n mod 64))) (words b) (n / 64)) as (m & Em & Lm & Fm & Bm).
    { apply wf_index; auto. }
    rewrite Em.
    assert (WM : word (lt_mask (n mod 64))) by (apply lt_mask_word; dm).
    apply gives_intro; auto.
    + rewrite resize_length. auto.
    + apply resize_Forall, Fm; auto. intros w Hw. apply land_word; auto. unfold word in WM; lia.
    + intros i Hi. rewrite mb_resize, Bm by auto. rewrite Z.land_spec, lt_mask_testbit by dm.
      destruct (Z.eqb_spec (i / 64) (n / 64)) as [Ei|Ei].
      * rewrite raw_word by (auto; dm). replace (64 * (n / 64) + i mod 64) with i by dm.
        rewrite (andb_comm (isMember b i)), andb_assoc. f_equal. cases; try reflexivity; dm.
      * rewrite <- isMember_wf by auto. f_equal. cases; try reflexivity; dm.
    + intros i Hi. rewrite (proj2 (Z.ltb_ge _ _)) by lia. reflexivity.
  - apply gives_intro; auto.
    + rewrite resize_length. auto.
    + apply resize_Forall; auto.
    + intros i Hi. rewrite mb_resize, <- isMember_wf by auto. rewrite NW.
      destruct (Z.ltb_spec i n); [rewrite (proj2 (Z.ltb_lt _ _)) by dm; reflexivity|].
      cbn [andb]. rewrite isMember_beyond by lia. apply andb_false_r.
    + intros i Hi. rewrite (proj2 (Z.ltb_ge _ _)) by lia. reflexivity.
Qed.

Theorem extend_capacity_correct b v : wf b ->
  gives (extend_capacity b v) (cap b + 1) (fun i => if i =? cap b then v else isMember b i).
Proof.
  intros W. pose proof W as (W1 & W2 & W3 & W4). unfold extend_capacity.
  set (m := if _ =? _ then _ else _).
  assert (X : wf (mkb (cap b + 1) m) /\ forall n, 0 <= n -> isMember (mkb (cap b + 1) m) n = isMember b n).
  { assert (B : forall n, 0 <= n -> mb m n = mb (words b) n).
    { intros n Hn. unfold m. destruct (_ =? _); [|reflexivity]. rewrite mb_app by lia.
      destruct (Z.ltb_spec n (64 * Z.of_nat (length (words b)))); [reflexivity|].
      rewrite (mb_beyond (words b)) by lia. apply (mb_repeat0 1). }
    assert (X : gives (Some (mkb (cap b + 1) m)) (cap b + 1) (isMember b)).
    { apply gives_intro; [lia|..].
      - unfold m. destruct (Z.eqb_spec (cap b) (Z.of_nat (length (words b)) * 64)).
        + rewrite app_length. cbn [length]. dm.
        + dm.
      - unfold m. destruct (_ =? _); [apply Forall_app; split; auto; constructor; [apply word_0|constructor]|exact W3].
      - intros n Hn. rewrite B, isMember_wf by auto. reflexivity.
      - intros n Hn. apply isMember_beyond. lia. }
    destruct X as (b' & E & A & _ & C). inversion E; subst b'. auto. }
  destruct X as [X1 X2].
  eapply gives_ext; [apply (set_to_correct (mkb (cap b + 1) m) (cap b) v); [exact X1|cbn [cap]; lia]|].
  intros n Hn. cbv beta. rewrite X2 by auto. reflexivity.
Qed.

(** ** bit fields *)
Theorem setRange_correct b n r a : wf b -> 0 <= n -> 0 <= r -> 0 <= a -> n mod 64 + r <= 64 -> n + r <= cap b -> n < cap b ->
  gives (setRange b n r a) (cap b) (fun i => if (n <=? i) && (i <? n + r) then Z.testbit a (i - n) else isMember b i).
Proof.
  intros W H0 H1 Ha H2 H3 H4. unfold setRange, pos.
  assert (WL : word (lt_mask r)) by (apply lt_mask_word; dm).
  apply wmod_gives; auto.
  - intros w Hw. apply lor_word; [|apply shl_word]. apply land_word; auto.
    apply not64_word, shl_word.
  - intros w i Hw Hi ->. rewrite Z.lor_spec, Z.land_spec, not64_testbit by (auto using shl_word; lia).
    rewrite !shl_testbit by dm. rewrite (proj2 (Z.ltb_lt i 64)) by lia. rewrite raw_word by auto.
    destruct (Z.leb_spec (n mod 64) i).
    + rewrite Z.land_spec, lt_mask_testbit by lia. rewrite (proj2 (Z.leb_le n _)) by dm. cbn [andb].
      destruct (Z.ltb_spec (i - n mod 64) r), (Z.ltb_spec (64 * (n / 64) + i) (n + r)); try dm; cbn [negb andb].
      * rewrite andb_false_r, andb_true_r. cbn [orb]. f_equal. dm.
      * rewrite andb_true_r, andb_false_r. apply orb_false_r.
    + rewrite (proj2 (Z.leb_gt n _)) by dm. cbn [andb negb]. rewrite andb_true_r. apply orb_false_r.
  - intros i Hi Hd. replace ((n <=? i) && (i <? n + r)) with false; [reflexivity|].
    symmetry. apply andb_false_iff. rewrite Z.leb_gt, Z.ltb_ge. dm.
  - intros i Hi. rewrite (proj2 (Z.ltb_ge _ _)) by lia. rewrite andb_false_r. apply isMember_beyond, Hi.
Qed.
Theorem range_correct b n r : wf b -> 0 <= n < cap b -> 0 <= r -> n mod 64 + r <= 64 ->
  exists v, range b n r = Some v /\ 0 <= v < 2 ^ r /\ forall i, 0 <= i < r -> Z.testbit v i = isMember b (n + i).
Proof.
  intros W H0 H1 H2. pose proof W as (W1 & W2 & W3 & W4). unfold range, base, pos.
  rewrite wget_some by (apply wf_index; auto). eexists. split; [reflexivity|].
  assert (B : forall i, 0 <= i -> Z.testbit (Z.land (shr (nth (Z.to_nat (n / 64)) (words b) 0) (n mod 64)) (lt_mask r)) i
     = (i <? r) && Z.testbit (nth (Z.to_nat (n / 64)) (words b) 0) (i + n mod 64)).
  { intros i Hi. rewrite Z.land_spec, shr_testbit, lt_mask_testbit by dm. apply andb_comm. }
  assert (N0 : 0 <= Z.land (shr (nth (Z.to_nat (n / 64)) (words b) 0) (n mod 64)) (lt_mask r)).
  { apply Z.land_nonneg. right. apply lt_mask_word. dm. }
  split; [split; [exact N0|]|].
  - set (v := Z.land _ _) in *. destruct (Z.eq_dec v 0) as [->|Nv]; [apply Z.pow_pos_nonneg; lia|].
    apply Z.log2_lt_pow2; [lia|]. destruct (Z.lt_ge_cases (Z.log2 v) r) as [L|L]; [exact L|].
    specialize (B (Z.log2 v) (Z.log2_nonneg v)). rewrite Z.bit_log2 in B by lia.
    rewrite (proj2 (Z.ltb_ge _ _)) in B by lia. discriminate.
  - intros i Hi. rewrite B by lia. rewrite (proj2 (Z.ltb_lt _ _)) by lia. cbn [andb].
    rewrite raw_word by (auto; dm). f_equal. dm.
Qed.
(** fields that reach past the capacity are padded with zeros: same statement, since
    isMember is false there *)

(** ** shifts *)
Lemma shl_bits_nth r : forall m prev j, (j < length m)%nat ->
  nth j (shl_bits r prev m) 0 = Z.lor (shl (nth j m 0) r) (shr (nth j (prev :: m) 0) (64 - r)).
Proof.
  induction m as [|w m IH]; intros prev j H; [cbn in H; lia|]. destruct j; [reflexivity|].
  cbn [shl_bits nth]. rewrite IH by (cbn in H; lia). reflexivity.
Qed.
Lemma shl_bits_length r : forall m prev, length (shl_bits r prev m) = length m.
Proof. induction m; intros; cbn; auto. Qed.
Lemma shl_all_length r m : length (shl_all r m) = length m.
Proof. destruct m; cbn; [reflexivity|]. rewrite shl_bits_length. reflexivity. Qed.
Lemma shl_all_mb r m n : 0 < r < 64 -> Forall word m -> 0 <= n ->
  mb (shl_all r m) n = (r <=? n) && (n <? 64 * Z.of_nat (length m)) && mb m (n - r).
Proof.
  intros Hr F Hn. destruct (Z.ltb_spec n (64 * Z.of_nat (length m))) as [L|L].
  2:{ rewrite mb_beyond by (rewrite shl_all_length; lia). rewrite andb_false_r. reflexivity. }
  rewrite andb_true_r. unfold mb at 1. destruct m as [|w m]; [cbn in L; lia|]. cbn [shl_all].
  destruct (Z.to_nat (n / 64)) as [|j] eqn:Ej.
  - cbn [nth]. rewrite shl_testbit by dm.
    destruct (Z.leb_spec r n).
    + rewrite mb_cons by lia. rewrite (proj2 (Z.ltb_lt (n - r) 64)) by dm.
      rewrite (proj2 (Z.leb_le r (n mod 64))) by dm. rewrite (proj2 (Z.ltb_lt (n mod 64) 64)) by dm.
      cbn [andb]. f_equal. dm.
    + rewrite (proj2 (Z.leb_gt r (n mod 64))) by dm. reflexivity.
  - cbn [nth]. cbn [length] in L. rewrite shl_bits_nth by dm. rewrite Z.lor_spec, shl_testbit, shr_testbit by dm.
    rewrite (proj2 (Z.leb_le r n)) by dm. rewrite (proj2 (Z.ltb_lt (n mod 64) 64)) by dm. cbn [andb].
    inversion F; subst. rewrite andb_true_r.
    destruct (Z.leb_spec r (n mod 64)); cbn [andb].
    + rewrite (word_testbit (nth j (w :: m) 0)) by (try apply nth_word; auto; lia). rewrite orb_false_r.
      unfold mb. replace (Z.to_nat ((n - r) / 64)) with (S j) by dm. cbn [nth]. f_equal. dm.
    + unfold mb. replace (Z.to_nat ((n - r) / 64)) with j by dm. cbn [orb]. f_equal. dm.
Qed.
Lemma shl_all_Forall r m : 0 < r < 64 -> Forall word m -> Forall word (shl_all r m).
Proof.
  intros Hr F. destruct m as [|w m]; [constructor|]. inversion F as [|x y Hw Hm]; subst. cbn [shl_all].
  constructor; [apply shl_word|]. clear F. revert w Hw. induction Hm as [|x m Hx Hm IH]; intros w Hw; cbn [shl_bits]; constructor; auto.
  apply lor_word; [apply shl_word|apply shr_word; auto; lia].
Qed.

(** raw contents after <<= *)
Lemma shift_up_raw b delta : wf b -> 0 <= delta -> delta / 64 <= Z.of_nat (length (words b)) ->
  exists m, shift_up b delta = Some (mkb (cap b) m) /\ length m = length (words b) /\ Forall word m /\
    forall n, 0 <= n -> mb m n = (delta <=? n) && (n <? 64 * Z.of_nat (length m)) && mb (words b) (n - delta).
Proof.
  intros (W1 & W2 & W3 & W4) H0 H1. unfold shift_up, base, pos.
  destruct (Nat.ltb_spec (length (words b)) (Z.to_nat (delta / 64))) as [H|H]; [dm|].
  set (d := Z.to_nat (delta / 64)) in *. set (m1 := repeat 0 d ++ firstn (length (words b) - d) (words b)).
  assert (L1 : length m1 = length (words b)).
  { unfold m1. rewrite app_length, repeat_length, firstn_length. lia. }
  assert (F1 : Forall word m1).
  { apply Forall_app. split; [|apply Forall_firstn; auto].
    apply Forall_forall. intros x Hx. apply repeat_spec in Hx. subst. apply word_0. }
  assert (B1 : forall n, 0 <= n -> mb m1 n = (64 * Z.of_nat d <=? n) && (n <? 64 * Z.of_nat (length m1)) && mb (words b) (n - 64 * Z.of_nat d)).
  { intros n Hn. unfold m1 at 1. rewrite mb_app by exact Hn. rewrite repeat_length.
    destruct (Z.ltb_spec n (64 * Z.of_nat d)); [rewrite (proj2 (Z.leb_gt _ _)) by lia; apply mb_repeat0|].
    rewrite (proj2 (Z.leb_le _ _)) by lia. cbn [andb]. rewrite mb_firstn by lia. f_equal.
    rewrite L1. cases; try reflexivity; lia. }
  destruct (Z.eqb_spec (delta mod 64) 0) as [E|E].
  - exists m1. split; [reflexivity|]. split; [exact L1|]. split; [exact F1|].
    intros n Hn. rewrite B1 by exact Hn. replace (64 * Z.of_nat d) with delta by (unfold d; dm). reflexivity.
  - exists (shl_all (delta mod 64) m1). split; [reflexivity|]. split; [rewrite shl_all_length; exact L1|].
    split; [apply shl_all_Forall; auto; dm|].
    intros n Hn. rewrite shl_all_mb by (auto; dm). rewrite shl_all_length.
    destruct (Z.leb_spec (delta mod 64) n) as [P|P].
    + rewrite B1 by lia. assert (Ed : 64 * Z.of_nat d = delta - delta mod 64) by (unfold d; dm). rewrite Ed.
      replace (n - delta mod 64 - (delta - delta mod 64)) with (n - delta) by lia.
      destruct (Z.ltb_spec n (64 * Z.of_nat (length m1))).
      * rewrite (proj2 (Z.ltb_lt (n - delta mod 64) _)) by dm. rewrite !andb_true_r. cbn [andb]. f_equal.
        cases; try reflexivity; lia.
      * rewrite !andb_false_r. reflexivity.
    + rewrite (proj2 (Z.leb_gt delta n)) by dm. reflexivity.
Qed.

Theorem shift_up_correct b delta : wf b -> 0 <= delta -> delta / 64 <= Z.of_nat (length (words b)) ->
  exists b', shift_up b delta = Some b' /\ cap b' = cap b /\
    (forall n, 0 <= n -> isMember b' n = (n <? cap b) && (delta <=? n) && isMember b (n - delta)) /\
    ((forall n, isMember b n = true -> n + delta < cap b) \/ cap b mod 64 = 0 -> wf b').
Proof.
  intros W H0 H1. pose proof W as (W1 & W2 & W3 & W4).
  destruct (shift_up_raw b delta W H0 H1) as (m & E & L & F & B).
  exists (mkb (cap b) m). split; [exact E|]. split; [reflexivity|]. split.
  - intros n Hn. rewrite isMember_raw by lia. rewrite raw_mb. cbn [cap words]. rewrite B by lia.
    destruct (Z.ltb_spec n (cap b)); [|reflexivity]. cbn [andb]. rewrite L, W2.
    rewrite (proj2 (Z.ltb_lt n _)) by dm. rewrite andb_true_r.
    destruct (Z.leb_spec delta n); [|reflexivity]. rewrite isMember_wf by (auto; lia). reflexivity.
  - intros C. split; [exact W1|]. split; [cbn [words cap]; rewrite L; exact W2|]. split; [exact F|]. cbn [cap]. intros n Hn.
    rewrite raw_mb. cbn [words]. rewrite B by lia. rewrite L, W2.
    destruct (Z.leb_spec delta n); [|reflexivity].
    destruct (Z.ltb_spec n (64 * ((cap b + 63) / 64))); [|reflexivity]. cbn [andb].
    destruct C as [C|C]; [|dm].
    rewrite <- isMember_wf by (auto; lia). destruct (isMember b (n - delta)) eqn:M; [|reflexivity].
    specialize (C _ M). lia.
Qed.

(** >>=: raw contents, correct except in the last word *)
Lemma shr_bits_length r : forall m, length (shr_bits r m) = length m.
Proof. induction m as [|w [|w' m] IH]; auto. change (S (length (shr_bits r (w' :: m))) = S (length (w' :: m))). auto. Qed.
Lemma shr_bits_nth r : forall m j, (S j < length m)%nat ->
  nth j (shr_bits r m) 0 = Z.lor (shr (nth j m 0) r) (shl (nth (S j) m 0) (64 - r)).
Proof.
  induction m as [|w [|w' m] IH]; intros j H; [cbn in H; lia|cbn in H; lia|].
  change (shr_bits r (w :: w' :: m)) with (Z.lor (shr w r) (shl w' (64 - r)) :: shr_bits r (w' :: m)).
  destruct j; [reflexivity|]. cbn [nth]. rewrite IH by (cbn in *; lia). reflexivity.
Qed.
Lemma shr_bits_last r : forall m j, S j = length m -> nth j (shr_bits r m) 0 = shl (nth j m 0) r.
Proof.
  induction m as [|w [|w' m] IH]; intros j H; [cbn in H; lia|cbn in H; replace j with O by lia; reflexivity|].
  change (shr_bits r (w :: w' :: m)) with (Z.lor (shr w r) (shl w' (64 - r)) :: shr_bits r (w' :: m)).
  destruct j; [cbn in H; lia|]. cbn [nth]. rewrite IH by (cbn in *; lia). reflexivity.
Qed.
Lemma shr_bits_Forall r m : 0 < r < 64 -> Forall word m -> Forall word (shr_bits r m).
Proof.
  intros Hr F. apply Forall_forall. intros x Hx. apply In_nth with (d := 0) in Hx as (j & Hj & <-).
  rewrite shr_bits_length in Hj. destruct (Nat.eq_dec (S j) (length m)) as [E|E].
  - rewrite shr_bits_last by exact E. apply shl_word.
  - rewrite shr_bits_nth by lia. apply lor_word; [apply shr_word; [lia|apply nth_word; auto]|apply shl_word].
Qed.
Lemma shr_bits_mb r m n : 0 < r < 64 -> Forall word m -> 0 <= n ->
  n / 64 <> Z.of_nat (length m) - 1 \/ nth (length m - 1) m 0 = 0 -> mb (shr_bits r m) n = mb m (n + r).
Proof.
  intros Hr F Hn C. destruct (Z.lt_ge_cases n (64 * Z.of_nat (length m))) as [L|L].
  2:{ rewrite !mb_beyond by (rewrite ?shr_bits_length; lia). reflexivity. }
  unfold mb. set (j := Z.to_nat (n / 64)).
  destruct (Nat.eq_dec (S j) (length m)) as [E|E].
  - destruct C as [C|C]; [unfold j in E; dm|].
    rewrite shr_bits_last by exact E. replace (length m - 1)%nat with j in C by lia. rewrite C.
    assert (Z.testbit (nth (Z.to_nat ((n + r) / 64)) m 0) ((n + r) mod 64) = false).
    { destruct (Nat.eq_dec (Z.to_nat ((n + r) / 64)) j) as [->|N]; [rewrite C; apply Z.bits_0|].
      rewrite nth_overflow by (unfold j in *; dm). apply Z.bits_0. }
    rewrite H. rewrite shl_testbit by dm. rewrite Z.bits_0. apply andb_false_r.
  - rewrite shr_bits_nth by (unfold j in *; dm). rewrite Z.lor_spec, shr_testbit, shl_testbit by dm.
    destruct (Z.lt_ge_cases (n mod 64 + r) 64) as [P|P].
    + rewrite (proj2 (Z.leb_gt (64 - r) _)) by lia. cbn [andb]. rewrite orb_false_r.
      replace (Z.to_nat ((n + r) / 64)) with j by (unfold j; dm). f_equal. dm.
    + rewrite word_testbit by (try apply nth_word; auto; lia). cbn [orb].
      rewrite (proj2 (Z.leb_le (64 - r) _)) by lia. rewrite (proj2 (Z.ltb_lt (n mod 64) 64)) by dm. cbn [andb].
      replace (Z.to_nat ((n + r) / 64)) with (S j) by (unfold j; dm). f_equal. dm.
Qed.

Lemma mb_skipn k m n : 0 <= n -> mb (skipn k m) n = mb m (n + 64 * Z.of_nat k).
Proof.
  intros Hn. unfold mb. f_equal; [|dm]. replace (Z.to_nat ((n + 64 * Z.of_nat k) / 64)) with (k + Z.to_nat (n / 64))%nat by dm.
  generalize (Z.to_nat (n / 64)). revert m. induction k as [|k IH]; intros m j; [reflexivity|].
  destruct m; cbn [skipn plus nth]; [destruct j; reflexivity|]. apply IH.
Qed.
Lemma Forall_skipn (P : Z -> Prop) k m : Forall P m -> Forall P (skipn k m).
Proof. intros H. revert k. induction H; intros [|k]; cbn; auto. Qed.

(** Correct when delta is a multiple of 64 or at least 64, or the last word is empty. *)
Theorem shift_down_correct b delta : wf b -> 0 <= delta -> delta / 64 <= Z.of_nat (length (words b)) ->
  delta mod 64 = 0 \/ 64 <= delta \/
    (forall n, 64 * ((cap b - 1) / 64) <= n -> isMember b n = false) ->
  gives (shift_down b delta) (cap b) (fun n => isMember b (n + delta)).
Proof.
  intros W H0 H1 C. pose proof W as (W1 & W2 & W3 & W4). unfold shift_down, base, pos.
  destruct (Nat.ltb_spec (length (words b)) (Z.to_nat (delta / 64))) as [H|H]; [dm|].
  set (d := Z.to_nat (delta / 64)) in *. set (m1 := skipn d (words b) ++ repeat 0 d).
  assert (L1 : length m1 = length (words b)).
  { unfold m1. rewrite app_length, repeat_length, skipn_length. lia. }
  assert (F1 : Forall word m1).
  { apply Forall_app. split; [apply Forall_skipn; auto|].
    apply Forall_forall. intros x Hx. apply repeat_spec in Hx. subst. apply word_0. }
  assert (B1 : forall n, 0 <= n -> mb m1 n = mb (words b) (n + 64 * Z.of_nat d)).
  { intros n Hn. unfold m1 at 1. rewrite mb_app by exact Hn. rewrite mb_repeat0, skipn_length.
    destruct (Z.ltb_spec n (64 * Z.of_nat (length (words b) - d))); [apply mb_skipn; lia|].
    symmetry. apply mb_beyond. lia. }
  assert (X : exists m, (if delta mod 64 =? 0 then m1 else shr_bits (delta mod 64) m1) = m /\
     length m = length (words b) /\ Forall word m /\ forall n, 0 <= n -> mb m n = mb (words b) (n + delta)).
  { destruct (Z.eqb_spec (delta mod 64) 0) as [E|E].
    - exists m1. split; [reflexivity|]. split; [exact L1|]. split; [exact F1|].
      intros n Hn. rewrite B1 by exact Hn. f_equal. unfold d. dm.
    - eexists. split; [reflexivity|]. split; [rewrite shr_bits_length; exact L1|].
      split; [apply shr_bits_Forall; auto; dm|]. intros n Hn. rewrite shr_bits_mb; [|dm|exact F1|exact Hn|].
      + rewrite B1 by dm. f_equal. unfold d. dm.
      + destruct (Nat.eq_dec (length m1) 0) as [Z0|NZ].
        { right. rewrite nth_overflow by lia. reflexivity. }
        right. destruct C as [C|[C|C]]; [lia| |].
        * unfold m1. rewrite app_nth2; rewrite app_length, repeat_length, skipn_length in *; [|unfold d in *; dm].
          apply nth_repeat.
        * assert (D0 : (d = 0)%nat \/ (0 < d)%nat) by lia. destruct D0 as [D0|D0].
          -- unfold m1. rewrite D0. cbn [skipn repeat]. rewrite app_nil_r.
             apply word_zero; [apply nth_word; auto|]. intros i Hi.
             assert (L2 : length m1 = length (words b)) by exact L1.
             replace (length (words b) - 1)%nat with (Z.to_nat ((cap b - 1) / 64)) by (rewrite L2 in NZ; dm).
             rewrite L2 in NZ.
             rewrite <- mb_nth by dm. rewrite <- isMember_wf by (auto; dm). apply C; dm.
          -- unfold m1. rewrite app_nth2; rewrite app_length, repeat_length, skipn_length in *; [|lia].
             apply nth_repeat. }
  destruct X as (m & -> & Lm & Fm & Bm).
  apply gives_intro; auto.
  - congruence.
  - intros n Hn. rewrite Bm by exact Hn. rewrite isMember_wf by (auto; lia). reflexivity.
  - intros n Hn. apply isMember_beyond. lia.
Qed.
