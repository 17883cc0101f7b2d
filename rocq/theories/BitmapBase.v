(** Bit-level lemmas for BitMap. *)

From Coq Require Import ZArith List Bool Lia.
From Verif Require Import BitsModel BitsSpec BitsProofs BitmapModel BitmapSpec.
Import ListNotations.
Open Scope Z_scope.

Ltac dm := Z.div_mod_to_equations; lia.

(** ** words *)
Lemma word_testbit w i : word w -> 64 <= i -> Z.testbit w i = false.
Proof.
  intros H Hi. destruct (Z.eq_dec w 0) as [->|N]; [apply Z.testbit_0_l|].
  apply Z.bits_above_log2; [unfold word in H; lia|].
  apply Z.log2_lt_pow2; [unfold word in H; lia|]. unfold word in H.
  apply Z.lt_le_trans with (2 ^ 64); [lia|]. apply Z.pow_le_mono_r; lia.
Qed.
Lemma word_bits w : 0 <= w -> (forall i, 64 <= i -> Z.testbit w i = false) -> word w.
Proof.
  intros H B. unfold word. split; [exact H|]. destruct (Z.eq_dec w 0) as [->|N]; [lia|].
  apply Z.log2_lt_pow2; [lia|]. destruct (Z.lt_ge_cases (Z.log2 w) 64) as [L|L]; [exact L|].
  specialize (B _ L). rewrite Z.bit_log2 in B by lia. discriminate.
Qed.
Lemma word_0 : word 0. Proof. unfold word. lia. Qed.
Lemma word_ext x y : word x -> word y -> (forall i, 0 <= i < 64 -> Z.testbit x i = Z.testbit y i) -> x = y.
Proof.
  intros Hx Hy H. apply Z.bits_inj'. intros i Hi. destruct (Z.lt_ge_cases i 64).
  - apply H. lia.
  - rewrite !word_testbit by auto. reflexivity.
Qed.

Lemma not64_ldiff w : word w -> not64 w = Z.ldiff (Z.ones 64) w.
Proof.
  intros H. rewrite <- Z.sub_nocarry_ldiff.
  - unfold not64. rewrite Z.ones_equiv. change (2 ^ 64) with W64. lia.
  - apply Z.bits_inj'. intros i Hi. rewrite Z.ldiff_spec, Z.bits_0.
    destruct (Z.lt_ge_cases i 64).
    + rewrite Z.ones_spec_low by lia. apply andb_false_r.
    + rewrite word_testbit by auto. reflexivity.
Qed.
Lemma not64_testbit w i : word w -> 0 <= i -> Z.testbit (not64 w) i = (i <? 64) && negb (Z.testbit w i).
Proof.
  intros H Hi. rewrite not64_ldiff by auto. rewrite Z.ldiff_spec. f_equal.
  destruct (Z.ltb_spec i 64); [apply Z.ones_spec_low; lia|apply Z.ones_spec_high; lia].
Qed.
Lemma not64_word w : word w -> word (not64 w).
Proof. unfold word, not64, W64. lia. Qed.
Lemma lor_word x y : word x -> word y -> word (Z.lor x y).
Proof.
  intros Hx Hy. apply word_bits; [apply Z.lor_nonneg; unfold word in *; lia|].
  intros i Hi. rewrite Z.lor_spec, !word_testbit by auto. reflexivity.
Qed.
Lemma land_word x y : word x -> 0 <= y -> word (Z.land x y).
Proof.
  intros Hx Hy. apply word_bits; [apply Z.land_nonneg; unfold word in *; lia|].
  intros i Hi. rewrite Z.land_spec, word_testbit by auto. reflexivity.
Qed.
Lemma lxor_word x y : word x -> word y -> word (Z.lxor x y).
Proof.
  intros Hx Hy. apply word_bits; [apply Z.lxor_nonneg; unfold word in *; lia|].
  intros i Hi. rewrite Z.lxor_spec, !word_testbit by auto. reflexivity.
Qed.
Lemma eq_mask_word j : 0 <= j < 64 -> word (eq_mask j).
Proof.
  intros H. unfold word, eq_mask. split; [apply Z.pow_nonneg; lia|].
  apply Z.pow_lt_mono_r; lia.
Qed.
Lemma eq_mask_testbit j i : 0 <= j -> Z.testbit (eq_mask j) i = (i =? j).
Proof. intros H. unfold eq_mask. rewrite Z.pow2_bits_eqb by exact H. apply Z.eqb_sym. Qed.
Lemma lt_mask_nat_testbit j : forall i, 0 <= i -> Z.testbit (lt_mask_nat j) i = (i <? Z.of_nat j).
Proof.
  induction j as [|j IH]; intros i Hi; cbn [lt_mask_nat].
  - rewrite Z.bits_0. symmetry. apply Z.ltb_ge. lia.
  - rewrite Z.lor_spec, IH, Z.pow2_bits_eqb by lia.
    destruct (Z.ltb_spec i (Z.of_nat j)), (Z.eqb_spec (Z.of_nat j) i), (Z.ltb_spec i (Z.of_nat (S j))); try reflexivity; lia.
Qed.
Lemma lt_mask_testbit j i : 0 <= i -> Z.testbit (lt_mask j) i = (i <? j).
Proof.
  intros Hi. unfold lt_mask. rewrite lt_mask_nat_testbit by lia.
  destruct (Z.ltb_spec i (Z.of_nat (Z.to_nat j))), (Z.ltb_spec i j); try reflexivity; lia.
Qed.
Lemma lt_mask_word j : j <= 64 -> word (lt_mask j).
Proof.
  intros H. apply word_bits.
  - unfold lt_mask. induction (Z.to_nat j) as [|k IH]; cbn [lt_mask_nat]; [lia|].
    apply Z.lor_nonneg. split; [exact IH|apply Z.pow_nonneg; lia].
  - intros i Hi. rewrite lt_mask_testbit by lia. apply Z.ltb_ge. lia.
Qed.
Lemma shl_word w k : word (shl w k).
Proof. unfold word, shl, wrap64, W64. apply Z.mod_pos_bound. lia. Qed.
Lemma shl_testbit w k i : 0 <= k -> 0 <= i -> Z.testbit (shl w k) i = (k <=? i) && (i <? 64) && Z.testbit w (i - k).
Proof.
  intros Hk Hi. unfold shl, wrap64. change W64 with (2 ^ 64).
  destruct (Z.ltb_spec i 64).
  - rewrite Z.mod_pow2_bits_low by lia. destruct (Z.leb_spec k i); cbn [andb].
    + apply Z.mul_pow2_bits. lia.
    + apply Z.mul_pow2_bits_low. lia.
  - rewrite Z.mod_pow2_bits_high by lia. rewrite andb_false_r. reflexivity.
Qed.
Lemma shr_word w k : 0 <= k -> word w -> word (shr w k).
Proof.
  unfold word, shr. intros Hk H. assert (0 < 2 ^ k) by (apply Z.pow_pos_nonneg; lia).
  split; [apply Z.div_pos; lia|]. apply Z.le_lt_trans with w; [|lia].
  apply Z.div_le_upper_bound; [lia|]. nia.
Qed.
Lemma shr_testbit w k i : 0 <= k -> 0 <= i -> Z.testbit (shr w k) i = Z.testbit w (i + k).
Proof. intros Hk Hi. unfold shr. apply Z.div_pow2_bits; lia. Qed.

(** land with a one-bit mask *)
Lemma land_eq_mask w j : 0 <= j -> negb (Z.land w (eq_mask j) =? 0) = Z.testbit w j.
Proof.
  intros H. destruct (Z.testbit w j) eqn:E.
  - destruct (Z.eqb_spec (Z.land w (eq_mask j)) 0) as [C|C]; [|reflexivity].
    assert (X : Z.testbit (Z.land w (eq_mask j)) j = true).
    { rewrite Z.land_spec, E, eq_mask_testbit, Z.eqb_refl by lia. reflexivity. }
    rewrite C, Z.bits_0 in X. discriminate.
  - rewrite negb_false_iff. apply Z.eqb_eq. apply Z.bits_inj'. intros i Hi.
    rewrite Z.land_spec, eq_mask_testbit, Z.bits_0 by lia. destruct (Z.eqb_spec i j) as [->|]; [rewrite E|]; auto using andb_false_r.
Qed.
(** a word is zero iff no bit is set *)
Lemma word_zero w : word w -> (w = 0 <-> forall i, 0 <= i < 64 -> Z.testbit w i = false).
Proof.
  intros H. split; [intros ->; intros; apply Z.bits_0|]. intros B.
  apply word_ext; [auto|apply word_0|]. intros i Hi. rewrite Z.bits_0. auto.
Qed.

(** ** vectors of words *)
Definition mb (m : list Z) (n : Z) : bool := Z.testbit (nth (Z.to_nat (n / 64)) m 0) (n mod 64).

Lemma nth_word m j : Forall word m -> word (nth j m 0).
Proof.
  intros H. destruct (Nat.lt_ge_cases j (length m)) as [L|L].
  - rewrite Forall_forall in H. apply H, nth_In, L.
  - rewrite nth_overflow by lia. apply word_0.
Qed.
Lemma mb_beyond m n : 64 * Z.of_nat (length m) <= n -> mb m n = false.
Proof. intros H. unfold mb. rewrite nth_overflow by dm. apply Z.bits_0. Qed.
Lemma mb_nth m j i : 0 <= j -> 0 <= i < 64 -> mb m (64 * j + i) = Z.testbit (nth (Z.to_nat j) m 0) i.
Proof. intros Hj Hi. unfold mb. repeat f_equal; dm. Qed.
Lemma mb_cons w t n : 0 <= n -> mb (w :: t) n = if n <? 64 then Z.testbit w n else mb t (n - 64).
Proof.
  intros H. unfold mb. destruct (Z.ltb_spec n 64).
  - replace (n / 64) with 0 by dm. rewrite Z.mod_small by lia. reflexivity.
  - replace (Z.to_nat (n / 64)) with (S (Z.to_nat ((n - 64) / 64))) by dm.
    cbn [nth]. f_equal. dm.
Qed.
Lemma mb_nil n : mb [] n = false.
Proof. unfold mb. destruct (Z.to_nat (n / 64)); apply Z.bits_0. Qed.
Lemma mb_app a b n : 0 <= n ->
  mb (a ++ b) n = if n <? 64 * Z.of_nat (length a) then mb a n else mb b (n - 64 * Z.of_nat (length a)).
Proof.
  intros H. unfold mb. destruct (Z.ltb_spec n (64 * Z.of_nat (length a))).
  - rewrite app_nth1 by dm. reflexivity.
  - rewrite app_nth2 by dm. f_equal; [f_equal; dm|dm].
Qed.
Lemma mb_repeat0 k n : mb (repeat 0 k) n = false.
Proof.
  unfold mb. destruct (Nat.lt_ge_cases (Z.to_nat (n / 64)) k).
  - rewrite nth_repeat. apply Z.bits_0.
  - rewrite nth_overflow by (rewrite repeat_length; lia). apply Z.bits_0.
Qed.
Lemma mb_ext a : forall b, Forall word a -> Forall word b -> length a = length b ->
  (forall n, 0 <= n -> mb a n = mb b n) -> a = b.
Proof.
  induction a as [|x a IH]; intros [|y b] Ha Hb L H; try discriminate; [reflexivity|].
  inversion Ha; inversion Hb; subst. f_equal.
  - apply word_ext; auto. intros i Hi. specialize (H i ltac:(lia)). rewrite !mb_cons in H by lia.
    rewrite (proj2 (Z.ltb_lt _ _)) in H by lia. exact H.
  - apply IH; auto. intros n Hn. specialize (H (n + 64) ltac:(lia)). rewrite !mb_cons in H by lia.
    rewrite (proj2 (Z.ltb_ge _ _)) in H by lia. replace (n + 64 - 64) with n in H by lia. exact H.
Qed.
Lemma upd_length t : forall i v, length (upd t i v) = length t.
Proof. induction t; intros [|i] v; cbn; auto. Qed.
Lemma upd_nth t : forall i v j, (i < length t)%nat -> nth j (upd t i v) 0 = if (j =? i)%nat then v else nth j t 0.
Proof.
  induction t as [|x t IH]; intros i v j H; [cbn in H; lia|].
  destruct i, j; cbn [upd nth Nat.eqb]; auto. cbn in H. apply IH. lia.
Qed.
Lemma upd_Forall (P : Z -> Prop) t : forall i v, Forall P t -> P v -> Forall P (upd t i v).
Proof. induction t; intros [|i] v H V; cbn; inversion H; subst; constructor; auto. Qed.

Lemma wget_some m j : 0 <= j < Z.of_nat (length m) -> wget m j = Some (nth (Z.to_nat j) m 0).
Proof. intros H. unfold wget. apply nth_error_nth'. lia. Qed.
Lemma wmod_spec f m j : 0 <= j < Z.of_nat (length m) ->
  exists m', wmod f m j = Some m' /\ length m' = length m /\
    (Forall word m -> (forall w, word w -> word (f w)) -> Forall word m') /\
    forall n, 0 <= n -> mb m' n = if n / 64 =? j then Z.testbit (f (nth (Z.to_nat j) m 0)) (n mod 64) else mb m n.
Proof.
  intros H. unfold wmod. rewrite wget_some by exact H. eexists. split; [reflexivity|].
  split; [apply upd_length|]. split.
  - intros F Hf. apply upd_Forall; auto. apply Hf, nth_word, F.
  - intros n Hn. unfold mb. rewrite upd_nth by lia.
    destruct (Z.eqb_spec (n / 64) j) as [<-|N].
    + rewrite Nat.eqb_refl. reflexivity.
    + assert (Z.to_nat (n / 64) <> Z.to_nat j) by dm.
      rewrite (proj2 (Nat.eqb_neq _ _)) by auto. reflexivity.
Qed.

(** ** isMember *)
Lemma isMember_raw b n : 0 <= n -> isMember b n = (n <? cap b) && raw b n.
Proof.
  intros H. unfold isMember, raw, base, pos. destruct (Z.leb_spec (cap b) n), (Z.ltb_spec n (cap b)); try lia; try reflexivity.
  rewrite land_eq_mask by dm. reflexivity.
Qed.
Lemma raw_mb b n : raw b n = mb (words b) n. Proof. reflexivity. Qed.
Lemma isMember_wf b n : wf b -> 0 <= n -> isMember b n = mb (words b) n.
Proof.
  intros (_ & _ & _ & H) Hn. rewrite isMember_raw by lia. rewrite <- raw_mb.
  destruct (Z.ltb_spec n (cap b)); [reflexivity|]. rewrite H by lia. reflexivity.
Qed.
Lemma isMember_beyond b n : cap b <= n -> isMember b n = false.
Proof. intros H. unfold isMember. rewrite (proj2 (Z.leb_le _ _)) by exact H. reflexivity. Qed.

(** to build a result *)
Lemma gives_intro c m P : 0 <= c -> Z.of_nat (length m) = (c + 63) / 64 -> Forall word m ->
  (forall n, 0 <= n -> mb m n = P n) -> (forall n, c <= n -> P n = false) -> gives (Some (mkb c m)) c P.
Proof.
  intros H1 H2 H3 H4 H5. exists (mkb c m). split; [reflexivity|].
  assert (W : wf (mkb c m)).
  { split; [exact H1|]. split; [exact H2|]. split; [exact H3|]. cbn [cap]. intros n Hn.
    rewrite raw_mb. cbn [words]. rewrite H4 by lia. apply H5, Hn. }
  split; [exact W|]. split; [reflexivity|]. intros n Hn. rewrite isMember_wf by auto. cbn [words]. auto.
Qed.
