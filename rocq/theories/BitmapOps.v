(** Set operations of BitMap. *)

From Coq Require Import ZArith List Bool Lia.
From Verif Require Import BitsModel BitsSpec BitsProofs BitmapModel BitmapSpec BitmapBase.
Import ListNotations.
Open Scope Z_scope.

(** decide a goal between boolean tests on integers *)
Ltac cases := repeat match goal with
  | |- context[?a =? ?b] => destruct (Z.eqb_spec a b)
  | |- context[?a <? ?b] => destruct (Z.ltb_spec a b)
  | |- context[?a <=? ?b] => destruct (Z.leb_spec a b)
  end.

Lemma wf_index b n : wf b -> 0 <= n < cap b -> 0 <= n / 64 < Z.of_nat (length (words b)).
Proof. intros (_ & L & _) H. rewrite L. dm. Qed.

Lemma make_correct n : 0 <= n -> gives (Some (bm_make n)) n (fun _ => false).
Proof.
  intros H. apply gives_intro; auto.
  - rewrite repeat_length. unfold n_words. dm.
  - apply Forall_forall. intros x Hx. apply repeat_spec in Hx. subst. apply word_0.
  - intros. apply mb_repeat0.
Qed.

Lemma wmod_gives b n f P : wf b -> 0 <= n < cap b -> (forall w, word w -> word (f w)) ->
  (forall w i, word w -> 0 <= i < 64 -> w = nth (Z.to_nat (n / 64)) (words b) 0 ->
     Z.testbit (f w) i = P (64 * (n / 64) + i)) ->
  (forall i, 0 <= i -> i / 64 <> n / 64 -> P i = isMember b i) ->
  (forall i, cap b <= i -> P i = false) ->
  gives (on_map b (wmod f (words b) (base n))) (cap b) P.
Proof.
  intros W Hn Hf H1 H2 H3. pose proof W as (W1 & W2 & W3 & W4). unfold base.
  destruct (wmod_spec f (words b) (n / 64) (wf_index b n W Hn)) as (m & E & L & F & B).
  rewrite E. cbn [on_map]. apply gives_intro; auto; [congruence|].
  intros i Hi. rewrite B by exact Hi. destruct (Z.eqb_spec (i / 64) (n / 64)) as [E1|E1].
  - rewrite (H1 _ (i mod 64)); [f_equal; dm|apply nth_word; auto|dm|reflexivity].
  - rewrite <- isMember_wf by auto. symmetry. auto.
Qed.

Lemma raw_word b n i : wf b -> 0 <= n -> 0 <= i < 64 ->
  Z.testbit (nth (Z.to_nat (n / 64)) (words b) 0) i = isMember b (64 * (n / 64) + i).
Proof. intros W H Hi. rewrite isMember_wf by (auto; dm). symmetry. apply mb_nth; dm. Qed.

Theorem insert_correct b n : wf b -> 0 <= n < cap b ->
  gives (insert b n) (cap b) (fun i => (i =? n) || isMember b i).
Proof.
  intros W H. unfold insert, pos. apply wmod_gives; auto.
  - intros w Hw. apply lor_word; auto. apply eq_mask_word. dm.
  - intros w i Hw Hi ->. rewrite Z.lor_spec, eq_mask_testbit, raw_word by (auto; dm).
    rewrite orb_comm. f_equal. cases; dm.
  - intros i Hi Hd. rewrite (proj2 (Z.eqb_neq _ _)) by (intros ->; auto). reflexivity.
  - intros i Hi. rewrite isMember_beyond by auto. rewrite (proj2 (Z.eqb_neq _ _)) by lia. reflexivity.
Qed.
Theorem remove_correct b n : wf b -> 0 <= n < cap b ->
  gives (remove b n) (cap b) (fun i => negb (i =? n) && isMember b i).
Proof.
  intros W H. assert (WE : word (eq_mask (n mod 64))) by (apply eq_mask_word; dm).
  unfold remove, pos. apply wmod_gives; auto.
  - intros w Hw. apply land_word; auto. apply not64_word; auto.
  - intros w i Hw Hi ->. rewrite Z.land_spec, not64_testbit, eq_mask_testbit, raw_word by (auto; dm).
    rewrite andb_comm. f_equal. rewrite (proj2 (Z.ltb_lt _ _)) by lia. cbn [andb]. f_equal. cases; dm.
  - intros i Hi Hd. rewrite (proj2 (Z.eqb_neq _ _)) by (intros ->; auto). reflexivity.
  - intros i Hi. rewrite isMember_beyond by auto. apply andb_false_r.
Qed.
Theorem flip_correct b n : wf b -> 0 <= n < cap b ->
  gives (flip b n) (cap b) (fun i => xorb (i =? n) (isMember b i)).
Proof.
  intros W H. unfold flip, pos. apply wmod_gives; auto.
  - intros w Hw. apply lxor_word; auto. apply eq_mask_word. dm.
  - intros w i Hw Hi ->. rewrite Z.lxor_spec, eq_mask_testbit, raw_word by (auto; dm).
    rewrite xorb_comm. f_equal. cases; dm.
  - intros i Hi Hd. rewrite (proj2 (Z.eqb_neq _ _)) by (intros ->; auto). apply xorb_false_l.
  - intros i Hi. rewrite isMember_beyond by auto. rewrite (proj2 (Z.eqb_neq _ _)) by lia. reflexivity.
Qed.
Lemma gives_ext o c P Q : gives o c P -> (forall n, 0 <= n -> P n = Q n) -> gives o c Q.
Proof. intros (b & A & B & C & D) H. exists b. repeat split; auto; try apply B. intros n Hn. rewrite D by auto. auto. Qed.
Theorem set_to_correct b n v : wf b -> 0 <= n < cap b ->
  gives (set_to b n v) (cap b) (fun i => if i =? n then v else isMember b i).
Proof.
  intros W H. unfold set_to. destruct v.
  - eapply gives_ext; [apply insert_correct; auto|]. intros i Hi. cbv beta. destruct (i =? n); reflexivity.
  - eapply gives_ext; [apply remove_correct; auto|]. intros i Hi. cbv beta. destruct (i =? n); reflexivity.
Qed.

Theorem insert_list_correct l : forall b, wf b -> Forall (fun n => 0 <= n < cap b) l ->
  gives (insert_list b l) (cap b) (fun i => existsb (Z.eqb i) l || isMember b i).
Proof.
  induction l as [|n l IH]; intros b W H; cbn [insert_list].
  - exists b. split; [reflexivity|]. split; [exact W|]. split; [reflexivity|]. reflexivity.
  - inversion H as [|x y H1 H2]; subst. destruct (insert_correct b n W H1) as (b' & E & W' & C & M).
    rewrite E. rewrite <- C. eapply gives_ext; [apply IH; [exact W'|rewrite C; exact H2]|].
    intros i Hi. cbv beta. rewrite M by auto. cbn [existsb]. rewrite !orb_assoc. f_equal. apply orb_comm.
Qed.
Theorem of_list_correct n l : 0 <= n -> Forall (fun i => 0 <= i < n) l ->
  gives (bm_of_list n l) n (fun i => existsb (Z.eqb i) l).
Proof.
  intros Hn Hl. destruct (make_correct n Hn) as (b & E & W & C & M). inversion E; subst b.
  unfold bm_of_list. change n with (cap (bm_make n)) at 2.
  eapply gives_ext; [apply insert_list_correct; auto|].
  intros i Hi. cbv beta. rewrite M by auto. apply orb_false_r.
Qed.

(** ** whole-vector operations *)
Lemma mb_map f m n : 0 <= n < 64 * Z.of_nat (length m) ->
  mb (map f m) n = Z.testbit (f (nth (Z.to_nat (n / 64)) m 0)) (n mod 64).
Proof.
  intros H. unfold mb. rewrite (nth_indep _ 0 (f 0)) by (rewrite map_length; dm). rewrite map_nth. reflexivity.
Qed.
Lemma last_mod_length f m : length (last_mod f m) = length m.
Proof. induction m as [|w [|w' m] IH]; auto. change (S (length (last_mod f (w' :: m))) = S (length (w' :: m))). auto. Qed.
Lemma last_mod_nth f m : forall j, (j < length m)%nat ->
  nth j (last_mod f m) 0 = if (S j =? length m)%nat then f (nth j m 0) else nth j m 0.
Proof.
  induction m as [|w [|w' m] IH]; intros j H.
  - cbn in H. lia.
  - destruct j; [reflexivity|cbn in H; lia].
  - change (last_mod f (w :: w' :: m)) with (w :: last_mod f (w' :: m)).
    destruct j; [reflexivity|]. cbn [nth]. rewrite IH by (cbn [length] in *; lia). reflexivity.
Qed.
Lemma last_mod_Forall (P : Z -> Prop) f m : (forall w, P w -> P (f w)) -> Forall P m -> Forall P (last_mod f m).
Proof.
  intros Hf. induction m as [|w [|w' m] IH]; intros H; auto.
  - inversion H; subst. constructor; auto.
  - inversion H; subst. change (Forall P (w :: last_mod f (w' :: m))). constructor; auto.
Qed.
Lemma mb_last_mod f m n : 0 <= n < 64 * Z.of_nat (length m) ->
  mb (last_mod f m) n = if n / 64 =? Z.of_nat (length m) - 1 then Z.testbit (f (nth (Z.to_nat (n / 64)) m 0)) (n mod 64) else mb m n.
Proof.
  intros H. unfold mb. rewrite last_mod_nth by dm.
  destruct (Nat.eqb_spec (S (Z.to_nat (n / 64))) (length m)), (Z.eqb_spec (n / 64) (Z.of_nat (length m) - 1)); try reflexivity; dm.
Qed.

Lemma Forall_map_word f m : (forall w, word w -> word (f w)) -> Forall word m -> Forall word (map f m).
Proof. intros Hf H. apply Forall_forall. intros x Hx. apply in_map_iff in Hx as (w & <- & Hw). apply Hf. rewrite Forall_forall in H. auto. Qed.

Theorem complement_correct b : wf b ->
  gives (Some (take_complement b)) (cap b) (fun i => (i <? cap b) && negb (isMember b i)).
Proof.
  intros W. pose proof W as (W1 & W2 & W3 & W4). unfold take_complement.
  assert (F : Forall word (map not64 (words b))) by (apply Forall_map_word; auto; apply not64_word).
  assert (WM : word (lt_mask (pos (cap b)))) by (apply lt_mask_word; unfold pos; dm).
  destruct (Z.eqb_spec (pos (cap b)) 0) as [E|E]; unfold pos in *.
  - apply gives_intro; auto.
    + rewrite map_length. auto.
    + intros n Hn. destruct (Z.ltb_spec n (cap b)).
      * rewrite mb_map by dm. rewrite not64_testbit by (try apply nth_word; auto; dm).
        rewrite (proj2 (Z.ltb_lt _ _)) by dm. cbn [andb]. rewrite isMember_wf by auto. reflexivity.
      * apply mb_beyond. rewrite map_length. dm.
    + intros n Hn. rewrite (proj2 (Z.ltb_ge _ _)) by lia. reflexivity.
  - apply gives_intro; auto.
    + rewrite last_mod_length, map_length. auto.
    + apply last_mod_Forall; auto. intros w Hw. apply land_word; auto. unfold word in WM; lia.
    + intros n Hn. destruct (Z.lt_ge_cases n (64 * Z.of_nat (length (words b)))) as [L|L].
      * rewrite mb_last_mod by (rewrite map_length; lia). rewrite map_length.
        rewrite (nth_indep _ 0 (not64 0)) by (rewrite map_length; dm). rewrite map_nth.
        rewrite Z.land_spec, lt_mask_testbit by dm.
        rewrite mb_map by lia. rewrite not64_testbit by (try apply nth_word; auto; dm).
        rewrite (proj2 (Z.ltb_lt (n mod 64) 64)) by dm. cbn [andb].
        change (Z.testbit (nth (Z.to_nat (n / 64)) (words b) 0) (n mod 64)) with (mb (words b) n).
        rewrite <- isMember_wf by auto.
        destruct (Z.eqb_spec (n / 64) (Z.of_nat (length (words b)) - 1)) as [E1|E1].
        -- rewrite andb_comm. f_equal. cases; try reflexivity; dm.
        -- rewrite (proj2 (Z.ltb_lt n _)) by dm. reflexivity.
      * rewrite mb_beyond by (rewrite last_mod_length, map_length; lia).
        rewrite (proj2 (Z.ltb_ge n _)) by dm. reflexivity.
    + intros n Hn. rewrite (proj2 (Z.ltb_ge _ _)) by lia. reflexivity.
Qed.

Theorem fill_correct b : wf b -> gives (Some (fill b)) (cap b) (fun i => i <? cap b).
Proof.
  intros W. pose proof W as (W1 & W2 & W3 & W4). unfold fill.
  assert (WM : word (lt_mask (pos (cap b)))) by (apply lt_mask_word; unfold pos; dm).
  assert (F : Forall word (map (fun _ => not64 0) (words b))).
  { apply Forall_map_word; auto. intros. apply not64_word, word_0. }
  assert (N0 : forall n, 0 <= n < 64 * Z.of_nat (length (words b)) -> mb (map (fun _ => not64 0) (words b)) n = true).
  { intros n H. rewrite mb_map by lia. rewrite not64_testbit, Z.bits_0 by (try apply word_0; dm).
    rewrite (proj2 (Z.ltb_lt _ _)) by dm. reflexivity. }
  destruct (Z.eqb_spec (pos (cap b)) 0) as [E|E]; unfold pos in *.
  - apply gives_intro; auto.
    + rewrite map_length. auto.
    + intros n Hn. destruct (Z.ltb_spec n (cap b)); [apply N0; dm|].
      apply mb_beyond. rewrite map_length. dm.
    + intros n Hn. apply Z.ltb_ge. lia.
  - apply gives_intro; auto.
    + rewrite last_mod_length, map_length. auto.
    + apply last_mod_Forall; auto.
    + intros n Hn. destruct (Z.lt_ge_cases n (64 * Z.of_nat (length (words b)))) as [L|L].
      * rewrite mb_last_mod by (rewrite map_length; lia). rewrite map_length, N0, lt_mask_testbit by dm.
        cases; try reflexivity; dm.
      * rewrite mb_beyond by (rewrite last_mod_length, map_length; lia). symmetry. apply Z.ltb_ge. dm.
    + intros n Hn. apply Z.ltb_ge. lia.
Qed.

Theorem reset_correct b : wf b -> gives (Some (reset b)) (cap b) (fun _ => false).
Proof.
  intros (W1 & W2 & W3 & W4). unfold reset. apply gives_intro; auto.
  - rewrite map_length. auto.
  - apply Forall_map_word; auto. intros; apply word_0.
  - intros n Hn. destruct (Z.lt_ge_cases n (64 * Z.of_nat (length (words b)))).
    + rewrite mb_map by lia. apply Z.bits_0.
    + apply mb_beyond. rewrite map_length. lia.
Qed.

(** ** word-by-word operations *)
Lemma zip_words_spec f : f 0 0 = 0 -> forall b m, (length b <= length m)%nat ->
  (forall x, word x -> f x 0 = x) -> Forall word m ->
  exists r, zip_words f m b = Some r /\ length r = length m /\
    forall j, nth j r 0 = f (nth j m 0) (nth j b 0).
Proof.
  intros F0. induction b as [|y b IH]; intros [|x m] L F Hm; cbn [zip_words] in *.
  - exists []. repeat split. intros [|j]; cbn; auto.
  - exists (x :: m). repeat split. intros j. replace (nth j [] 0) with 0 by (destruct j; reflexivity).
    rewrite F; [reflexivity|apply nth_word; auto].
  - cbn in L. lia.
  - inversion Hm; subst. destruct (IH m) as (r & E & Lr & N); auto; [cbn in L; lia|].
    rewrite E. exists (f x y :: r). split; [reflexivity|]. split; [cbn; auto|].
    intros [|j]; cbn [nth]; auto.
Qed.

Lemma zip_gives f g a b : wf a -> wf b -> cap b <= cap a ->
  f 0 0 = 0 -> (forall x, word x -> f x 0 = x) ->
  (forall x y, word x -> word y -> word (f x y)) ->
  (forall x y i, word x -> word y -> 0 <= i < 64 -> Z.testbit (f x y) i = g (Z.testbit x i) (Z.testbit y i)) ->
  g false false = false ->
  gives (bm_zip f a b) (cap a) (fun i => g (isMember a i) (isMember b i)).
Proof.
  intros Wa Wb C F0 F1 Fw Fb G0. pose proof Wa as (A1 & A2 & A3 & A4). pose proof Wb as (B1 & B2 & B3 & B4).
  unfold bm_zip.
  destruct (zip_words_spec f F0 (words b) (words a)) as (r & E & L & N); auto; [dm|].
  rewrite E. cbn [on_map].
  assert (X : forall n, 0 <= n -> mb r n = g (isMember a n) (isMember b n)).
  { intros n Hn. unfold mb. rewrite N. rewrite Fb by (try apply nth_word; auto; dm).
    rewrite !isMember_wf by auto. reflexivity. }
  apply gives_intro; auto.
  - congruence.
  - apply Forall_forall. intros x Hx. apply In_nth with (d := 0) in Hx as (j & Hj & <-).
    rewrite N. apply Fw; apply nth_word; auto.
  - intros n Hn. rewrite !isMember_beyond by lia. exact G0.
Qed.

Theorem or_correct a b : wf a -> wf b -> cap b <= cap a ->
  gives (bm_or a b) (cap a) (fun i => isMember a i || isMember b i).
Proof.
  intros. unfold bm_or. apply (zip_gives Z.lor orb); auto.
  - intros; apply Z.lor_0_r.
  - apply lor_word.
  - intros. apply Z.lor_spec.
Qed.
Theorem xor_correct a b : wf a -> wf b -> cap b <= cap a ->
  gives (bm_xor a b) (cap a) (fun i => xorb (isMember a i) (isMember b i)).
Proof.
  intros. unfold bm_xor. apply (zip_gives Z.lxor xorb); auto.
  - intros; apply Z.lxor_0_r.
  - apply lxor_word.
  - intros. apply Z.lxor_spec.
Qed.
Theorem andnot_correct a b : wf a -> wf b -> cap b <= cap a ->
  gives (bm_andnot a b) (cap a) (fun i => isMember a i && negb (isMember b i)).
Proof.
  intros. unfold bm_andnot. apply (zip_gives _ (fun x y => x && negb y)); auto.
  - intros x Hx. apply word_ext; auto.
    + apply land_word; auto. apply not64_word, word_0.
    + intros i Hi. rewrite Z.land_spec, not64_testbit, Z.bits_0 by (try apply word_0; lia).
      rewrite (proj2 (Z.ltb_lt _ _)) by lia. apply andb_true_r.
  - intros x y Hx Hy. apply land_word; auto. apply not64_word; auto.
  - intros x y i Hx Hy Hi. rewrite Z.land_spec, not64_testbit by (auto; lia).
    rewrite (proj2 (Z.ltb_lt _ _)) by lia. reflexivity.
Qed.

Lemma and_words_spec : forall b m, (length b <= length m)%nat -> Forall word m ->
  exists r any, and_words m b = Some (r, any) /\ length r = length m /\
    (forall j, nth j r 0 = Z.land (nth j m 0) (nth j b 0)) /\
    (any = true <-> exists j, Z.land (nth j m 0) (nth j b 0) <> 0).
Proof.
  induction b as [|y b IH]; intros m L Hm; cbn [and_words] in *.
  - exists (map (fun _ => 0) m), false. split; [destruct m; reflexivity|]. split; [apply map_length|].
    assert (Z0 : forall j, Z.land (nth j m 0) (nth j [] 0) = 0).
    { intros j. replace (nth j [] 0) with 0 by (destruct j; reflexivity). apply Z.land_0_r. }
    split.
    + intros j. rewrite Z0. change 0 with ((fun _ : Z => 0) 0) at 1. apply (map_nth (fun _ => 0) m 0).
    + split; [discriminate|]. intros (j & Hj). rewrite Z0 in Hj. lia.
  - destruct m as [|x m]; [cbn in L; lia|]. inversion Hm; subst.
    destruct (IH m) as (r & any & E & Lr & N & A); auto; [cbn in L; lia|].
    cbn [and_words]. rewrite E. eexists _, _. split; [reflexivity|]. split; [cbn; auto|]. split.
    + intros [|j]; cbn [nth]; auto.
    + rewrite orb_true_iff, negb_true_iff, Z.eqb_neq, A. split.
      * intros [H|(j & Hj)]; [exists O; auto|exists (S j); auto].
      * intros ([|j] & Hj); [left; auto|right; exists j; auto].
Qed.

Theorem and_correct a b : wf a -> wf b -> cap b <= cap a ->
  exists r any, bm_and a b = Some (r, any) /\
    gives (Some r) (cap a) (fun i => isMember a i && isMember b i) /\
    (any = true <-> exists n, 0 <= n /\ isMember a n = true /\ isMember b n = true).
Proof.
  intros Wa Wb C. pose proof Wa as (A1 & A2 & A3 & A4). pose proof Wb as (B1 & B2 & B3 & B4).
  unfold bm_and.
  destruct (and_words_spec (words b) (words a)) as (r & any & E & L & N & An); auto; [dm|].
  rewrite E. eexists _, any. split; [reflexivity|]. split.
  - apply gives_intro; auto; [congruence|..].
    + apply Forall_forall. intros x Hx. apply In_nth with (d := 0) in Hx as (j & Hj & <-).
      rewrite N. apply land_word; [|destruct (nth_word (words b) j B3)]; auto. apply nth_word; auto.
    + intros n Hn. unfold mb. rewrite N, Z.land_spec. rewrite !isMember_wf by auto. reflexivity.
    + intros n Hn. rewrite !isMember_beyond by lia. reflexivity.
  - rewrite An. split.
    + intros (j & Hj).
      assert (WL : word (Z.land (nth j (words a) 0) (nth j (words b) 0))).
      { apply land_word; [|destruct (nth_word (words b) j B3)]; auto. apply nth_word; auto. }
      destruct (firstBit_correct _ WL) as [[X _]|(_ & R & T & _)]; [contradiction|].
      set (i := firstBit _) in *. exists (64 * Z.of_nat j + i).
      rewrite Z.land_spec, andb_true_iff in T. rewrite !isMember_wf by (auto; lia).
      rewrite !mb_nth by lia. rewrite Nat2Z.id. split; [lia|exact T].
    + intros (n & Hn & Ma & Mb). exists (Z.to_nat (n / 64)). intros Z0.
      rewrite isMember_wf in Ma, Mb by auto. unfold mb in Ma, Mb.
      assert (Z.testbit (Z.land (nth (Z.to_nat (n / 64)) (words a) 0) (nth (Z.to_nat (n / 64)) (words b) 0)) (n mod 64) = true)
        by (rewrite Z.land_spec, Ma, Mb; reflexivity).
      rewrite Z0, Z.bits_0 in H. discriminate.
Qed.
