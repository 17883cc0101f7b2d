(** Factoring vectors to dominant ones; words for matrices and reflections. *)

From Coq Require Import List Arith ZArith Bool Lia Permutation.
From Verif Require Import VecModel VecProofs RunModel RunProofs MatModel MatSpec MatProofs MatLin MatOps MatProps LatModel SizeModel LieTypeModel LieTypeSpec
  RootModel RootSpec RootBase RootMath RootForm RootFin RootCo RootAcc RootSys RootUniq RootBasis RootTop RootProps DatModel DatSpec DatMath DatProofs DatOps.
Import ListNotations.
Local Open Scope Z_scope.

Section Factors.
Variable fits : Z -> bool.
Notation R := (zarith fits).
Notation E := (overflows fits).
Variables (r n : nat) (A B : nat -> nat -> Z) (p : predatum) (d : datum).
Notation al := (fcol r A).
Notation be := (fcol r B).
Notation C := (fun i j => dot r (al i) (be j)).
Hypothesis K : datum_ok r n A B p d.
Notation s := (d_sys d).
Notation np := (num_pos (d_sys d)).
Notation emb := (comb r n al).
Notation coemb := (comb r n be).
Notation letters := (Forall (fun i => (i < n)%nat)).
Let La : forall i, (i < n)%nat -> length (al i) = r. Proof. intros. apply fcol_length. Qed.
Let Lb : forall i, (i < n)%nat -> length (be i) = r. Proof. intros. apply fcol_length. Qed.
Let HC : forall i j, (i < n)%nat -> (j < n)%nat -> dot r (al i) (be j) = C i j. Proof. reflexivity. Qed.
Let HC' : forall i j, (i < n)%nat -> (j < n)%nat -> dot r (be i) (al j) = flip C i j. Proof. intros. apply dot_comm. Qed.
Let gd : good n C := proj1 (k_good r n A B p d K).
Let gd' : good n (flip C) := proj2 (k_good r n A B p d K).

(** the number of positive coroots that are negative on a vector, and the same for roots *)
Definition negatives (v : list Z) : nat := length (filter (fun a => dot r v (coemb (coroot_at s a)) <? 0) (seq np np)).
Definition conegatives (v : list Z) : nat := length (filter (fun a => dot r v (emb (root_at s a)) <? 0) (seq np np)).
Lemma negatives_eq v : negatives v = neg_count r n be (pos_coroots d) v.
Proof. unfold negatives, neg_count, pos_coroots. rewrite filter_map_length. reflexivity. Qed.
Lemma conegatives_eq v : conegatives v = neg_count r n al (pos_roots d) v.
Proof. unfold conegatives, neg_count, pos_roots. rewrite filter_map_length. reflexivity. Qed.
Lemma neg_le v : (negatives v <= np)%nat /\ (conegatives v <= np)%nat.
Proof.
  rewrite negatives_eq, conegatives_eq. split; (eapply Nat.le_trans; [apply count_le|]); unfold pos_roots, pos_coroots; rewrite map_length, seq_length; reflexivity.
Qed.
Lemma neg_step i v : (i < n)%nat -> length v = r -> dot r v (be i) < 0 -> negatives v = S (negatives (reflect_at r (al i) (be i) v)).
Proof.
  intros Hi L Q. rewrite !negatives_eq. destruct (pos_ok r n A B p d K) as (_ & N & _ & U). destruct (count_step r n al be C La Lb HC gd gd' _ N U i v Hi L) as (q & E1 & E2). cbv beta in E2. rewrite E1, E2.
  rewrite (proj2 (Z.ltb_lt _ _) Q). destruct (Z.ltb_spec 0 (dot r v (be i))); [lia|reflexivity].
Qed.
Lemma coneg_step i v : (i < n)%nat -> length v = r -> dot r v (al i) < 0 -> conegatives v = S (conegatives (reflect_at r (be i) (al i) v)).
Proof.
  intros Hi L Q. rewrite !conegatives_eq. destruct (pos_ok r n A B p d K) as (N & _ & U & _). destruct (count_step r n be al (flip C) Lb La HC' gd' gd _ N U i v Hi L) as (q & E1 & E2). cbv beta in E2. rewrite E1, E2.
  rewrite (proj2 (Z.ltb_lt _ _) Q). destruct (Z.ltb_spec 0 (dot r v (al i))); [lia|reflexivity].
Qed.
Lemma neg_zero v : negatives v = 0%nat <-> dominant r n be v.
Proof. rewrite negatives_eq. apply (count_zero r n be C Lb). apply (pos_ok r n A B p d K). Qed.
Lemma coneg_zero v : conegatives v = 0%nat <-> dominant r n al v.
Proof. rewrite conegatives_eq. apply (count_zero r n al (flip C) La). apply (pos_ok r n A B p d K). Qed.
Lemma two i : (i < n)%nat -> dot r (al i) (be i) = 2. Proof. apply (proj1 (proj1 gd)). Qed.

Theorem factor_dominant_ok v : length v = r ->
  gives (factor_dominant fits idZ d v) (fun q => length (snd q) = r /\ dominant r n be (snd q) /\ letters (fst q) /\ length (fst q) = negatives v /\ act_by r al be (fst q) (snd q) = v) E.
Proof.
  intros L. unfold factor_dominant. rewrite (k_ss r n A B p d K). eapply gives_mono.
  - apply (factor_gen E r n al be negatives neg_step La two) with (back := fun w => w).
    + intros x i Lx Hi. rewrite (proj2 (d_simple_run r n A B p d K i Hi)). cbn [bind]. eapply gives_bind; [apply (dot_into_run fits r); auto|]. intros c <-. cbn. apply Z.ltb_lt.
    + intros x i Lx Hi. eapply gives_mono; [apply (simple_run fits r n A B p d K i x 0 Hi Lx)|]. intros y <-. unfold reflect_at. f_equal. lia.
    + reflexivity.
    + unfold d_npos. pose proof (proj1 (neg_le v)). lia.
    + exact L.
    + constructor.
  - intros q (Q1 & Q2 & Q3 & Q4 & Q5). split; [exact Q1|]. split; [exact Q2|]. split; [exact Q3|]. cbn in Q4. rewrite (proj2 (neg_zero (snd q)) Q2) in Q4. split; [lia|exact Q5].
Qed.
Theorem factor_codominant_ok v : length v = r ->
  gives (factor_codominant fits idZ d v) (fun q => length (snd q) = r /\ dominant r n al (snd q) /\ letters (fst q) /\ length (fst q) = conegatives v /\ act_by r be al (rev (fst q)) (snd q) = v) E.
Proof.
  intros L. unfold factor_codominant. rewrite (k_ss r n A B p d K). eapply gives_mono.
  - apply (factor_gen E r n be al conegatives coneg_step Lb) with (back := @rev nat).
    + intros i Hi. rewrite dot_comm. apply two; exact Hi.
    + intros x i Lx Hi. rewrite (proj1 (d_simple_run r n A B p d K i Hi)). cbn [bind]. eapply gives_bind; [apply (dot_into_run fits r); auto|]. intros c <-. cbn. apply Z.ltb_lt.
    + intros x i Lx Hi. eapply gives_mono; [apply (simple_run fits r n A B p d K i x 0 Hi Lx)|]. intros y <-. unfold reflect_at. f_equal. rewrite dot_comm. lia.
    + reflexivity.
    + unfold d_npos. pose proof (proj2 (neg_le v)). lia.
    + exact L.
    + constructor.
  - intros q (Q1 & Q2 & Q3 & Q4 & Q5). split; [exact Q1|]. split; [exact Q2|]. split; [rewrite <- (rev_involutive (fst q)); apply letters_rev; exact Q3|]. cbn in Q4. rewrite (proj2 (coneg_zero (snd q)) Q2), rev_length in Q4. split; [lia|exact Q5].
Qed.
(** among the words that take a dominant vector to v the one found is shortest *)
Lemma shortest ww v : letters ww -> length v = r -> dominant r n be v -> (negatives (act_by r al be ww v) <= length ww)%nat.
Proof. intros H L D. rewrite negatives_eq. destruct (pos_ok r n A B p d K) as (_ & N & _ & U). apply (count_word r n al be C La Lb HC gd gd' _ N U ww v H L D). Qed.
Lemma coshortest ww v : letters ww -> length v = r -> dominant r n al v -> (conegatives (act_by r be al ww v) <= length ww)%nat.
Proof. intros H L D. rewrite conegatives_eq. destruct (pos_ok r n A B p d K) as (N & _ & U & _). apply (count_word r n be al (flip C) Lb La HC' gd' gd _ N U ww v H L D). Qed.
Lemma unique_dominant w1 w2 v1 v2 : letters w1 -> letters w2 -> length v1 = r -> length v2 = r -> dominant r n be v1 -> dominant r n be v2 -> act_by r al be w1 v1 = act_by r al be w2 v2 -> v1 = v2.
Proof. apply (dominant_unique r n al be C La Lb HC gd). Qed.
Lemma unique_codominant w1 w2 v1 v2 : letters w1 -> letters w2 -> length v1 = r -> length v2 = r -> dominant r n al v1 -> dominant r n al v2 -> act_by r be al w1 v1 = act_by r be al w2 v2 -> v1 = v2.
Proof. apply (dominant_unique r n be al (flip C) Lb La HC' gd'). Qed.
(** ** the sum of the positive roots *)
Lemma rho_ok : length (d_2rho d) = r /\ length (d_dual_2rho d) = r /\
  (forall i, (i < n)%nat -> dot r (d_2rho d) (be i) = 2) /\ (forall i, (i < n)%nat -> dot r (al i) (d_dual_2rho d) = 2).
Proof.
  destruct (pos_ok r n A B p d K) as (N & N' & U & U'). rewrite (k_2rho _ _ _ _ _ _ K), (k_dual_2rho _ _ _ _ _ _ K). split; [apply vsum_length|]. split; [apply vsum_length|]. split.
  - intros i Hi. pose proof (two_rho r n al be C La HC gd gd' (pos_roots d) i N U Hi) as T. unfold pos_roots in T. rewrite map_map in T. exact T.
  - intros i Hi. rewrite dot_comm. pose proof (two_rho r n be al (flip C) Lb HC' gd' gd (pos_coroots d) i N' U' Hi) as T. unfold pos_coroots in T. rewrite map_map in T. exact T.
Qed.
Lemma rho_pos : forall i, (i < n)%nat -> 0 < dot r (d_2rho d) (be i).
Proof. intros i Hi. rewrite (proj1 (proj2 (proj2 rho_ok)) i Hi). lia. Qed.
Lemma rho_dominant : dominant r n be (d_2rho d).
Proof. intros i Hi. pose proof (rho_pos i Hi). lia. Qed.
Lemma same_word w1 w2 v : letters w1 -> letters w2 -> act_by r al be w1 (d_2rho d) = act_by r al be w2 (d_2rho d) -> length v = r -> act_by r al be w1 v = act_by r al be w2 v.
Proof. intros H1 H2. apply (regular_same r n al be C La Lb HC gd gd' (d_2rho d) w1 w2 v (proj1 rho_ok) rho_pos H1 H2). Qed.
(** the word found for the image of 2 rho by the action of a word *)
Lemma word_from ww x : letters ww -> x = act_by r al be ww (d_2rho d) ->
  gives (to_dominant fits idZ d x) (fun w => letters w /\ (length w <= length ww)%nat /\ forall v, length v = r -> act_by r al be w (act_by r al be ww v) = v) E.
Proof.
  intros H ->. unfold to_dominant. pose proof (proj1 rho_ok) as Lr. eapply gives_bind; [apply factor_dominant_ok; apply act_length; exact Lr|]. intros [w1 v1] (Q1 & Q2 & Q3 & Q4 & Q5). cbn [fst snd gives] in *.
  pose proof (unique_dominant w1 ww v1 (d_2rho d) Q3 H Q1 Lr Q2 rho_dominant Q5) as ->. split; [apply letters_rev; exact Q3|]. split; [rewrite rev_length, Q4; apply shortest; auto using rho_dominant|].
  intros v L. rewrite <- (same_word w1 ww v Q3 H Q5 L). apply (rev_act r n al be C La HC gd); assumption.
Qed.
Lemma word_of_inverse_matrix_ok q g ww : is_mx q r r g -> letters ww -> (forall v, length v = r -> comb r r (fcol r g) v = act_by r al be ww v) ->
  gives (word_of_inverse_matrix fits d q) (fun w => letters w /\ (length w <= length ww)%nat /\ forall v, length v = r -> act_by r al be w (act_by r al be ww v) = v) E.
Proof.
  intros Hq H Hg. unfold word_of_inverse_matrix. eapply gives_bind; [apply (apply_run fits q r r g _ Hq); apply rho_ok|]. intros x <-. apply word_from; [exact H|apply Hg; apply rho_ok].
Qed.
(** every root is the image of a simple root by a word *)
Lemma root_word u w : root_coroot n C u w -> exists ww j, letters ww /\ (j < n)%nat /\ u = word_act n C ww (basis n j) /\ w = word_act n (flip C) ww (basis n j).
Proof.
  induction 1 as [i Hi|i u w Hi Rc (ww & j & H & Hj & -> & ->)]; [exists [], i; split; [constructor|]; auto|]. exists (i :: ww), j. split; [constructor; assumption|]. auto.
Qed.
Lemma reflection_as_word a : (a < num_roots s)%nat -> exists ww, letters ww /\ forall v, length v = r -> act_by r al be ww v = reflect_at r (emb (root_at s a)) (coemb (coroot_at s a)) v.
Proof.
  intros Ha. destruct (root_word _ _ (k_at r n A B p d K a Ha)) as (ww & j & H & Hj & -> & ->). exists (ww ++ [j] ++ rev ww). split; [apply Forall_app; split; [exact H|]; constructor; [exact Hj|apply letters_rev; exact H]|].
  intros v L. rewrite (rfl_word r n al be C La Lb HC gd) by assumption. rewrite !act_app. reflexivity.
Qed.
Lemma reflection_word_ok a : (a < num_roots s)%nat ->
  gives (d_reflection_word fits d a) (fun w => letters w /\ (forall v, length v = r -> act_by r al be w v = reflect_at r (emb (root_at s a)) (coemb (coroot_at s a)) v) /\
    forall ww, letters ww -> (forall v, length v = r -> act_by r al be ww v = reflect_at r (emb (root_at s a)) (coemb (coroot_at s a)) v) -> (length w <= length ww)%nat) E.
Proof.
  intros Ha. destruct (reflection_as_word a Ha) as (ww & H & Q). unfold d_reflection_word. pose proof (proj1 rho_ok) as Lr. eapply gives_bind; [apply (reflect_run fits r n A B p d K a _ 0 Ha Lr)|]. intros x <-.
  set (x := away r (d_2rho d) _ _). assert (Lx : length x = r) by apply away_length.
  assert (Ex : x = act_by r al be ww (d_2rho d)) by (rewrite Q by exact Lr; unfold x, reflect_at; f_equal; lia).
  unfold to_dominant. eapply gives_bind; [apply factor_dominant_ok; exact Lx|]. intros [w1 v1] (Q1 & Q2 & Q3 & Q4 & Q5). cbn [fst snd gives] in *.
  rewrite Ex in Q5. pose proof (unique_dominant w1 ww v1 (d_2rho d) Q3 H Q1 Lr Q2 rho_dominant Q5) as ->.
  assert (P2 : dot r (emb (root_at s a)) (coemb (coroot_at s a)) = 2) by (apply (pairing_2 r n A B p d K a Ha)).
  split; [apply letters_rev; exact Q3|]. split.
  - intros v L. set (T := reflect_at r (emb (root_at s a)) (coemb (coroot_at s a))) in *. assert (LT : length (T v) = r) by apply ra_length.
    assert (TT : T (T v) = v) by (apply ra_ra; [exact L|apply comb_length|exact P2]).
    transitivity (act_by r al be (rev w1) (act_by r al be w1 (T v))); [f_equal; rewrite (same_word w1 ww (T v) Q3 H Q5 LT), (Q (T v) LT), TT; reflexivity|]. apply (rev_act r n al be C La HC gd); assumption.
  - intros w2 H2 Q'. rewrite rev_length, Q4. rewrite Ex, Q, <- Q' by exact Lr. apply shortest; auto using rho_dominant.
Qed.
End Factors.
