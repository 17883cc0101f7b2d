(** Weyl groups acting on lattices: words, exchange, dominant vectors. *)

From Coq Require Import List Arith ZArith Bool Lia Permutation.
From Verif Require Import MatSpec MatLin LieTypeSpec RootSpec RootMath RootForm RootFin RootCo RootAcc RootBasis DatSpec.
Import ListNotations.
Local Open Scope Z_scope.

Lemma zsum_add m f g : zsum m (fun i => f i + g i) = zsum m f + zsum m g.
Proof. unfold zsum. induction m as [|m IH]; [reflexivity|]. cbn. rewrite IH. lia. Qed.

Section Dot.
Variable r : nat.
Notation dt := (dot r).
Lemma dot_comm v w : dt v w = dt w v.
Proof. apply zsum_ext. intros k _. lia. Qed.
Lemma dot_away v c a w : length v = r -> length a = r -> dt (away r v c a) w = dt v w - c * dt a w.
Proof.
  intros Lv La. unfold dot. replace (zsum r (fun k => co v k * co w k) - c * zsum r (fun k => co a k * co w k)) with (zsum r (fun k => co v k * co w k) + (- c) * zsum r (fun k => co a k * co w k)) by lia.
  rewrite <- zsum_mul_l, <- zsum_add. apply zsum_ext. intros k _. rewrite co_away by assumption. lia.
Qed.
Lemma dot_away_r v c a w : length v = r -> length a = r -> dt w (away r v c a) = dt w v - c * dt w a.
Proof. intros Lv La. rewrite (dot_comm w), dot_away by assumption. rewrite (dot_comm v), (dot_comm a). reflexivity. Qed.
Lemma dot_opp v w : dt (opp v) w = - dt v w.
Proof. unfold dot. replace (- zsum r (fun k => co v k * co w k)) with (-1 * zsum r (fun k => co v k * co w k)) by lia. rewrite <- zsum_mul_l. apply zsum_ext. intros k _. rewrite co_opp. lia. Qed.
Lemma dot_opp_r v w : dt v (opp w) = - dt v w.
Proof. rewrite dot_comm, dot_opp, dot_comm. reflexivity. Qed.
Lemma ra_length a b v : length (reflect_at r a b v) = r. Proof. apply away_length. Qed.
(** the reflection on one side is adjoint to that on the other side *)
Lemma dot_reflect a b v w : length v = r -> length w = r -> length a = r -> length b = r -> dt (reflect_at r a b v) w = dt v (reflect_at r b a w).
Proof. intros Lv Lw La Lb. unfold reflect_at. rewrite dot_away, dot_away_r by assumption. rewrite (dot_comm w a). lia. Qed.
Lemma ra_ra a b v : length v = r -> length a = r -> dt a b = 2 -> reflect_at r a b (reflect_at r a b v) = v.
Proof.
  intros Lv La E. apply vec_ext; [rewrite ra_length; lia|]. intros k _. unfold reflect_at at 1. rewrite co_away by (rewrite ?ra_length; auto). unfold reflect_at. rewrite dot_away, co_away by assumption. rewrite E. lia.
Qed.
Lemma ra_opp a b v : reflect_at r (opp a) (opp b) v = reflect_at r a b v.
Proof. unfold reflect_at, away. apply map_ext. intros k. rewrite dot_opp_r, co_opp. lia. Qed.
Lemma comb_length n al u : length (comb r n al u) = r. Proof. unfold comb. rewrite map_length, seq_length. reflexivity. Qed.
Lemma co_comb n al u k : (k < r)%nat -> co (comb r n al u) k = zsum n (fun i => co u i * co (al i) k).
Proof. intros H. unfold comb. rewrite co_map by exact H. reflexivity. Qed.
Lemma dot_comb n al u w : dt (comb r n al u) w = zsum n (fun i => co u i * dt (al i) w).
Proof.
  unfold dot. transitivity (zsum r (fun k => zsum n (fun i => co u i * co (al i) k * co w k))).
  - apply zsum_ext. intros k Hk. rewrite co_comb by exact Hk. symmetry. transitivity (zsum n (fun i => co w k * (co u i * co (al i) k))); [apply zsum_ext; intros; lia|]. rewrite zsum_mul_l. lia.
  - rewrite zsum_swap. apply zsum_ext. intros i _. rewrite <- zsum_mul_l. apply zsum_ext. intros. lia.
Qed.
Lemma dot_comb_r n al u w : dt w (comb r n al u) = zsum n (fun i => co u i * dt w (al i)).
Proof. rewrite dot_comm, dot_comb. apply zsum_ext. intros i _. rewrite dot_comm. reflexivity. Qed.
Lemma comb_basis n al i : (i < n)%nat -> length (al i) = r -> comb r n al (basis n i) = al i.
Proof.
  intros H L. apply vec_ext; [rewrite comb_length; lia|]. intros k Hk. rewrite comb_length in Hk. rewrite co_comb by exact Hk. rewrite (zsum_one n i); [rewrite co_basis, Nat.eqb_refl by exact H; lia|exact H|].
  intros j _ N. rewrite co_basis by exact H. rewrite (proj2 (Nat.eqb_neq j i) N). lia.
Qed.
Lemma comb_opp n al u : comb r n al (opp u) = opp (comb r n al u).
Proof.
  apply vec_ext; [rewrite opp_length, !comb_length; reflexivity|]. intros k Hk. rewrite comb_length in Hk. rewrite co_opp, !co_comb by exact Hk.
  replace (- zsum n (fun i => co u i * co (al i) k)) with (-1 * zsum n (fun i => co u i * co (al i) k)) by lia. rewrite <- zsum_mul_l. apply zsum_ext. intros i _. rewrite co_opp. lia.
Qed.
Lemma comb_bump n al u i z : (i < n)%nat -> length u = n -> length (al i) = r -> comb r n al (bump u i z) = away r (comb r n al u) (- z) (al i).
Proof.
  intros H L La. apply vec_ext; [rewrite away_length, comb_length; reflexivity|]. intros k Hk. rewrite comb_length in Hk. rewrite co_away by (rewrite ?comb_length; auto). rewrite !co_comb by exact Hk.
  replace (zsum n (fun i0 => co u i0 * co (al i0) k) - - z * co (al i) k) with (zsum n (fun i0 => co u i0 * co (al i0) k) + z * co (al i) k) by lia.
  apply (zsum_bump _ _ _ i); [exact H|]. intros j Hj. rewrite co_bump by lia. destruct (Nat.eqb_spec j i) as [->|N]; lia.
Qed.
Lemma comb_away n al u c x : length u = n -> length x = n -> comb r n al (away n u c x) = away r (comb r n al u) c (comb r n al x).
Proof.
  intros Lu Lx. apply vec_ext; [rewrite away_length, comb_length; reflexivity|]. intros k Hk. rewrite comb_length in Hk. rewrite co_away by (rewrite ?comb_length; auto). rewrite !co_comb by exact Hk.
  replace (zsum n (fun i => co u i * co (al i) k) - c * zsum n (fun i => co x i * co (al i) k)) with (zsum n (fun i => co u i * co (al i) k) + (- c) * zsum n (fun i => co x i * co (al i) k)) by lia.
  rewrite <- zsum_mul_l, <- zsum_add. apply zsum_ext. intros i _. rewrite co_away by assumption. lia.
Qed.
Lemma comb_ext n al al' u : (forall i, (i < n)%nat -> al i = al' i) -> comb r n al u = comb r n al' u.
Proof. intros H. unfold comb. apply map_ext. intros k. apply zsum_ext. intros i Hi. rewrite H by exact Hi. reflexivity. Qed.
End Dot.

(** a family of simple roots and coroots *)
Section Act.
Variables (r n : nat) (al be : nat -> list Z) (C : nat -> nat -> Z).
Hypothesis La : forall i, (i < n)%nat -> length (al i) = r.
Hypothesis Lb : forall i, (i < n)%nat -> length (be i) = r.
Hypothesis HC : forall i j, (i < n)%nat -> (j < n)%nat -> dot r (al i) (be j) = C i j.
Hypothesis gd : good n C.
Hypothesis gd' : good n (flip C).
Notation emb := (comb r n al).
Notation coemb := (comb r n be).
Notation sv := (fun i => reflect_at r (al i) (be i)).
Notation csv := (fun i => reflect_at r (be i) (al i)).
Notation act := (act_by r al be).
Notation cact := (act_by r be al).
Notation letters := (Forall (fun i => (i < n)%nat)).

Let cart : Cartan_like n C := proj1 gd.
Let cart' : Cartan_like n (flip C) := proj1 gd'.
Lemma C2 i : (i < n)%nat -> C i i = 2. Proof. apply (proj1 cart). Qed.
Lemma small3 i j : (i < n)%nat -> (j < n)%nat -> i <> j -> C i j * C j i <= 3.
Proof. pose proof gd as (ca & (d & dp & sy & po) & _). exact (small_products n C d ca dp sy po i j). Qed.
Lemma small3' i j : (i < n)%nat -> (j < n)%nat -> i <> j -> flip C i j * flip C j i <= 3.
Proof. unfold flip. intros. apply small3; auto. Qed.

Lemma dot_emb u i : (i < n)%nat -> dot r (emb u) (be i) = pairing n C u i.
Proof. intros H. rewrite dot_comb. apply zsum_ext. intros j Hj. rewrite HC by assumption. reflexivity. Qed.
Lemma dot_coemb w i : (i < n)%nat -> dot r (al i) (coemb w) = pairing n (flip C) w i.
Proof. intros H. rewrite dot_comb_r. apply zsum_ext. intros j Hj. rewrite HC by assumption. reflexivity. Qed.
Lemma dot_emb_coemb u w : dot r (emb u) (coemb w) = value n C u w.
Proof. rewrite dot_comb. unfold value. apply zsum_ext. intros i Hi. rewrite dot_comb_r, <- zsum_mul_l. apply zsum_ext. intros j Hj. rewrite HC by assumption. lia. Qed.
Lemma emb_sr i u : (i < n)%nat -> length u = n -> emb (sreflect n C i u) = sv i (emb u).
Proof. intros H L. unfold sreflect. rewrite comb_bump by auto. unfold reflect_at. rewrite dot_emb by exact H. f_equal. lia. Qed.
Lemma coemb_sr i w : (i < n)%nat -> length w = n -> coemb (sreflect n (flip C) i w) = csv i (coemb w).
Proof. intros H L. unfold sreflect. rewrite comb_bump by auto. unfold reflect_at. rewrite dot_comm, dot_coemb by exact H. f_equal. lia. Qed.
Lemma sv_sv i v : (i < n)%nat -> length v = r -> sv i (sv i v) = v.
Proof. intros H L. apply ra_ra; auto. rewrite HC by exact H. apply C2; exact H. Qed.
Lemma csv_csv i v : (i < n)%nat -> length v = r -> csv i (csv i v) = v.
Proof. intros H L. apply ra_ra; auto. rewrite dot_comm, HC by exact H. apply C2; exact H. Qed.
Lemma act_length ww v : length v = r -> length (act ww v) = r.
Proof. intros L. destruct ww as [|i ww]; [exact L|]. cbn. apply ra_length. Qed.
Lemma act_app w1 w2 v : act (w1 ++ w2) v = act w1 (act w2 v).
Proof. unfold act_by. apply fold_right_app. Qed.
Lemma act_rev ww v : letters ww -> length v = r -> act ww (act (rev ww) v) = v.
Proof.
  intros H L. revert v L. induction H as [|i ww Hi H IH]; intros v L; [reflexivity|]. cbn [rev]. rewrite act_app. cbn [act_by fold_right].
  fold (act ww (act (rev ww) (sv i v))). rewrite IH by apply ra_length. apply sv_sv; assumption.
Qed.
Lemma letters_rev ww : letters ww -> letters (rev ww). Proof. apply Forall_rev. Qed.
Lemma rev_act ww v : letters ww -> length v = r -> act (rev ww) (act ww v) = v.
Proof. intros H L. pose proof (act_rev (rev ww) v (letters_rev ww H) L) as E. rewrite rev_involutive in E. exact E. Qed.
Lemma act_inj ww v v' : letters ww -> length v = r -> length v' = r -> act ww v = act ww v' -> v = v'.
Proof. intros H L L' E. rewrite <- (rev_act ww v H L), E. apply rev_act; assumption. Qed.
(** action on weights and coweights *)
Lemma dot_act ww v x : letters ww -> length v = r -> length x = r -> dot r (act ww v) x = dot r v (cact (rev ww) x).
Proof.
  intros H. revert v x. induction H as [|i ww Hi H IH]; intros v x L Lx; [reflexivity|]. cbn [act_by fold_right rev]. unfold act_by. rewrite fold_right_app. cbn [fold_right]. fold (act ww v).
  rewrite dot_reflect by (auto using act_length). rewrite IH by (auto using ra_length). reflexivity.
Qed.
Lemma emb_act ww u : letters ww -> length u = n -> emb (word_act n C ww u) = act ww (emb u).
Proof.
  intros H L. induction H as [|i ww Hi H IH]; [reflexivity|]. cbn [word_act act_by fold_right]. fold (word_act n C ww u). fold (act ww (emb u)). rewrite <- IH. apply emb_sr; [exact Hi|].
  unfold word_act. clear IH. induction H as [|j ww Hj H IH]; [exact L|]. cbn. rewrite sr_length. exact IH.
Qed.
Lemma word_act_length (D : nat -> nat -> Z) ww u : length u = n -> length (word_act n D ww u) = n.
Proof. intros L. induction ww as [|j ww IH]; [exact L|]. cbn. rewrite sr_length. exact IH. Qed.
Lemma coemb_act ww u : letters ww -> length u = n -> coemb (word_act n (flip C) ww u) = cact ww (coemb u).
Proof.
  intros H L. induction H as [|i ww Hi H IH]; [reflexivity|]. cbn [word_act act_by fold_right]. fold (word_act n (flip C) ww u). fold (cact ww (coemb u)). rewrite <- IH. apply coemb_sr; [exact Hi|]. apply word_act_length. exact L.
Qed.
(** roots moved by a word *)
Lemma rc_word ww u w : letters ww -> root_coroot n C u w -> root_coroot n C (word_act n C ww u) (word_act n (flip C) ww w).
Proof. intros H R. induction H as [|i ww Hi H IH]; [exact R|]. cbn. apply rc_reflect; assumption. Qed.
(** reflections conjugated by simple reflections and words *)
Notation rfl u w := (reflect_at r (emb u) (coemb w)).
Lemma ra_away i x c y : (i < n)%nat -> length x = r -> length y = r -> sv i (away r x c y) = away r (sv i x) c (sv i y).
Proof.
  intros Hi Lx Ly. cbv beta. pose proof (La i Hi). apply vec_ext; [rewrite ra_length, away_length; reflexivity|]. intros l _. unfold reflect_at. rewrite !co_away by (rewrite ?away_length; auto). rewrite dot_away by assumption. lia.
Qed.
Lemma rfl_conj i u w v : (i < n)%nat -> length u = n -> length w = n -> length v = r ->
  rfl (sreflect n C i u) (sreflect n (flip C) i w) v = sv i (rfl u w (sv i v)).
Proof.
  intros Hi Lu Lw Lv. rewrite emb_sr, coemb_sr by assumption. assert (Le : length (emb u) = r) by apply comb_length. assert (Lc : length (coemb w) = r) by apply comb_length.
  pose proof (La i Hi). pose proof (Lb i Hi). cbv beta.
  change (reflect_at r (emb u) (coemb w) (reflect_at r (al i) (be i) v)) with (away r (reflect_at r (al i) (be i) v) (dot r (reflect_at r (al i) (be i) v) (coemb w)) (emb u)).
  pose proof (ra_away i (reflect_at r (al i) (be i) v) (dot r (reflect_at r (al i) (be i) v) (coemb w)) (emb u) Hi (ra_length r _ _ _) Le) as Q. cbv beta in Q. rewrite Q.
  pose proof (sv_sv i v Hi Lv) as V2. cbv beta in V2. rewrite V2. unfold reflect_at at 1. f_equal. symmetry. apply dot_reflect; auto.
Qed.
Lemma rfl_basis i v : (i < n)%nat -> rfl (basis n i) (basis n i) v = sv i v.
Proof. intros H. rewrite !comb_basis by auto. reflexivity. Qed.
Lemma rfl_word ww j v : letters ww -> (j < n)%nat -> length v = r -> rfl (word_act n C ww (basis n j)) (word_act n (flip C) ww (basis n j)) v = act ww (sv j (act (rev ww) v)).
Proof.
  intros H Hj. revert v. induction H as [|i ww Hi H IH]; intros v L; [apply rfl_basis; exact Hj|]. cbn [word_act fold_right rev]. fold (word_act n C ww (basis n j)). fold (word_act n (flip C) ww (basis n j)).
  rewrite rfl_conj by (try assumption; apply word_act_length; apply basis_length). rewrite IH by apply ra_length. rewrite act_app. reflexivity.
Qed.
(** exchange: a letter that makes the word act on a simple root with negative result cancels *)
Lemma up_dec u : is_root n C u -> {up n C u} + {up n C (opp u)}.
Proof.
  intros R. destruct (Z_le_gt_dec 0 (height u)) as [L|L].
  - left. destruct (root_up n C cart small3 u R) as [U|U]; [exact U|]. pose proof (up_height n C _ U) as H. rewrite height_zsum, opp_length in H.
    assert (E : zsum (length u) (co (opp u)) = - height u). { rewrite height_zsum. replace (- zsum (length u) (co u)) with (-1 * zsum (length u) (co u)) by lia. rewrite <- zsum_mul_l. apply zsum_ext. intros k _. rewrite co_opp. lia. } lia.
  - right. destruct (root_up n C cart small3 u R) as [U|U]; [|exact U]. pose proof (up_height n C _ U). lia.
Qed.
Lemma up_not_opp u : up n C u -> up n C (opp u) -> False.
Proof.
  intros U V. pose proof (up_nonneg n C _ U) as N1. pose proof (up_nonneg n C _ V) as N2. pose proof (up_height n C _ U) as H. rewrite height_zsum in H.
  assert (E : zsum (length u) (co u) <= 0); [|lia]. rewrite <- (zsum_ext (length u) (fun _ => 0) (co u)); [clear; unfold zsum; induction (length u); cbn; lia|]. intros k _. specialize (N1 k). specialize (N2 k). rewrite co_opp in N2. lia.
Qed.
Lemma exchange ww j : letters ww -> (j < n)%nat -> up n C (opp (word_act n C ww (basis n j))) ->
  exists w', letters w' /\ length w' = (length ww - 1)%nat /\ (0 < length ww)%nat /\ forall v, length v = r -> act (ww ++ [j]) v = act w' v.
Proof.
  intros H Hj. induction H as [|i ww Hi H IH]; intros U.
  - exfalso. cbn in U. apply (up_not_opp _ (up_simple n C j Hj) U).
  - set (u := word_act n C ww (basis n j)) in *. assert (R : root_coroot n C u (word_act n (flip C) ww (basis n j))) by (apply rc_word; [exact H|apply rc_simple; exact Hj]).
    destruct (up_dec u (ex_intro _ _ R)) as [P|P].
    + destruct (list_eq_dec Z.eq_dec u (basis n i)) as [E|N].
      * exists ww. split; [exact H|]. split; [cbn; lia|]. split; [cbn; lia|]. intros v L. cbn [app]. cbn [act_by fold_right]. fold (act (ww ++ [j]) v). rewrite act_app. cbn [act_by fold_right]. fold (act ww (reflect_at r (al j) (be j) v)).
        assert (X : act ww (sv j v) = sv i (act ww v)).
        { rewrite <- (rfl_basis i (act ww v) Hi). assert (E2 : word_act n (flip C) ww (basis n j) = basis n i) by (apply (rc_unique n C gd u); [exact R|rewrite E; apply rc_simple; exact Hi]).
          rewrite <- E at 1. rewrite <- E2. rewrite (rfl_word ww j _ H Hj) by (apply act_length; exact L). rewrite rev_act by assumption. reflexivity. }
        cbv beta in X. rewrite X. apply sv_sv; [exact Hi|apply act_length; exact L].
      * exfalso. apply (up_not_opp (sreflect n C i u)); [apply (up_closed n C cart small3); assumption|exact U].
    + destruct (IH P) as (w' & W1 & W2 & W3 & W4). exists (i :: w'). split; [constructor; assumption|]. cbn [length]. split; [lia|]. split; [lia|]. intros v L. cbn [app act_by fold_right]. fold (act (ww ++ [j]) v). fold (act w' v). rewrite W4 by exact L. reflexivity.
Qed.
(** on the left *)
Lemma exchange_left ww i : letters ww -> (i < n)%nat -> up n C (opp (word_act n C (rev ww) (basis n i))) ->
  exists w', letters w' /\ length w' = (length ww - 1)%nat /\ (0 < length ww)%nat /\ forall v, length v = r -> act (i :: ww) v = act w' v.
Proof.
  intros H Hi U. destruct (exchange (rev ww) i (letters_rev ww H) Hi U) as (w' & W1 & W2 & W3 & W4). rewrite rev_length in W2, W3.
  exists (rev w'). split; [apply letters_rev; exact W1|]. split; [rewrite rev_length; exact W2|]. split; [exact W3|]. intros v L.
  assert (Hw : letters (i :: ww)) by (constructor; assumption).
  apply (act_inj w'); [exact W1|apply act_length; exact L|apply act_length; exact L|]. rewrite act_rev by assumption. rewrite <- W4 by (apply act_length; exact L).
  pose proof (rev_act (i :: ww) v Hw L) as E. exact E.
Qed.
(** combinations of simple roots with coefficients that are not negative *)
Definition above (x y : list Z) : Prop := exists c, length c = n /\ nonneg c /\ x = away r y (-1) (emb c).
Lemma zero_nonneg m : nonneg (repeat 0 m).
Proof. intros k. unfold co. rewrite nth_repeat. lia. Qed.
Lemma comb_zero m : emb (repeat 0 m) = repeat 0 r.
Proof.
  apply vec_ext; [rewrite comb_length, repeat_length; reflexivity|]. intros k Hk. rewrite comb_length in Hk. rewrite co_comb by exact Hk. unfold co at 3. rewrite nth_repeat.
  rewrite (zsum_ext _ _ (fun _ => 0)); [clear; unfold zsum; induction n; cbn; lia|]. intros i _. unfold co at 1. rewrite nth_repeat. lia.
Qed.
Lemma above_refl x : length x = r -> above x x.
Proof.
  intros L. exists (repeat 0 n). split; [apply repeat_length|]. split; [apply zero_nonneg|]. rewrite comb_zero. apply vec_ext; [rewrite away_length; exact L|]. intros k _. rewrite co_away by (rewrite ?repeat_length; auto). unfold co at 3. rewrite nth_repeat. lia.
Qed.
Lemma above_trans x y z : length z = r -> above x y -> above y z -> above x z.
Proof.
  intros L (c & Lc & Nc & ->) (e & Le & Ne & ->). exists (plus n c e). split; [apply plus_length|]. split; [intros k; rewrite co_plus by assumption; specialize (Nc k); specialize (Ne k); lia|].
  rewrite <- away_plus, comb_away by (rewrite ?opp_length; assumption). apply vec_ext; [rewrite !away_length; reflexivity|]. intros k _. rewrite !co_away by (rewrite ?away_length, ?comb_length; auto). rewrite comb_opp, co_opp. lia.
Qed.
Lemma up_pairing_nonneg v u w : dominant r n be v -> root_coroot n C u w -> nonneg w -> 0 <= dot r v (coemb w).
Proof. intros D R N. rewrite dot_comb_r. apply zsum_nonneg. intros k Hk. specialize (N k). specialize (D k Hk). nia. Qed.
Lemma co_nonneg u w : root_coroot n C u w -> up n C u -> nonneg w.
Proof. intros R U. pose proof gd as (ca & (d & dp & sy & po) & _). apply (coroot_nonneg n C d ca dp sy u w R). apply (up_nonneg n C). exact U. Qed.
(** a dominant vector is above its images *)
Lemma dominant_above ww v : letters ww -> length v = r -> dominant r n be v -> above v (act ww v).
Proof.
  remember (length ww) as m eqn:Em. revert ww Em. induction m as [m IH] using lt_wf_ind. intros ww Em H L D.
  destruct ww as [|i ww]; [apply above_refl; exact L|]. inversion H as [|? ? Hi Hw]; subst. clear H.
  assert (R : root_coroot n C (word_act n C (rev ww) (basis n i)) (word_act n (flip C) (rev ww) (basis n i))) by (apply rc_word; [apply letters_rev; exact Hw|apply rc_simple; exact Hi]).
  destruct (up_dec _ (ex_intro _ _ R)) as [P|P].
  - apply (above_trans v (act ww v)); [apply act_length; exact L|apply (IH (length ww)); [cbn; lia|reflexivity|exact Hw|exact L|exact D]|].
    cbn [act_by fold_right]. fold (act ww v). set (x := act ww v). assert (Lx : length x = r) by (apply act_length; exact L).
    assert (E : dot r x (be i) = dot r v (coemb (word_act n (flip C) (rev ww) (basis n i)))).
    { rewrite coemb_act by (try apply letters_rev; auto using basis_length). rewrite comb_basis by auto. unfold x. apply dot_act; auto. }
    pose proof (up_pairing_nonneg v _ _ D R (co_nonneg _ _ R P)) as Q. rewrite <- E in Q.
    exists (bump (repeat 0 n) i (dot r x (be i))). split; [rewrite bump_length; apply repeat_length|]. split.
    + intros k. rewrite co_bump by (rewrite repeat_length; exact Hi). unfold co. rewrite nth_repeat. destruct (Nat.eqb k i); lia.
    + rewrite comb_bump by (auto; apply repeat_length). rewrite comb_zero. apply vec_ext; [rewrite away_length; exact Lx|]. intros k _. pose proof (La i Hi). unfold reflect_at. rewrite !co_away by (rewrite ?away_length, ?repeat_length; auto). unfold co at 4. rewrite nth_repeat. lia.
  - destruct (exchange_left ww i Hw Hi P) as (w' & W1 & W2 & W3 & W4). rewrite W4 by exact L. apply (IH (length w')); [cbn; lia|reflexivity|exact W1|exact L|exact D].
Qed.
(** the simple roots are independent *)
Lemma independent u : length u = n -> (forall k, (k < r)%nat -> co (emb u) k = 0) -> forall i, (i < n)%nat -> co u i = 0.
Proof.
  intros L Z0 i Hi. pose proof gd as (ca & (d & dp & sy & po) & _). destruct (Z.eq_dec (co u i) 0) as [E|N]; [exact E|].
  pose proof (fm_pos n C d po (co u) (ex_intro _ i (conj Hi N))) as P. exfalso. rewrite fm_pair in P.
  rewrite (zsum_ext _ _ (fun _ => 0)) in P; [revert P; clear; unfold zsum; assert (forall m, fsum Z.add 0 m (fun _ => 0) = 0) by (induction m; cbn; lia); rewrite H; lia|].
  intros j Hj. rewrite <- dot_emb by exact Hj. unfold dot. rewrite (zsum_ext _ _ (fun _ => 0)); [|intros k Hk; rewrite Z0 by exact Hk; lia].
  assert (forall m, zsum m (fun _ => 0) = 0) as -> by (unfold zsum; induction m; cbn; lia). lia.
Qed.
Lemma above_antisym x y : length x = r -> length y = r -> above x y -> above y x -> x = y.
Proof.
  intros Lx Ly (c & Lc & Nc & E1) (e & Le & Ne & E2).
  assert (Z0 : forall k, (k < r)%nat -> co (emb (plus n c e)) k = 0).
  { intros k Hk. rewrite <- away_plus, comb_away by (rewrite ?opp_length; assumption). rewrite co_away by (rewrite ?comb_length; auto). rewrite comb_opp, co_opp.
    assert (A : co x k = co y k + co (emb c) k) by (rewrite E1, co_away by (rewrite ?comb_length; auto); lia). assert (B : co y k = co x k + co (emb e) k) by (rewrite E2, co_away by (rewrite ?comb_length; auto); lia). lia. }
  pose proof (independent (plus n c e) (plus_length n c e) Z0) as I.
  rewrite E1. apply vec_ext; [rewrite away_length; lia|]. intros k Hk. rewrite away_length in Hk. rewrite co_away by (rewrite ?comb_length; auto). rewrite co_comb by exact Hk.
  rewrite (zsum_ext _ _ (fun _ => 0)); [assert (forall m, zsum m (fun _ => 0) = 0) as -> by (unfold zsum; induction m; cbn; lia); lia|].
  intros i Hi. specialize (I i Hi). rewrite co_plus in I by assumption. specialize (Nc i). specialize (Ne i). assert (co c i = 0) by lia. rewrite H. lia.
Qed.
(** the dominant vector is unique in its orbit *)
Lemma dominant_unique w1 w2 v1 v2 : letters w1 -> letters w2 -> length v1 = r -> length v2 = r -> dominant r n be v1 -> dominant r n be v2 -> act w1 v1 = act w2 v2 -> v1 = v2.
Proof.
  intros H1 H2 L1 L2 D1 D2 E.
  assert (E1 : v2 = act (rev w2 ++ w1) v1) by (rewrite act_app, E; symmetry; apply rev_act; assumption).
  assert (E2 : v1 = act (rev w1 ++ w2) v2) by (rewrite act_app, <- E; symmetry; apply rev_act; assumption).
  apply above_antisym; [exact L1|exact L2| |].
  - rewrite E1 at 1. apply dominant_above; [apply Forall_app; split; [apply letters_rev|]; assumption|exact L1|exact D1].
  - rewrite E2 at 1. apply dominant_above; [apply Forall_app; split; [apply letters_rev|]; assumption|exact L2|exact D2].
Qed.
Lemma emb_inj u u' : length u = n -> length u' = n -> emb u = emb u' -> u = u'.
Proof.
  intros L L' E. apply vec_ext; [lia|]. intros k Hk. rewrite L in Hk.
  assert (Z0 : forall k, (k < r)%nat -> co (emb (away n u 1 u')) k = 0) by (intros l Hl; rewrite comb_away, co_away by (rewrite ?comb_length; auto); rewrite E; lia).
  pose proof (independent (away n u 1 u') (away_length n u 1 u') Z0 k Hk) as Q. rewrite co_away in Q by assumption. lia.
Qed.
Lemma same_roots w1 w2 u : letters w1 -> letters w2 -> (forall v, length v = r -> act w1 v = act w2 v) -> length u = n -> word_act n C w1 u = word_act n C w2 u.
Proof. intros H1 H2 E L. apply emb_inj; try (apply word_act_length; exact L). rewrite !emb_act by assumption. apply E. apply comb_length. Qed.
Lemma word_opp ww u : letters ww -> length u = n -> word_act n C ww (opp u) = opp (word_act n C ww u).
Proof.
  intros H L. induction H as [|i ww Hi H IH]; [reflexivity|]. cbn [word_act fold_right]. fold (word_act n C ww (opp u)). fold (word_act n C ww u). rewrite IH. apply sr_opp. rewrite word_act_length by exact L. exact Hi.
Qed.
(** a word that keeps the positive roots positive acts as the identity *)
Lemma keeps_identity ww v : letters ww -> (forall j, (j < n)%nat -> up n C (word_act n C ww (basis n j))) -> length v = r -> act ww v = v.
Proof.
  remember (length ww) as m eqn:Em. revert ww Em. induction m as [m IH] using lt_wf_ind. intros ww Em H K L.
  destruct ww as [|i ww0] eqn:Ew; [reflexivity|]. rewrite <- Ew in *. assert (NE : ww <> []) by (rewrite Ew; discriminate). clear i ww0 Ew.
  destruct (exists_last NE) as (u & j & E). rewrite E in H. apply Forall_app in H. destruct H as [Hu Hj]. inversion Hj as [|? ? Hj' _]; subst ww. clear NE.
  assert (U : up n C (opp (word_act n C u (basis n j)))).
  { specialize (K j Hj'). unfold word_act in K. rewrite fold_right_app in K. cbn [fold_right] in K. rewrite (sr_basis n C cart j Hj') in K. fold (word_act n C u (opp (basis n j))) in K. rewrite word_opp in K by (auto using basis_length). exact K. }
  destruct (exchange u j Hu Hj' U) as (w' & W1 & W2 & W3 & W4). rewrite W4 by exact L. rewrite app_length in Em. cbn in Em. apply (IH (length w')); [lia|reflexivity|exact W1| |exact L].
  intros k Hk. rewrite <- (same_roots (u ++ [j]) w'); [apply K; exact Hk| |exact W1|exact W4|apply basis_length]. apply Forall_app. split; assumption.
Qed.

(** ** counting the positive coroots that are negative on a vector *)
Variable P : list (list Z).
Hypothesis PN : NoDup P.
Hypothesis PU : forall w, In w P <-> up n (flip C) w.
Definition neg_count (v : list Z) : nat := length (filter (fun w => dot r v (coemb w) <? 0) P).
Lemma filter_perm {A} (f : A -> bool) l l' : Permutation l l' -> length (filter f l) = length (filter f l').
Proof. intros H. induction H; cbn; try (destruct (f x)); try (destruct (f y)); cbn; lia. Qed.
Lemma filter_map_length {A B} (f : B -> bool) (g : A -> B) l : length (filter f (map g l)) = length (filter (fun x => f (g x)) l).
Proof. induction l as [|x l IH]; [reflexivity|]. cbn. destruct (f (g x)); cbn; lia. Qed.
Lemma pos_split i : (i < n)%nat -> exists Q, Permutation P (basis n i :: Q) /\ Permutation (map (sreflect n (flip C) i) Q) Q.
Proof.
  intros Hi. destruct (in_split (basis n i) P (proj2 (PU _) (up_simple n (flip C) i Hi))) as (l1 & l2 & E). exists (l1 ++ l2).
  assert (Pm : Permutation P (basis n i :: (l1 ++ l2))) by (rewrite E; symmetry; apply Permutation_middle). split; [exact Pm|].
  assert (N2 : NoDup (basis n i :: (l1 ++ l2))) by (apply (Permutation_NoDup Pm PN)). inversion N2 as [|? ? NI NQ]; subst.
  assert (IQ : forall w, In w (l1 ++ l2) <-> up n (flip C) w /\ w <> basis n i).
  { intros w. split.
    - intros I. split; [apply PU; apply (Permutation_in _ (Permutation_sym Pm)); right; exact I|]. intros ->. apply NI; exact I.
    - intros [U N]. apply PU in U. apply (Permutation_in _ Pm) in U. destruct U as [U|U]; [congruence|exact U]. }
  assert (Cl : forall w, In w (l1 ++ l2) -> In (sreflect n (flip C) i w) (l1 ++ l2)).
  { intros w I. apply IQ in I. destruct I as [U N]. apply IQ. split; [apply (up_closed n (flip C) cart' small3'); assumption|]. intros Eq.
    pose proof (sr_sr n (flip C) cart' i w Hi (up_length n (flip C) w U)) as S2. rewrite Eq in S2. rewrite (sr_basis n (flip C) cart' i Hi) in S2.
    pose proof (up_nonneg n (flip C) w U i) as Q. rewrite <- S2, co_opp, co_basis, Nat.eqb_refl in Q by exact Hi. lia. }
  assert (Inv : forall w, In w (l1 ++ l2) -> sreflect n (flip C) i (sreflect n (flip C) i w) = w).
  { intros w I. apply IQ in I. apply (sr_sr n (flip C) cart' i w Hi). apply (up_length n (flip C)). apply I. }
  apply NoDup_Permutation; [|exact NQ|].
  - assert (G : forall l, NoDup l -> (forall w, In w l -> sreflect n (flip C) i (sreflect n (flip C) i w) = w) -> NoDup (map (sreflect n (flip C) i) l)).
    { intros l ND. induction ND as [|x l NX ND IH]; intros K; [constructor|]. cbn. constructor; [|apply IH; intros w I; apply K; right; exact I].
      intros I. apply in_map_iff in I. destruct I as (y & Ey & Iy). apply NX. rewrite <- (K x (or_introl eq_refl)), <- Ey, (K y (or_intror Iy)). exact Iy. }
    apply G; assumption.
  - intros w. split.
    + intros I. apply in_map_iff in I. destruct I as (y & <- & Iy). apply Cl; exact Iy.
    + intros I. apply in_map_iff. exists (sreflect n (flip C) i w). split; [apply Inv; exact I|apply Cl; exact I].
Qed.
Lemma count_step i v : (i < n)%nat -> length v = r -> exists q, neg_count v = ((if Z.ltb (dot r v (be i)) 0 then 1 else 0) + q)%nat /\ neg_count (sv i v) = ((if Z.ltb 0 (dot r v (be i)) then 1 else 0) + q)%nat.
Proof.
  intros Hi L. destruct (pos_split i Hi) as (Q & Pm & Ps). exists (length (filter (fun w => dot r v (coemb w) <? 0) Q)). unfold neg_count. rewrite (filter_perm _ _ _ Pm), (filter_perm _ _ _ Pm).
  assert (LQ : forall w, In w Q -> length w = n). { intros w I. apply (up_length n (flip C)). apply PU. apply (Permutation_in _ (Permutation_sym Pm)). right. exact I. }
  cbn [filter]. rewrite comb_basis by auto. pose proof (La i Hi) as Li. pose proof (Lb i Hi) as Lj. split; [destruct (dot r v (be i) <? 0); reflexivity|].
  assert (E0 : dot r (sv i v) (be i) = - dot r v (be i)) by (unfold reflect_at; rewrite dot_away, HC, C2 by assumption; lia). cbv beta in E0. rewrite E0.
  assert (E1 : (- dot r v (be i) <? 0) = (0 <? dot r v (be i))) by (destruct (Z.ltb_spec (- dot r v (be i)) 0), (Z.ltb_spec 0 (dot r v (be i))); first [reflexivity|exfalso; lia]). rewrite E1.
  assert (E2 : length (filter (fun w => dot r (reflect_at r (al i) (be i) v) (coemb w) <? 0) Q) = length (filter (fun w => dot r v (coemb w) <? 0) Q)).
  { rewrite <- (filter_perm _ _ _ Ps), filter_map_length. f_equal. apply filter_ext_in. intros w I. rewrite coemb_sr by auto. rewrite <- dot_reflect by (auto using comb_length, ra_length). pose proof (sv_sv i v Hi L) as V2. cbv beta in V2. rewrite V2. reflexivity. }
  destruct (0 <? dot r v (be i)); cbn [length]; rewrite E2; reflexivity.
Qed.
Lemma count_le v : (neg_count v <= length P)%nat.
Proof. unfold neg_count. clear. induction P as [|x l IH]; [cbn; lia|]. cbn. destruct (_ <? 0); cbn; lia. Qed.
Lemma count_zero v : neg_count v = 0%nat <-> dominant r n be v.
Proof.
  unfold neg_count. split.
  - intros E i Hi. destruct (Z.le_gt_cases 0 (dot r v (be i))) as [G|G]; [exact G|]. exfalso.
    assert (I : In (basis n i) (filter (fun w => dot r v (coemb w) <? 0) P)). { apply filter_In. split; [apply PU; apply up_simple; exact Hi|]. rewrite comb_basis by auto. apply Z.ltb_lt. exact G. }
    destruct (filter _ P); [destruct I|discriminate].
  - intros D. rewrite (filter_ext_in _ (fun _ => false)); [clear; induction P; [reflexivity|assumption]|]. intros w I. apply Z.ltb_ge. apply PU in I. rewrite dot_comb_r. apply zsum_nonneg. intros k Hk.
    pose proof (up_nonneg n (flip C) w I k). pose proof (D k Hk). nia.
Qed.
(** words have at least that many letters if they make the vector dominant *)
Lemma count_word ww v : letters ww -> length v = r -> dominant r n be v -> (neg_count (act ww v) <= length ww)%nat.
Proof.
  intros H L D. induction H as [|i ww Hi H IH]; [cbn; apply count_zero in D; lia|]. cbn [act_by fold_right length]. fold (act ww v). destruct (count_step i (act ww v) Hi (act_length ww v L)) as (q & E1 & E2). cbv beta in E2. rewrite E2. destruct (_ <? _) in E1; destruct (_ <? _); lia.
Qed.
End Act.

Lemma dot_basis r v k : (k < r)%nat -> length v = r -> dot r v (basis r k) = co v k.
Proof.
  intros Hk L. unfold dot. rewrite (zsum_one r k); [rewrite co_basis, Nat.eqb_refl by exact Hk; lia|exact Hk|].
  intros j _ N. rewrite co_basis by exact Hk. rewrite (proj2 (Nat.eqb_neq j k) N). lia.
Qed.
Lemma dot_nondeg r v w : length v = r -> length w = r -> (forall x, length x = r -> dot r v x = dot r w x) -> v = w.
Proof.
  intros Lv Lw H. apply vec_ext; [lia|]. intros k Hk. rewrite Lv in Hk. rewrite <- (dot_basis r v k Hk Lv), <- (dot_basis r w k Hk Lw). apply H. apply basis_length.
Qed.
Section Regular.
Variables (r n : nat) (al be : nat -> list Z) (C : nat -> nat -> Z).
Hypothesis La : forall i, (i < n)%nat -> length (al i) = r.
Hypothesis Lb : forall i, (i < n)%nat -> length (be i) = r.
Hypothesis HC : forall i j, (i < n)%nat -> (j < n)%nat -> dot r (al i) (be j) = C i j.
Hypothesis gd : good n C.
Hypothesis gd' : good n (flip C).
Notation letters := (Forall (fun i => (i < n)%nat)).
Notation act := (act_by r al be).
Let HC' : forall i j, (i < n)%nat -> (j < n)%nat -> dot r (be i) (al j) = flip C i j.
Proof. intros i j Hi Hj. rewrite dot_comm. apply HC; assumption. Qed.
(** the stabiliser of a vector that is positive on the simple coroots is trivial *)
Lemma regular_free t ww v : length t = r -> (forall i, (i < n)%nat -> 0 < dot r t (be i)) -> letters ww -> act ww t = t -> length v = r -> act ww v = v.
Proof.
  intros Lt T H F L. assert (Hr : letters (rev ww)) by (apply letters_rev; exact H).
  assert (Q : forall x, length x = r -> act_by r be al (rev ww) x = x).
  { intros x Lx. apply (keeps_identity r n be al (flip C) Lb La HC' gd'); [exact Hr| |exact Lx]. intros j Hj.
    set (w := word_act n (flip C) (rev ww) (basis n j)).
    assert (Rc : root_coroot n (flip C) w (word_act n C (rev ww) (basis n j))) by (apply (rc_word n (flip C)); [exact Hr|apply rc_simple; exact Hj]).
    destruct (up_dec n (flip C) gd' w (ex_intro _ _ Rc)) as [U|U]; [exact U|]. exfalso.
    assert (P : dot r t (comb r n be w) = dot r t (be j)).
    { unfold w. rewrite (coemb_act r n al be C Lb HC) by (auto using basis_length). rewrite comb_basis by auto. rewrite <- (dot_act r n al be La Lb) by auto. rewrite F. reflexivity. }
    pose proof (T j Hj) as T0. rewrite <- P in T0. rewrite dot_comb_r in T0.
    assert (zsum n (fun i => co (opp w) i * dot r t (be i)) >= 0) as G.
    { apply Z.le_ge. apply zsum_nonneg. intros i Hi. pose proof (up_nonneg n (flip C) _ U i). pose proof (T i Hi). nia. }
    rewrite (zsum_ext _ _ (fun i => (-1) * (co w i * dot r t (be i)))) in G by (intros i Hi; rewrite co_opp; lia). rewrite zsum_mul_l in G. lia. }
  apply (dot_nondeg r); [apply act_length; exact L|exact L|]. intros x Lx. rewrite (dot_act r n al be La Lb) by auto. rewrite Q by exact Lx. reflexivity.
Qed.
Lemma regular_same t w1 w2 v : length t = r -> (forall i, (i < n)%nat -> 0 < dot r t (be i)) -> letters w1 -> letters w2 -> act w1 t = act w2 t -> length v = r -> act w1 v = act w2 v.
Proof.
  intros Lt T H1 H2 Q L. assert (F : act (rev w2 ++ w1) t = t) by (rewrite act_app, Q; apply (rev_act r n al be C La HC gd); assumption).
  pose proof (regular_free t (rev w2 ++ w1) v Lt T ltac:(apply Forall_app; split; [apply letters_rev|]; assumption) F L) as X. rewrite act_app in X.
  rewrite <- X at 2. symmetry. apply (act_rev r n al be C La HC gd); [exact H2|apply act_length; exact L].
Qed.
(** the sum of the positive roots has value two on every simple coroot *)
Lemma pair_vsum i (l : list (list Z)) : Forall (fun u => length u = n) l -> dot r (vsum r (map (comb r n al) l)) (be i) = fold_right Z.add 0 (map (fun u => dot r (comb r n al u) (be i)) l).
Proof.
  induction 1 as [|u l Lu F IH]; cbn [map vsum fold_right].
  - unfold dot. rewrite (zsum_ext _ _ (fun _ => 0)); [assert (forall m, zsum m (fun _ => 0) = 0) as -> by (unfold zsum; induction m; cbn; lia); reflexivity|]. intros k _. unfold co at 1. rewrite nth_repeat. lia.
  - fold (vsum r (map (comb r n al) l)). rewrite <- IH. rewrite <- away_plus, dot_away by (rewrite ?opp_length, ?vsum_length, ?comb_length; auto). rewrite dot_opp. lia.
Qed.
Lemma sum_perm l l' : Permutation l l' -> fold_right Z.add 0 l = fold_right Z.add 0 l'.
Proof. induction 1; cbn; lia. Qed.
Lemma two_rho P i : NoDup P -> (forall u, In u P <-> up n C u) -> (i < n)%nat -> dot r (vsum r (map (comb r n al) P)) (be i) = 2.
Proof.
  intros PN PU Hi. assert (FL : Forall (fun u => length u = n) P) by (apply Forall_forall; intros u I; apply (up_length n C); apply PU; exact I).
  rewrite pair_vsum by exact FL. destruct (pos_split n (flip C) gd' gd P PN PU i Hi) as (Q & Pm & Ps). change (flip (flip C)) with (fun i j => C i j) in Ps.
  rewrite (sum_perm _ _ (Permutation_map _ Pm)). cbn [map fold_right]. rewrite comb_basis by auto. rewrite HC by assumption. rewrite (proj1 (proj1 gd)) by exact Hi.
  assert (LQ : forall u, In u Q -> length u = n) by (intros u I; apply (up_length n C); apply PU; apply (Permutation_in _ (Permutation_sym Pm)); right; exact I).
  pose proof (sum_perm _ _ (Permutation_map (fun u => dot r (comb r n al u) (be i)) Ps)) as S0. rewrite map_map in S0.
  rewrite (map_ext_in _ (fun u => - dot r (comb r n al u) (be i))) in S0.
  - assert (N : fold_right Z.add 0 (map (fun u => - dot r (comb r n al u) (be i)) Q) = - fold_right Z.add 0 (map (fun u => dot r (comb r n al u) (be i)) Q)) by (clear; induction Q; cbn; lia). lia.
  - intros u I. change (fun i j => C i j) with C. rewrite (emb_sr r n al be C La HC) by auto. cbv beta. unfold reflect_at. rewrite dot_away by (auto using comb_length). rewrite HC by assumption. rewrite (proj1 (proj1 gd)) by exact Hi. lia.
Qed.
End Regular.
