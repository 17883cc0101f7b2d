(** Proofs about toDistinguished and dualBasedInvolution. *)

From Coq Require Import List Arith ZArith Bool Lia.
From Verif Require Import VecModel RunModel RunProofs MatModel MatSpec MatLin MatRing MatProofs MatArith MatOps LatModel LieTypeSpec RootModel RootSpec RootMath RootForm RootFin RootAcc RootUniq RootTop RootProps
  RsfSteps DatModel DatSpec DatMath DatProofs DatOps DatFactor DatMats DatSub DfModel DfSpec DfMath.
Import ListNotations.
Local Open Scope Z_scope.

Lemma image_away r g v c a : length v = r -> length a = r -> image_by r g (away r v c a) = away r (image_by r g v) c (image_by r g a).
Proof. intros. apply comb_away; assumption. Qed.
Lemma image_length r g v : length (image_by r g v) = r. Proof. apply comb_length. Qed.
Lemma image_opp r g v : image_by r g (opp v) = opp (image_by r g v). Proof. apply comb_opp. Qed.

Section Inv.
Variable fits : Z -> bool.
Notation R := (zarith fits).
Notation E := (overflows fits).
Variables (r n : nat) (A B : nat -> nat -> Z) (p : predatum) (d : datum).
Notation al := (fcol r A).
Notation be := (fcol r B).
Notation C := (fun i j => dot r (al i) (be j)).
Hypothesis K : datum_ok r n A B p d.
Notation s := (d_sys d).
Notation np := (num_pos (d_sys d)).
Notation emb := (comb r n al).
Notation coemb := (comb r n be).
Notation letters := (Forall (fun i => (i < n)%nat)).
Notation act := (act_by r al be).
Notation cact := (act_by r be al).
Let La i : (i < n)%nat -> length (al i) = r. Proof. intros _. apply fcol_length. Qed.
Let Lb i : (i < n)%nat -> length (be i) = r. Proof. intros _. apply fcol_length. Qed.
Let HC i j : (i < n)%nat -> (j < n)%nat -> dot r (al i) (be j) = C i j. Proof. reflexivity. Qed.
Let gd : good n C. Proof. apply (k_good _ _ _ _ _ _ K). Qed.

Lemma permutes_keeps g pi : permutes_simple r n A B g pi -> keeps_base r n al be (image_by r g) pi.
Proof.
  intros H. split; [intros; apply image_length|]. split; [intros; apply image_away; assumption|]. split.
  - intros i Hi. destruct (H i Hi) as (a & b & _). split; assumption.
  - intros v i Hv Hi. apply (H i Hi). exact Hv.
Qed.
(** a linear map that is an automorphism, followed by a word making the image of 2rho dominant *)
Lemma straighten (q : list Z -> list Z) ww :
  (forall i, (i < n)%nat -> exists u w, root_coroot n C u w /\ q (al i) = emb u /\ forall v, length v = r -> dot r (q v) (coemb w) = dot r v (be i)) ->
  (forall v, length v = r -> length (q v) = r) ->
  letters ww -> dominant r n be (act ww (q (d_2rho d))) ->
  exists pi, forall i, (i < n)%nat -> (pi i < n)%nat /\ act ww (q (al i)) = al (pi i) /\
    forall v, length v = r -> dot r (act ww (q v)) (be (pi i)) = dot r v (be i).
Proof.
  intros Hq Lq L Dm. destruct (k_sys _ _ _ _ _ _ K) as [c (n32 & ft & mc & made)]. destruct (rho_ok _ _ _ _ _ _ K) as (L2 & _ & H2 & _).
  assert (X : forall i, (i < n)%nat -> exists b, (b < num_roots s)%nat /\ act ww (q (al i)) = emb (root_at s b) /\ (forall v, length v = r -> dot r (act ww (q v)) (coemb (coroot_at s b)) = dot r v (be i))).
  { intros i Hi. destruct (Hq i Hi) as (u & w & Rc & E1 & E2). destruct (root_coroot_length n C u w Rc) as [Lu Lw].
    destruct (top_every n C c _ s n32 ft mc made _ _ (rc_word n C ww u w L Rc)) as (b & Hb & E3 & E4).
    exists b. split; [exact Hb|]. rewrite E3, E4. split.
    - rewrite E1. symmetry. apply (emb_act r n al be C La HC); assumption.
    - intros v Hv. rewrite (coemb_act r n al be C Lb HC) by assumption. rewrite (dot_act r n al be La Lb) by (try assumption; try apply Lq; try assumption; apply (act_length r be al); apply comb_length).
      rewrite (rev_act r n be al (flip C) Lb); [apply E2; exact Hv| |apply (proj2 (k_good _ _ _ _ _ _ K))|exact L|apply comb_length]. intros i0 j0 _ _. apply dot_comm. }
  assert (Y : exists D, length D = n /\ forall i, (i < n)%nat -> (nth i D 0 < num_roots s)%nat /\ act ww (q (al i)) = emb (root_at s (nth i D 0%nat)) /\ (forall v, length v = r -> dot r (act ww (q v)) (coemb (coroot_at s (nth i D 0%nat))) = dot r v (be i))).
  { clear Dm Hq. assert (Z0 : forall m, (m <= n)%nat -> exists D, length D = m /\ forall i, (i < m)%nat -> (nth i D 0 < num_roots s)%nat /\ act ww (q (al i)) = emb (root_at s (nth i D 0%nat)) /\ (forall v, length v = r -> dot r (act ww (q v)) (coemb (coroot_at s (nth i D 0%nat))) = dot r v (be i))).
    { induction m as [|m IH]; intros Hm; [exists []; split; [reflexivity|]; intros i Hi; lia|]. destruct (IH ltac:(lia)) as (D & LD & HD). destruct (X m ltac:(lia)) as (b & Hb). exists (D ++ [b]). rewrite app_length, LD. split; [cbn; lia|].
      intros i Hi. destruct (Nat.eq_dec i m) as [->|Q]; [rewrite app_nth2 by lia; rewrite LD, Nat.sub_diag; exact Hb|rewrite app_nth1 by lia; apply HD; lia]. }
    apply (Z0 n). lia. }
  destruct Y as (D & LD & HD).
  assert (Im : image n C s n C D).
  { split; [exact LD|]. split; [intros i Hi; apply (HD i Hi)|]. intros i j Hi Hj. rewrite <- (dot_emb_coemb r n al be C HC). rewrite <- (proj1 (proj2 (HD i Hi))). apply (proj2 (proj2 (HD j Hj))). auto. }
  assert (Fp : Forall (fun a => (np <= a)%nat) D).
  { apply Forall_forall. intros a Ia. destruct (In_nth D a 0%nat Ia) as (i & Hi & <-). rewrite LD in Hi. destruct (HD i Hi) as (Hb & _ & E2). specialize (E2 _ L2). rewrite (H2 i Hi) in E2.
    destruct (le_lt_dec np (nth i D 0%nat)) as [Q|Q]; [exact Q|]. exfalso.
    pose proof (k_at _ _ _ _ _ _ K _ Hb) as Rc. assert (Ir : is_root n C (root_at s (nth i D 0%nat))) by (exists (coroot_at s (nth i D 0%nat)); exact Rc).
    apply (neg_root n C c _ s n32 ft mc made) in Q; [|exact Hb].
    destruct (up_dec n C gd _ Ir) as [U|U].
    { apply (up_nonneg n C) in U. apply neg_nonneg in U. rewrite U in Q. discriminate. }
    pose proof (co_nonneg n C gd _ _ (rc_opp n C (proj1 gd) _ _ Rc) U) as Nn. pose proof (up_pairing_nonneg r n be C _ _ _ Dm (rc_opp n C (proj1 gd) _ _ Rc) Nn) as W. rewrite comb_opp, dot_opp_r in W. lia. }
  exists (fun i => (nth i D 0 - np)%nat). intros i Hi. pose proof (positive_simple n C c _ s n32 ft mc made D Im Fp i Hi) as Q. destruct (HD i Hi) as (Hb & E1 & E2).
  assert (Hp : (nth i D 0 - np < n)%nat) by lia. destruct (k_simple _ _ _ _ _ _ K _ Hp) as (_ & S1 & S2).
  assert (Ed : d_simple d (nth i D 0%nat - np) = nth i D 0%nat) by (unfold d_simple, d_npos, pos_nr; lia). rewrite Ed in S1, S2. rewrite S1 in E1. rewrite S2 in E2.
  rewrite (comb_basis r n al) in E1 by auto. rewrite (comb_basis r n be) in E2 by auto. split; [exact Hp|]. split; [exact E1|exact E2].
Qed.
Lemma to_dominant_run v : length v = r -> gives (to_dominant fits idZ d v) (fun ww => letters ww /\ dominant r n be (act ww v)) E.
Proof.
  intros Hv. unfold to_dominant. eapply gives_bind; [apply (factor_dominant_ok fits _ _ _ _ _ _ K v Hv)|]. intros [w x] (Lx & Dx & Lw & _ & Ex). cbn [fst snd] in *. apply gives_ok. split; [apply Forall_rev; exact Lw|].
  rewrite <- Ex. rewrite (rev_act r n al be C La HC gd) by assumption. exact Dx.
Qed.
Theorem toDistinguished_run q g : is_mx q r r g -> automorphism r n A B g ->
  gives (toDistinguished fits q d) (fun M => exists h ww pi, is_mx M r r h /\ letters ww /\ (forall v, length v = r -> image_by r h v = act ww (image_by r g v)) /\
    permutes_simple r n A B h pi /\ (involutive r g -> involutive r h)) E.
Proof.
  intros Hq Aq. destruct (rho_ok _ _ _ _ _ _ K) as (L2 & _ & H2 & _). unfold toDistinguished.
  eapply gives_bind; [apply (apply_run fits q r r g); assumption|]. intros v <-. change (comb r r (fcol r g) (d_2rho d)) with (image_by r g (d_2rho d)).
  eapply gives_bind; [apply to_dominant_run; apply image_length|]. intros ww (L & Dm).
  eapply gives_bind; [apply (action_matrix_run fits _ _ _ _ _ _ K ww L)|]. intros M (m & HM & Em).
  eapply gives_mono; [apply (mul_run fits M q r r r m g HM Hq)|]. intros N HN.
  destruct (straighten (image_by r g) ww Aq (fun v _ => image_length r g v) L Dm) as [pi Hpi].
  assert (Eh : forall v, length v = r -> image_by r (fmul r m g) v = act ww (image_by r g v)).
  { intros v Hv. unfold image_by. rewrite product_apply by exact Hv. apply Em. apply comb_length. }
  assert (Ps : permutes_simple r n A B (fmul r m g) pi).
  { intros i Hi. destruct (Hpi i Hi) as (a & b & c). split; [exact a|]. split; [rewrite Eh by auto; exact b|]. intros v Hv. rewrite Eh by exact Hv. apply c. exact Hv. }
  exists (fmul r m g), ww, pi. split; [exact HN|]. split; [exact L|]. split; [exact Eh|]. split; [exact Ps|].
  intros Iq. red. apply (kb_involution r n al be C La Lb HC gd (image_by r (fmul r m g)) pi (image_by r g) ww); try assumption.
  - apply permutes_keeps. exact Ps.
  - intros v Hv. split; [apply image_length|]. split; [apply Iq; exact Hv|apply Eh; exact Hv].
Qed.
(** the transpose *)
Lemma transpose_dot g v y : dot r v (image_by r (fun i j => g j i) y) = dot r (image_by r g v) y.
Proof.
  unfold image_by. rewrite dot_comb, dot_comb_r. unfold dot.
  rewrite (zsum_ext r _ (fun i => zsum r (fun k => co y i * (co v k * g i k)))) by (intros i Hi; rewrite <- zsum_mul_l; apply zsum_ext; intros k Hk; rewrite co_fcol by assumption; reflexivity).
  rewrite RootForm.zsum_swap. apply zsum_ext. intros k Hk. rewrite <- zsum_mul_l. apply zsum_ext. intros i Hi. rewrite co_fcol by assumption. ring.
Qed.
Lemma image_neg g v : image_by r (fun i j => - g i j) v = opp (image_by r g v).
Proof.
  apply len_ext with (r := r); [apply image_length|rewrite opp_length; apply image_length|]. intros k Hk. rewrite co_opp. unfold image_by. rewrite !co_comb by exact Hk. rewrite Z.opp_eq_mul_m1, <- zsum_mul_r. apply zsum_ext. intros i Hi. rewrite !co_fcol by assumption. ring.
Qed.
Theorem dualBased_run q g pi0 : is_mx q r r g -> permutes_simple r n A B g pi0 -> involutive r g ->
  gives (dualBasedInvolution fits q d) (fun M => exists h ww pi, is_mx M r r h /\ letters ww /\ dominant r n be (act ww (opp (d_2rho d))) /\
    (forall v y, length v = r -> length y = r -> dot r v (image_by r h y) = - dot r (image_by r g (act ww v)) y) /\
    permutes_simple r n B A h pi /\ involutive r h) E.
Proof.
  intros Hq Pq Iq. destruct (rho_ok _ _ _ _ _ _ K) as (L2 & _ & H2 & _). unfold dualBasedInvolution.
  eapply gives_bind; [apply neg_run|]. intros v <-. 
  eapply gives_bind; [apply to_dominant_run; rewrite opp_length; exact L2|]. intros ww (L & Dm).
  eapply gives_bind; [apply (action_matrix_run fits _ _ _ _ _ _ K ww L)|]. intros M (m & HM & Em).
  eapply gives_bind; [apply (mul_run fits q M r r r g m Hq HM)|]. intros N HN. unfold negative_transposed.
  eapply gives_bind; [eapply (mat_negate_ok R); [apply zarith_ok|exact HN]|]. intros N1 HN1. cbn [aopp zarith] in HN1.
  eapply gives_mono; [eapply transpose_ok; exact HN1|]. intros P HP.
  destruct (straighten (fun v => opp v) ww) as [pi1 Hpi]; try assumption.
  { intros i Hi. exists (opp (basis n i)), (opp (basis n i)). split; [apply rc_opp; [apply gd|]; constructor; exact Hi|]. rewrite !comb_opp, !comb_basis by auto. split; [reflexivity|].
    intros x Hx. rewrite dot_opp, dot_opp_r. lia. }
  { intros x Hx. rewrite opp_length. exact Hx. }
  assert (Ao : forall x, length x = r -> act ww (opp x) = opp (act ww x)).
  { intros x Hx. rewrite <- !Em by (try rewrite opp_length; exact Hx). apply comb_opp. }
  assert (K1 : keeps_base r n al be (fun v => act ww (opp v)) pi1).
  { split; [intros x Hx; apply (act_length r al be); rewrite opp_length; exact Hx|]. split.
    - intros x c a Hx Ha. rewrite !Ao by (try apply away_length; assumption). rewrite <- !Em by (try apply away_length; assumption). rewrite <- !comb_opp.
      replace (opp (away r x c a)) with (away r (opp x) c (opp a)); [apply comb_away; rewrite opp_length; assumption|].
      apply len_ext with (r := r); [apply away_length|rewrite opp_length; apply away_length|]. intros k Hk. rewrite co_opp, !co_away by (try rewrite opp_length; assumption). rewrite !co_opp. ring.
    - split; [intros i Hi; destruct (Hpi i Hi) as (a & b & _); split; assumption|]. intros x i Hx Hi. apply (Hpi i Hi). exact Hx. }
  pose proof (permutes_keeps g pi0 Pq) as K0. pose proof (kb_comp r n al be _ _ _ _ K0 K1) as KT.
  set (T := fun v => image_by r g (act ww (opp v))) in *. set (pi := fun i => pi0 (pi1 i)) in *.
  assert (TT : forall x, length x = r -> T (T x) = x).
  { intros x Hx. apply (kb_central r n al be C La Lb HC gd (fun v => act ww (opp v)) pi1 (image_by r g) pi0 ww); assumption. }
  pose proof (kb_perm r n al be C La HC gd T pi KT TT) as PP. destruct KT as (T1 & T2 & T3 & T4).
  assert (Eh : forall x y, length x = r -> length y = r -> dot r x (image_by r (fun i j => - fmul r g m j i) y) = dot r (T x) y).
  { intros x y Hx Hy. rewrite (transpose_dot (fun i j => - fmul r g m i j)). rewrite image_neg. unfold T. rewrite Ao by exact Hx. rewrite image_opp. unfold image_by. rewrite product_apply by exact Hx. rewrite Em by exact Hx. reflexivity. }
  exists (fun i j => - fmul r g m j i), ww, pi. split; [exact HP|]. split; [exact L|]. split; [exact Dm|]. split.
  { intros x y Hx Hy. rewrite Eh by assumption. unfold T. rewrite Ao by exact Hx. rewrite image_opp, dot_opp. reflexivity. }
  split.
  - intros i Hi. destruct (T3 i Hi) as [Q1 Q2]. split; [exact Q1|]. split.
    + apply (dot_nondeg r); [apply image_length|auto|]. intros x Hx. rewrite dot_comm, Eh by auto. rewrite <- (PP i Hi) at 1. rewrite T4 by assumption. apply dot_comm.
    + intros y Hy. rewrite dot_comm, Eh by auto. rewrite (proj2 (T3 _ Q1)), (PP i Hi). apply dot_comm.
  - intros y Hy. apply (dot_nondeg r); [apply image_length|exact Hy|]. intros x Hx. rewrite dot_comm, !Eh by (try apply image_length; auto). rewrite TT by exact Hx. apply dot_comm.
Qed.
End Inv.
