(** Proofs about sums of roots, products of reflections, and integrality. *)

From Coq Require Import List Arith ZArith Bool Lia Sorted.
From Verif Require Import VecModel VecProofs RunModel RunProofs MatModel MatSpec MatLin MatRing MatProofs LatModel LieTypeSpec RootModel RootSpec RootMath RootForm RootFin RootBasis RootBase RootAcc RootUniq RootTop RootProps
  RsfBase RsfSteps DatModel DatSpec DatMath DatProofs DatOps DatFactor DatMats DatSub DatPre DfModel DfSpec DfMath DfInv.
Import ListNotations.
Local Open Scope Z_scope.

Lemma In_firstn_In {T} k (l : list T) x : In x (firstn k l) -> In x l.
Proof. intros H. rewrite <- (firstn_skipn k l). apply in_or_app. left. exact H. Qed.

Section Sums.
Variable fits : Z -> bool.
Notation R := (zarith fits).
Notation E := (overflows fits).
Variables (r n : nat) (A B : nat -> nat -> Z) (p : predatum) (d : datum).
Notation al := (fcol r A).
Notation be := (fcol r B).
Notation C := (fun i j => dot r (al i) (be j)).
Hypothesis K : datum_ok r n A B p d.
Notation s := (d_sys d).
Notation np := (num_pos (d_sys d)).
Notation emb := (comb r n al).
Notation coemb := (comb r n be).
Notation letters := (Forall (fun i => (i < n)%nat)).
Notation act := (act_by r al be).
Notation cact := (act_by r be al).
Let La i : (i < n)%nat -> length (al i) = r. Proof. intros _. apply fcol_length. Qed.
Let Lb i : (i < n)%nat -> length (be i) = r. Proof. intros _. apply fcol_length. Qed.
Let HC i j : (i < n)%nat -> (j < n)%nat -> dot r (al i) (be j) = C i j. Proof. reflexivity. Qed.
Let HC' i j : (i < n)%nat -> (j < n)%nat -> dot r (be i) (al j) = flip C i j. Proof. intros. apply dot_comm. Qed.
Let gd : good n C. Proof. apply (k_good _ _ _ _ _ _ K). Qed.
Let gd' : good n (flip C). Proof. apply (k_good _ _ _ _ _ _ K). Qed.

Lemma simple_refl i b : (i < n)%nat -> (b < num_roots s)%nat -> exists c, simple_reflected s i b = Ok c /\ (c < num_roots s)%nat /\ root_at s c = sreflect n C i (root_at s b) /\ coroot_at s c = sreflect n (flip C) i (coroot_at s b).
Proof. destruct (k_sys _ _ _ _ _ _ K) as [c (n32 & ft & mc & made)]. apply (top_simple_reflected n C c _ s n32 ft mc made). Qed.
Lemma act_linear ww v c x : letters ww -> length v = r -> length x = r -> act ww (away r v c x) = away r (act ww v) c (act ww x).
Proof.
  intros L Hv Hx. induction ww as [|i ww IH]; [reflexivity|]. pose proof (Forall_inv L) as Hi. cbn beta in Hi. cbn [act_by fold_right].
  change (fold_right (fun i0 : nat => reflect_at r (al i0) (be i0)) ?z ww) with (act ww z). rewrite (IH (Forall_inv_tail L)).
  apply (ra_away r n al be La i); [exact Hi| |]; apply (act_length r al be); assumption.
Qed.
Lemma cact_linear ww v c x : letters ww -> length v = r -> length x = r -> cact ww (away r v c x) = away r (cact ww v) c (cact ww x).
Proof.
  intros L Hv Hx. induction ww as [|i ww IH]; [reflexivity|]. pose proof (Forall_inv L) as Hi. cbn beta in Hi. cbn [act_by fold_right].
  change (fold_right (fun i0 : nat => reflect_at r (be i0) (al i0)) ?z ww) with (cact ww z). rewrite (IH (Forall_inv_tail L)).
  apply (ra_away r n be al Lb i); [exact Hi| |]; apply (act_length r be al); assumption.
Qed.
(** half the difference of [x] and its image *)
Definition half_moved (x y sum : list Z) : Prop := length sum = r /\ forall k, (k < r)%nat -> 2 * co sum k = co x k - co y k.
Lemma rho_minus_run ww : letters ww -> gives (rho_minus_w_rho fits d ww) (half_moved (d_2rho d) (act ww (d_2rho d))) E.
Proof.
  intros L. destruct (rho_ok _ _ _ _ _ _ K) as (L2 & _ & H2 & _). unfold rho_minus_w_rho. rewrite (k_rank _ _ _ _ _ _ K).
  apply (gives_upto0 (fun i sum => half_moved (d_2rho d) (act (firstn i ww) (d_2rho d)) sum)).
  - split; [apply repeat_length|]. intros k Hk. cbn [firstn act_by fold_right]. unfold co at 1. rewrite nth_repeat. lia.
  - intros i sum Hi (Ls & Hs). destruct (letter n ww i L Hi) as (t & Gt & Ht). rewrite (vget_ok _ _ _ Gt). cbn [bind].
    assert (Lf : letters (firstn i ww)) by (apply Forall_forall; intros x Hx; rewrite Forall_forall in L; apply L; apply (In_firstn_In _ _ _ Hx)).
    eapply gives_bind with (P := fun a => (a < num_roots s)%nat /\ root_at s a = word_act n C (firstn i ww) (basis n t)).
    { destruct (k_simple _ _ _ _ _ _ K t Ht) as (S1 & S2 & S3).
      apply (gives_downto (fun j a => (a < num_roots s)%nat /\ root_at s a = word_act n C (skipn j (firstn i ww)) (basis n t))).
      - rewrite skipn_all2 by (rewrite firstn_length; lia). split; [exact S1|exact S2].
      - intros j a Hj (Ha & Ra). destruct (letter n ww j L ltac:(lia)) as (u & Gu & Hu). rewrite (vget_ok _ _ _ Gu). cbn [bind]. destruct (simple_refl u a Hu Ha) as (c & -> & Hc & E1 & _). apply gives_ok. split; [exact Hc|].
        rewrite E1, Ra. rewrite (skipn_get (firstn i ww) j u); [reflexivity|]. rewrite <- Gu. apply DatPre.pre_firstn. exact Hj.
      - intros a H. exact H. }
    intros a (Ha & Ra). rewrite (proj1 (d_root_run _ _ _ _ _ _ K a Ha)). cbn [bind]. eapply gives_mono; [apply (add_run fits r); [exact Ls|apply comb_length]|]. intros x <-.
    split; [apply plus_length|]. intros k Hk. rewrite (firstn_get ww i t Gt). rewrite (act_app r al be). cbn [act_by fold_right]. change (fold_right (fun i0 : nat => reflect_at r (al i0) (be i0)) ?z (firstn i ww)) with (act (firstn i ww) z).
    unfold reflect_at. rewrite (H2 t Ht). rewrite act_linear by auto. rewrite co_away by (apply (act_length r al be); auto).
    rewrite co_plus by (try apply comb_length; assumption). rewrite Ra. rewrite (emb_act r n al be C La HC) by (try assumption; apply basis_length). rewrite comb_basis by auto. specialize (Hs k Hk). lia.
  - intros x. rewrite firstn_all. auto.
Qed.
Lemma rho_check_minus_run ww : letters ww -> gives (rho_check_minus_rho_check_w fits d ww) (half_moved (d_dual_2rho d) (cact (rev ww) (d_dual_2rho d))) E.
Proof.
  intros L. destruct (rho_ok _ _ _ _ _ _ K) as (_ & L2 & _ & H2). unfold rho_check_minus_rho_check_w. rewrite (k_rank _ _ _ _ _ _ K).
  apply (gives_downto (fun i sum => half_moved (d_dual_2rho d) (cact (rev (skipn i ww)) (d_dual_2rho d)) sum)).
  - split; [apply repeat_length|]. intros k Hk. rewrite skipn_all. cbn [rev act_by fold_right]. unfold co at 1. rewrite nth_repeat. lia.
  - intros i sum Hi (Ls & Hs). destruct (letter n ww i L Hi) as (t & Gt & Ht). rewrite (vget_ok _ _ _ Gt). cbn [bind].
    assert (Lf : letters (rev (skipn (S i) ww))). { apply Forall_rev. apply Forall_forall. intros x Hx. rewrite Forall_forall in L. apply L. rewrite <- (firstn_skipn (S i) ww). apply in_or_app. right. exact Hx. }
    eapply gives_bind with (P := fun a => (a < num_roots s)%nat /\ coroot_at s a = word_act n (flip C) (rev (skipn (S i) ww)) (basis n t)).
    { destruct (k_simple _ _ _ _ _ _ K t Ht) as (S1 & S2 & S3).
      eapply gives_mono; [apply (gives_upto (fun j a => (a < num_roots s)%nat /\ coroot_at s a = word_act n (flip C) (rev (firstn (j - S i) (skipn (S i) ww))) (basis n t)))|].
      - rewrite Nat.sub_diag. split; [exact S1|exact S3].
      - intros j a Hj (Ha & Ra). destruct (letter n ww j L ltac:(lia)) as (u & Gu & Hu). rewrite (vget_ok _ _ _ Gu). cbn [bind]. destruct (simple_refl u a Hu Ha) as (c & -> & Hc & _ & E1). apply gives_ok. split; [exact Hc|].
        rewrite E1, Ra. replace (S j - S i)%nat with (S (j - S i)) by lia. rewrite (firstn_get (skipn (S i) ww) (j - S i) u); [rewrite rev_app_distr; reflexivity|]. rewrite DatPre.pre_skipn. rewrite <- Gu. f_equal. lia.
      - intros a (Ha & Ra). split; [exact Ha|]. rewrite Ra. f_equal. f_equal. apply firstn_all2. rewrite skipn_length. lia. }
    intros a (Ha & Ra). rewrite (proj2 (d_root_run _ _ _ _ _ _ K a Ha)). cbn [bind]. eapply gives_mono; [apply (add_run fits r); [exact Ls|apply comb_length]|]. intros x <-.
    split; [apply plus_length|]. intros k Hk. rewrite (skipn_get ww i t Gt). cbn [rev]. rewrite (act_app r be al). cbn [act_by fold_right]. change (fold_right (fun i0 : nat => reflect_at r (be i0) (al i0)) ?z (rev (skipn (S i) ww))) with (cact (rev (skipn (S i) ww)) z).
    unfold reflect_at. rewrite dot_comm, (H2 t Ht). rewrite cact_linear by auto. rewrite co_away by (apply (act_length r be al); auto).
    rewrite co_plus by (try apply comb_length; assumption). rewrite Ra. rewrite (coemb_act r n al be C Lb HC) by (try assumption; apply basis_length). rewrite comb_basis by auto. specialize (Hs k Hk). lia.
  - intros x. auto.
Qed.

(** ** sums over sets of roots *)
Lemma sum_run (get_at : nat -> res (list Z)) (val : nat -> list Z) (l : list nat) :
  (forall a, In a l -> get_at a = Ok (val a) /\ length (val a) = r) ->
  gives (upto (length l) 0 (fun i sum => run a <- vget l i; run x <- get_at a; vec_add R sum x) (repeat 0 r)) (eq (vsum r (map val l))) E.
Proof.
  intros H. apply (gives_upto0 (fun i x => x = vsum r (map val (firstn i l)))).
  - reflexivity.
  - intros i x Hi ->. destruct (get_some l i Hi) as [a Ga]. rewrite (vget_ok _ _ _ Ga). cbn [bind]. destruct (H a (get_In _ _ _ Ga)) as [-> La0]. cbn [bind].
    assert (Fl : Forall (fun v => length v = r) (map val (firstn i l))). { apply Forall_forall. intros v Hv. apply in_map_iff in Hv. destruct Hv as (b & <- & Hb). apply H. apply (In_firstn_In _ _ _ Hb). }
    eapply gives_mono; [apply (add_run fits r); [apply vsum_length|exact La0]|]. intros y <-. rewrite (firstn_get l i a Ga), map_app. cbn [map]. rewrite (vsum_snoc n (k_n32 _ _ _ _ _ _ K) r) by assumption. reflexivity.
  - intros x ->. rewrite firstn_all. reflexivity.
Qed.
Lemma root_sum_run (S : bset) : length S = num_roots s -> gives (root_sum fits d S) (eq (vsum r (map (fun a => emb (root_at s a)) (members S)))) E /\
  gives (coroot_sum fits d S) (eq (vsum r (map (fun a => coemb (coroot_at s a)) (members S)))) E.
Proof.
  intros LS. assert (In_lt : forall a, In a (members S) -> (a < num_roots s)%nat). { intros a Ha. unfold members in Ha. apply filter_In in Ha. destruct Ha as [Ha _]. apply in_seq in Ha. lia. }
  split; [unfold root_sum|unfold coroot_sum]; rewrite (k_rank _ _ _ _ _ _ K); apply sum_run; intros a Ha; (split; [apply (d_root_run _ _ _ _ _ _ K a (In_lt a Ha))|apply comb_length]).
Qed.

(** ** products of reflections *)
Lemma refl_prod_run (S : bset) : length S = num_roots s -> gives (refl_prod fits S d) (fun M => exists g, is_mx M r r g /\
  forall v, length v = r -> image_by r g v = fold_right (fun a => reflect_at r (emb (root_at s a)) (coemb (coroot_at s a))) v (members S)) E.
Proof.
  intros LS. assert (In_lt : forall a, In a (members S) -> (a < num_roots s)%nat). { intros a Ha. unfold members in Ha. apply filter_In in Ha. destruct Ha as [Ha _]. apply in_seq in Ha. lia. }
  unfold refl_prod. eapply gives_bind; [apply id_run|]. intros q Hq. rewrite (k_rank _ _ _ _ _ _ K) in Hq. set (l := members S) in *.
  apply (gives_upto0 (fun i M => exists g, is_mx M r r g /\ forall v, length v = r -> image_by r g v = fold_right (fun a => reflect_at r (emb (root_at s a)) (coemb (coroot_at s a))) v (firstn i l))).
  - exists delta. split; [exact Hq|]. intros v Hv. cbn [firstn fold_right]. unfold image_by. apply len_ext with (r := r); [apply comb_length|exact Hv|]. intros k Hk. rewrite co_comb by exact Hk.
    rewrite (zsum_one r k); [rewrite co_fcol by exact Hk; unfold delta; rewrite Nat.eqb_refl; lia|exact Hk|]. intros i Hi Q. rewrite co_fcol by exact Hk. unfold delta. replace (k =? i)%nat with false by (symmetry; apply Nat.eqb_neq; lia). lia.
  - intros i M Hi (g & HM & Eg). destruct (get_some l i Hi) as [a Ga]. rewrite (vget_ok _ _ _ Ga). cbn [bind]. pose proof (In_lt a (get_In _ _ _ Ga)) as Ha.
    eapply gives_bind; [apply (root_reflection_run fits _ _ _ _ _ _ K a Ha)|]. intros N HN. eapply gives_mono; [apply (mul_run fits M N r r r g _ HM HN)|]. intros P HP. eexists. split; [exact HP|].
    intros v Hv. unfold image_by. rewrite product_apply by exact Hv. rewrite rmatrix_apply by (try apply comb_length; exact Hv). rewrite (firstn_get l i a Ga), fold_right_app. cbn [fold_right]. apply Eg. apply away_length.
  - intros M (g & HM & Eg). exists g. split; [exact HM|]. rewrite firstn_all in Eg. exact Eg.
Qed.
(** for orthogonal roots: subtract the multiples of all of them *)
Lemma orthogonal_reflections l v : length v = r -> (forall a, In a l -> (a < num_roots s)%nat) -> NoDup l ->
  (forall a b, In a l -> In b l -> a <> b -> value n C (root_at s a) (coroot_at s b) = 0) ->
  (forall k, (k < r)%nat -> co (fold_right (fun a => reflect_at r (emb (root_at s a)) (coemb (coroot_at s a))) v l) k =
    co v k - fold_right Z.add 0 (map (fun a => dot r v (coemb (coroot_at s a)) * co (emb (root_at s a)) k) l)) /\
  (forall b, (forall a, In a l -> value n C (root_at s a) (coroot_at s b) = 0) -> dot r (fold_right (fun a => reflect_at r (emb (root_at s a)) (coemb (coroot_at s a))) v l) (coemb (coroot_at s b)) = dot r v (coemb (coroot_at s b))).
Proof.
  intros Hv. induction l as [|a l IH]; intros Hl Nd O; [split; [intros k Hk; cbn [fold_right map]; lia|reflexivity]|].
  pose proof (NoDup_cons_iff a l) as [Nc _]. destruct (Nc Nd) as [Na Nl]. destruct IH as [I1 I2]; [intros; apply Hl; right; assumption|exact Nl|intros; apply O; try (right; assumption); assumption|].
  cbn [fold_right map]. set (u := fold_right _ v l) in *. assert (Lu : length u = r) by (unfold u; destruct l; [exact Hv|apply away_length]).
  assert (Ea : dot r u (coemb (coroot_at s a)) = dot r v (coemb (coroot_at s a))). { apply I2. intros b Ib. apply O; [right; exact Ib|left; reflexivity|]. intros ->. exact (Na Ib). }
  split.
  - intros k Hk. unfold reflect_at. rewrite co_away by (try exact Lu; apply comb_length). rewrite Ea, (I1 k Hk). lia.
  - intros b Ob. unfold reflect_at. rewrite dot_away by (try exact Lu; apply comb_length). rewrite (dot_emb_coemb r n al be C HC). rewrite (Ob a (or_introl eq_refl)). rewrite I2 by (intros c Ic; apply Ob; right; exact Ic). lia.
Qed.
End Sums.
