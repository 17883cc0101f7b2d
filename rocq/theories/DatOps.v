(** Operations of root data: reflections, actions of words, factoring to dominant vectors. *)

From Coq Require Import List Arith ZArith Bool Lia Permutation.
From Verif Require Import VecModel VecProofs RunModel RunProofs MatModel MatSpec MatProofs MatLin MatOps MatProps LatModel SizeModel LieTypeModel LieTypeSpec
  RootModel RootSpec RootBase RootMath RootForm RootFin RootGen RootCo RootAcc RootSys RootUniq RootBasis RootTop RootProps DatModel DatSpec DatMath DatProofs.
Import ListNotations.
Local Open Scope Z_scope.

(** ** factoring, for any family of reflections with a measure *)
Section Factor.
Variable E : err -> Prop.
Variables (r m : nat) (a b : nat -> list Z) (mu : list Z -> nat).
Hypothesis mu_step : forall s v, (s < m)%nat -> length v = r -> dot r v (b s) < 0 -> mu v = S (mu (reflect_at r (a s) (b s) v)).
Hypothesis La : forall s, (s < m)%nat -> length (a s) = r.
Hypothesis two : forall s, (s < m)%nat -> dot r (a s) (b s) = 2.
Variable test : list Z -> nat -> res bool.
Variable step : nat -> list Z -> res (list Z).
Hypothesis test_ok : forall v s, length v = r -> (s < m)%nat -> gives (test v s) (fun t => t = true <-> dot r v (b s) < 0) E.
Hypothesis step_ok : forall v s, length v = r -> (s < m)%nat -> gives (step s v) (eq (reflect_at r (a s) (b s) v)) E.
Lemma first_such_ok v : length v = r -> forall k i, (i + k = m)%nat -> (forall j, (j < i)%nat -> 0 <= dot r v (b j)) ->
  gives (first_such (test v) k i) (fun o => match o with Some s => (s < m)%nat /\ dot r v (b s) < 0 | None => dominant r m b v end) E.
Proof.
  intros L k. induction k as [|k IH]; intros i Hi H; cbn [first_such].
  - cbn. intros j Hj. apply H. lia.
  - eapply gives_bind; [apply (test_ok v i L); lia|]. intros t T. destruct t.
    + cbn. split; [lia|]. apply T. reflexivity.
    + apply IH; [lia|]. intros j Hj. destruct (Nat.eq_dec j i) as [->|N]; [|apply H; lia]. destruct (Z.lt_ge_cases (dot r v (b i)) 0) as [Q|Q]; [|exact Q]. apply T in Q. discriminate.
Qed.
Variable push : nat -> list nat -> list nat.
Variable back : list nat -> list nat.
Hypothesis push_ok : forall s w, back (push s w) = back w ++ [s].
Lemma factor_gen : forall fuel v w, (mu v < fuel)%nat -> length v = r -> Forall (fun s => (s < m)%nat) (back w) ->
  gives (factor fuel m test step push v w) (fun q => length (snd q) = r /\ dominant r m b (snd q) /\ Forall (fun s => (s < m)%nat) (back (fst q)) /\
    (length (back (fst q)) + mu (snd q) = length (back w) + mu v)%nat /\
    act_by r a b (back (fst q)) (snd q) = act_by r a b (back w) v) E.
Proof.

  intros fuel. induction fuel as [|k IH]; intros v w Hf L F; [lia|]. cbn [factor].
  eapply gives_bind; [apply (first_such_ok v L m 0%nat eq_refl); intros; lia|]. intros [s|] H.
  - destruct H as [Hs Neg]. eapply gives_bind; [apply (step_ok v s L Hs)|]. intros v1 <-. pose proof (mu_step s v Hs L Neg) as M.
    eapply gives_mono; [apply IH; [lia|apply away_length|rewrite push_ok; apply Forall_app; auto]|].
    intros q (Q1 & Q2 & Q3 & Q4 & Q5). split; [exact Q1|]. split; [exact Q2|]. split; [exact Q3|]. rewrite push_ok, app_length in Q4. cbn in Q4. split; [lia|]. rewrite Q5, push_ok.
    unfold act_by. rewrite fold_right_app. cbn [fold_right]. f_equal.
    apply ra_ra; auto.
  - cbn. split; [exact L|]. split; [exact H|]. split; [exact F|]. split; [lia|reflexivity].
Qed.
End Factor.

Lemma dot_into_run fits r v y : length v = r -> length y = r -> gives (dot_into fits idZ v y) (eq (dot r v y)) (overflows fits).
Proof.
  intros Lv Ly. unfold dot_into. rewrite Lv. apply (gives_upto0 (fun i c => c = zsum i (fun k => co v k * co y k))).
  - reflexivity.
  - intros i c Hi ->. rewrite (vget_ok _ _ _ (get_co v i ltac:(lia))), (vget_ok _ _ _ (get_co y i ltac:(lia))). cbn [bind].
    eapply gives_bind; [apply chk_run|]. intros q <-. eapply gives_bind; [apply chk_run|]. intros z <-. cbn. unfold idZ, zsum. cbn [fsum]. reflexivity.
  - intros c ->. reflexivity.
Qed.

Lemma nonneg_up n C u : good n C -> is_root n C u -> nonneg u -> up n C u.
Proof.
  intros (ca & (d & dp & sy & po) & _) Ro N. destruct (root_up n C ca (small_products n C d ca dp sy po) u Ro) as [U|U]; [exact U|].
  pose proof (up_height n C _ U) as H. rewrite height_opp, height_zsum in H. assert (0 <= zsum (length u) (co u)) by (apply zsum_nonneg; intros k _; apply N). lia.
Qed.
Section Ops.
Variable fits : Z -> bool.
Notation R := (zarith fits).
Notation E := (overflows fits).
Variables (r n : nat) (A B : nat -> nat -> Z) (p : predatum) (d : datum).
Notation al := (fcol r A).
Notation be := (fcol r B).
Notation C := (fun i j => dot r (al i) (be j)).
Hypothesis K : datum_ok r n A B p d.
Notation s := (d_sys d).
Notation emb := (comb r n al).
Notation coemb := (comb r n be).
Notation letters := (Forall (fun i => (i < n)%nat)).

Lemma k_n32 : (n <= 32)%nat. Proof. destruct (k_sys _ _ _ _ _ _ K) as [c H]. apply H. Qed.
Lemma k_ft : finite_type n C. Proof. destruct (k_sys _ _ _ _ _ _ K) as [c H]. apply H. Qed.
Lemma k_good : good n C /\ good n (flip C). Proof. apply top_good. apply k_ft. Qed.
Lemma k_ss : d_ssrank d = n.
Proof. destruct (k_sys _ _ _ _ _ _ K) as [c (L & F & H & Es)]. unfold d_ssrank. apply (y_rank n C s). apply (top_system n C c (p_prefer p) s L F H Es). Qed.
Lemma k_at a : (a < num_roots s)%nat -> root_coroot n C (root_at s a) (coroot_at s a).
Proof. destruct (k_sys _ _ _ _ _ _ K) as [c (L & F & H & Es)]. apply (top_numbers n C c (p_prefer p) s L F H Es). Qed.
Lemma k_simple i : (i < n)%nat -> (d_simple d i < num_roots s)%nat /\ root_at s (d_simple d i) = basis n i /\ coroot_at s (d_simple d i) = basis n i.
Proof. destruct (k_sys _ _ _ _ _ _ K) as [c (L & F & H & Es)]. apply (top_simple n C c (p_prefer p) s L F H Es). Qed.
Lemma d_root_run a : (a < num_roots s)%nat -> d_root d a = Ok (emb (root_at s a)) /\ d_coroot d a = Ok (coemb (coroot_at s a)).
Proof. intros H. split; apply vget_ok; [apply (k_root _ _ _ _ _ _ K)|apply (k_coroot _ _ _ _ _ _ K)]; exact H. Qed.
Lemma d_simple_run i : (i < n)%nat -> d_root d (d_simple d i) = Ok (al i) /\ d_coroot d (d_simple d i) = Ok (be i).
Proof.
  intros H. destruct (k_simple i H) as (Q & E1 & E2). destruct (d_root_run _ Q) as [D1 D2]. rewrite D1, D2, E1, E2, !comb_basis by (auto using fcol_length). auto.
Qed.
Lemma pairing_2 a : (a < num_roots s)%nat -> dot r (emb (root_at s a)) (coemb (coroot_at s a)) = 2.
Proof.
  intros H. rewrite (dot_emb_coemb r n al be C) by (intros; reflexivity). destruct k_good as [g g'].
  apply (rc_value n C (proj1 g)). apply k_at. exact H.
Qed.
Lemma reflect_run a v off : (a < num_roots s)%nat -> length v = r ->
  gives (d_reflect fits d a v off) (eq (away r v (dot r v (coemb (coroot_at s a)) + off) (emb (root_at s a)))) E /\
  gives (d_coreflect fits d v a off) (eq (away r v (dot r (emb (root_at s a)) v + off) (coemb (coroot_at s a)))) E.
Proof.
  intros H L. unfold d_reflect, d_coreflect. destruct (d_root_run a H) as [-> ->]. cbn [bind]. split.
  - eapply gives_bind; [apply (dot_run fits r); [apply comb_length|exact L]|]. intros c <-. eapply gives_bind; [apply chk_run|]. intros c1 <-. rewrite dot_comm. apply submul_run; [exact L|apply comb_length].
  - eapply gives_bind; [apply (dot_run fits r); [apply comb_length|exact L]|]. intros c <-. eapply gives_bind; [apply chk_run|]. intros c1 <-. apply submul_run; [exact L|apply comb_length].
Qed.
Lemma simple_run i v off : (i < n)%nat -> length v = r ->
  gives (d_reflect fits d (d_simple d i) v off) (eq (away r v (dot r v (be i) + off) (al i))) E /\
  gives (d_coreflect fits d v (d_simple d i) off) (eq (away r v (dot r (al i) v + off) (be i))) E.
Proof.
  intros H L. destruct (k_simple i H) as (Q & E1 & E2). pose proof (reflect_run (d_simple d i) v off Q L) as X. rewrite E1, E2, !comb_basis in X by (auto using fcol_length). exact X.
Qed.
Lemma letter ww k : letters ww -> (k < length ww)%nat -> exists i, get ww k = Some i /\ (i < n)%nat.
Proof. intros F H. destruct (get_some ww k H) as [i G]. exists i. split; [exact G|]. rewrite Forall_forall in F. apply F. apply (get_In ww k). exact G. Qed.
Lemma skipn_get {T} (l : list T) k x : get l k = Some x -> skipn k l = x :: skipn (S k) l.
Proof. revert l. induction k as [|k IH]; intros [|y l] H; try discriminate; [cbn in H; injection H as ->; reflexivity|]. cbn [skipn]. apply IH. exact H. Qed.
Lemma firstn_get {T} (l : list T) k x : get l k = Some x -> firstn (S k) l = firstn k l ++ [x].
Proof. revert l. induction k as [|k IH]; intros [|y l] H; try discriminate; [cbn in H; injection H as ->; reflexivity|]. cbn [firstn app]. f_equal. apply IH. exact H. Qed.
Lemma act_run ww v : letters ww -> length v = r -> gives (d_act fits d ww v) (eq (act_by r al be ww v)) E.
Proof.
  intros F L. unfold d_act. apply (gives_downto (fun k x => length x = r /\ x = act_by r al be (skipn k ww) v)).
  - rewrite skipn_all. split; [exact L|reflexivity].
  - intros k x Hk [Lx Ex]. destruct (letter ww k F Hk) as (i & G & Hi). rewrite (vget_ok _ _ _ G). cbn [bind]. eapply gives_mono; [apply (simple_run i x 0 Hi Lx)|]. intros y <-. split; [apply away_length|].
    rewrite (skipn_get ww k i G). cbn [act_by fold_right]. fold (act_by r al be (skipn (S k) ww) v). rewrite <- Ex. unfold reflect_at. f_equal. lia.
  - intros x [_ ->]. reflexivity.
Qed.
Lemma act_inverse_run ww v : letters ww -> length v = r -> gives (d_act_inverse fits d v ww) (eq (act_by r al be (rev ww) v)) E.
Proof.
  intros F L. unfold d_act_inverse. apply (gives_upto0 (fun k x => length x = r /\ x = act_by r al be (rev (firstn k ww)) v)).
  - split; [exact L|reflexivity].
  - intros k x Hk [Lx Ex]. destruct (letter ww k F Hk) as (i & G & Hi). rewrite (vget_ok _ _ _ G). cbn [bind]. eapply gives_mono; [apply (simple_run i x 0 Hi Lx)|]. intros y <-. split; [apply away_length|].
    rewrite (firstn_get ww k i G), rev_app_distr. cbn [rev app act_by fold_right]. fold (act_by r al be (rev (firstn k ww)) v). rewrite <- Ex. unfold reflect_at. f_equal. lia.
  - intros x [_ ->]. rewrite firstn_all. reflexivity.
Qed.
Lemma dual_act_run ww v : letters ww -> length v = r -> gives (d_dual_act fits d v ww) (eq (act_by r be al (rev ww) v)) E.
Proof.
  intros F L. unfold d_dual_act. apply (gives_upto0 (fun k x => length x = r /\ x = act_by r be al (rev (firstn k ww)) v)).
  - split; [exact L|reflexivity].
  - intros k x Hk [Lx Ex]. destruct (letter ww k F Hk) as (i & G & Hi). rewrite (vget_ok _ _ _ G). cbn [bind]. eapply gives_mono; [apply (simple_run i x 0 Hi Lx)|]. intros y <-. split; [apply away_length|].
    rewrite (firstn_get ww k i G), rev_app_distr. cbn [rev app act_by fold_right]. fold (act_by r be al (rev (firstn k ww)) v). rewrite <- Ex. unfold reflect_at. f_equal. rewrite dot_comm. lia.
  - intros x [_ ->]. rewrite firstn_all. reflexivity.
Qed.
(** affine actions: for a vector z whose value on simple coroot i is k times the shift, z + k x is transformed linearly *)
Lemma shifted_one i z k t x : (i < n)%nat -> length z = r -> length x = r -> dot r z (be i) = k * t ->
  away r z (- k) (away r x (dot r x (be i) + t) (al i)) = reflect_at r (al i) (be i) (away r z (- k) x).
Proof.
  intros Hi Lz Lx Hz. apply vec_ext; [rewrite ra_length, away_length; reflexivity|]. intros j _. unfold reflect_at. rewrite !co_away by (rewrite ?away_length; auto using fcol_length). rewrite dot_away, Hz by assumption. lia.
Qed.
Lemma shifted_one' i z k t x : (i < n)%nat -> length z = r -> length x = r -> dot r (al i) z = k * t ->
  away r z (- k) (away r x (dot r (al i) x + t) (be i)) = reflect_at r (be i) (al i) (away r z (- k) x).
Proof.
  intros Hi Lz Lx Hz. apply vec_ext; [rewrite ra_length, away_length; reflexivity|]. intros j _. unfold reflect_at. rewrite !co_away by (rewrite ?away_length; auto using fcol_length). rewrite dot_away, (dot_comm r z), Hz by assumption. rewrite (dot_comm r x). lia.
Qed.
Lemma shifted_act_run ww v shift z k : letters ww -> length v = r -> length shift = n -> length z = r -> (forall i, (i < n)%nat -> dot r z (be i) = k * co shift i) ->
  gives (d_shifted_act fits d ww v shift) (fun x => length x = r /\ away r z (- k) x = act_by r al be ww (away r z (- k) v)) E.
Proof.
  intros F L Ls Lz Hz. unfold d_shifted_act. apply (gives_downto (fun j x => length x = r /\ away r z (- k) x = act_by r al be (skipn j ww) (away r z (- k) v))).
  - rewrite skipn_all. split; [exact L|reflexivity].
  - intros j x Hj [Lx Ex]. destruct (letter ww j F Hj) as (i & G & Hi). rewrite (vget_ok _ _ _ G). cbn [bind]. rewrite (vget_ok _ _ _ (get_co shift i ltac:(lia))). cbn [bind].
    eapply gives_mono; [apply (simple_run i x _ Hi Lx)|]. intros y <-. split; [apply away_length|].
    rewrite (skipn_get ww j i G). cbn [act_by fold_right]. fold (act_by r al be (skipn (S j) ww) (away r z (- k) v)). rewrite <- Ex. apply shifted_one; auto.
  - intros x H. exact H.
Qed.
Lemma shifted_dual_act_run ww v shift z k : letters ww -> length v = r -> length shift = n -> length z = r -> (forall i, (i < n)%nat -> dot r (al i) z = k * co shift i) ->
  gives (d_shifted_dual_act fits d v ww shift) (fun x => length x = r /\ away r z (- k) x = act_by r be al (rev ww) (away r z (- k) v)) E.
Proof.
  intros F L Ls Lz Hz. unfold d_shifted_dual_act. apply (gives_upto0 (fun j x => length x = r /\ away r z (- k) x = act_by r be al (rev (firstn j ww)) (away r z (- k) v))).
  - split; [exact L|reflexivity].
  - intros j x Hj [Lx Ex]. destruct (letter ww j F Hj) as (i & G & Hi). rewrite (vget_ok _ _ _ G). cbn [bind]. rewrite (vget_ok _ _ _ (get_co shift i ltac:(lia))). cbn [bind].
    eapply gives_mono; [apply (simple_run i x _ Hi Lx)|]. intros y <-. split; [apply away_length|].
    rewrite (firstn_get ww j i G), rev_app_distr. cbn [rev app act_by fold_right]. fold (act_by r be al (rev (firstn j ww)) (away r z (- k) v)). rewrite <- Ex. apply shifted_one'; auto.
  - intros x H. rewrite firstn_all in H. exact H.
Qed.

(** ** positive roots and coroots as lists *)
Definition pos_roots : list (list Z) := map (root_at s) (seq (num_pos s) (num_pos s)).
Definition pos_coroots : list (list Z) := map (coroot_at s) (seq (num_pos s) (num_pos s)).
Lemma pos_ok : NoDup pos_roots /\ NoDup pos_coroots /\ (forall u, In u pos_roots <-> up n C u) /\ (forall w, In w pos_coroots <-> up n (flip C) w).
Proof.
  destruct (k_sys _ _ _ _ _ _ K) as [c (L & F & H & Es)]. destruct k_good as [g g']. set (pc := p_prefer p) in *.
  assert (ND : forall (f : nat -> list Z) l, NoDup l -> (forall a b, In a l -> In b l -> f a = f b -> a = b) -> NoDup (map f l)).
  { intros f l N. induction N as [|x l NI N IH]; intros I; [constructor|]. cbn. constructor; [|apply IH; intros a b Ia Ib; apply I; right; assumption].
    intros Q. apply in_map_iff in Q. destruct Q as (y & Ey & Iy). rewrite (I y x) in Iy; [contradiction|right; exact Iy|left; reflexivity|exact Ey]. }
  assert (rg : forall a, In a (seq (num_pos s) (num_pos s)) <-> (num_pos s <= a < num_roots s)%nat) by (intros a; rewrite in_seq; unfold num_roots; lia).
  split; [|split; [|split]].
  - apply ND; [apply seq_NoDup|]. intros a b Ia Ib Q. apply rg in Ia. apply rg in Ib. apply (top_inj n C c pc s L F H Es a b); [lia|lia|left; exact Q].
  - apply ND; [apply seq_NoDup|]. intros a b Ia Ib Q. apply rg in Ia. apply rg in Ib. apply (top_inj n C c pc s L F H Es a b); [lia|lia|right; exact Q].
  - intros u. split.
    + intros I. apply in_map_iff in I. destruct I as (a & <- & Ia). apply rg in Ia. pose proof (proj1 (top_sign n C c pc s L F H Es a ltac:(lia)) ltac:(lia)) as N.
      apply (nonneg_up n C _ g); [exists (coroot_at s a); apply k_at; lia|exact N].
    + intros U. destruct (up_root n C u U) as [w Rc]. destruct (top_every n C c pc s L F H Es u w Rc) as (a & Ha & <- & _). apply in_map. apply rg. split; [|exact Ha].
      apply (top_sign n C c pc s L F H Es a Ha). intros k. apply (up_nonneg n C). exact U.
  - intros w. split.
    + intros I. apply in_map_iff in I. destruct I as (a & <- & Ia). apply rg in Ia. pose proof (proj1 (top_sign n C c pc s L F H Es a ltac:(lia)) ltac:(lia)) as N.
      assert (Rc : root_coroot n C (root_at s a) (coroot_at s a)) by (apply k_at; lia).
      apply (rc_up_co n C g (root_at s a)); [exact Rc|]. apply (nonneg_up n C _ g); [eexists; exact Rc|exact N].
    + intros U. destruct (up_root n (flip C) w U) as [u Rc]. apply rc_flip in Rc. destruct (top_every n C c pc s L F H Es u w Rc) as (a & Ha & E1 & <-). apply in_map. apply rg. split; [|exact Ha].
      apply (top_sign n C c pc s L F H Es a Ha). rewrite E1. intros k. apply (up_nonneg n C). apply (rc_co_up n C g u (coroot_at s a)); assumption.
Qed.
End Ops.
