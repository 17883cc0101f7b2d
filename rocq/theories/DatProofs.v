(** Vectors and matrices of integers as lists; the Cartan matrix and the constructor of root data. *)

From Coq Require Import List Arith ZArith Bool Lia Permutation.
From Verif Require Import VecModel RunModel RunProofs MatModel MatSpec MatProofs MatLin MatOps MatProps LatModel SizeModel LieTypeModel LieTypeSpec
  RootModel RootSpec RootBase RootMath RootForm RootFin RootCo RootAcc RootSys RootUniq RootBasis RootTop RootProps DatModel DatSpec DatMath.
Import ListNotations.
Local Open Scope Z_scope.

Lemma vec_self (v : list Z) r : length v = r -> is_vec v r (co v).
Proof. intros L. split; [exact L|]. intros i Hi. apply get_co. lia. Qed.
Lemma vec_co (v : list Z) r f k : is_vec v r f -> (k < r)%nat -> co v k = f k.
Proof. intros [L H] Hk. specialize (H k Hk). rewrite get_co in H by lia. congruence. Qed.
Lemma vec_is (v w : list Z) r f : is_vec v r f -> length w = r -> (forall k, (k < r)%nat -> co w k = f k) -> v = w.
Proof. intros H L K. apply vec_ext; [rewrite L; apply H|]. intros k Hk. rewrite (proj1 H) in Hk. rewrite K by exact Hk. apply (vec_co v r f); assumption. Qed.
Lemma fcol_length r f j : length (fcol r f j) = r.
Proof. unfold fcol. rewrite map_length, seq_length. reflexivity. Qed.
Lemma co_fcol r f j k : (k < r)%nat -> co (fcol r f j) k = f k j.
Proof. intros H. unfold co, fcol. rewrite (nth_indep _ 0 (f 0%nat j)) by (rewrite map_length, seq_length; exact H). rewrite (map_nth (fun i => f i j)). rewrite seq_nth by exact H. reflexivity. Qed.

Section Fits.
Variable fits : Z -> bool.
Notation R := (zarith fits).
Notation E := (overflows fits).
Lemma dot_run r v w : length v = r -> length w = r -> gives (vec_dot R v w) (eq (dot r v w)) E.
Proof. intros Lv Lw. apply (proj1 (proj2 (proj2 (proj2 (proj2 (proj2 (C58_vector_operations R _ _ _ _ (C58_integers fits) v w r (co v) (co w) 0 (vec_self v r Lv) (vec_self w r Lw)))))))). Qed.
Lemma add_run r v w : length v = r -> length w = r -> gives (vec_add R v w) (eq (plus r v w)) E.
Proof.
  intros Lv Lw. eapply gives_mono; [apply (proj1 (C58_vector_operations R _ _ _ _ (C58_integers fits) v w r (co v) (co w) 0 (vec_self v r Lv) (vec_self w r Lw)))|].
  intros u H. symmetry. apply (vec_is _ _ _ _ H (plus_length r v w)). intros k Hk. apply co_plus; assumption.
Qed.
Lemma neg_run v : gives (vec_negate R v) (eq (opp v)) E.
Proof.
  eapply gives_mono; [apply (proj1 (proj2 (proj2 (proj2 (proj2 (C58_vector_operations R _ _ _ _ (C58_integers fits) v v _ (co v) (co v) 0 (vec_self v _ eq_refl) (vec_self v _ eq_refl)))))))|].
  intros u H. symmetry. apply (vec_is _ _ _ _ H (opp_length v)). intros k Hk. apply co_opp.
Qed.
Lemma chk_run z : gives (chkz fits z) (eq z) E.
Proof. unfold chkz. destruct (fits z) eqn:F; cbn; [reflexivity|]. split; [reflexivity|]. exists z. exact F. Qed.
Lemma vmap2_run (op : Z -> Z -> res Z) (g : Z -> Z -> Z) r : (forall x y, gives (op x y) (eq (g x y)) E) ->
  forall v w, length v = r -> length w = r -> gives (vmap2 op v w) (fun u => length u = r /\ forall k, (k < r)%nat -> co u k = g (co v k) (co w k)) E.
Proof.
  intros H. induction r as [|r IH]; intros [|x v] [|y w] Lv Lw; try discriminate; cbn [vmap2].
  - cbn. split; [reflexivity|]. intros k Hk. lia.
  - eapply gives_bind; [apply H|]. intros z <-. eapply gives_bind; [apply (IH v w); [cbn in Lv; lia|cbn in Lw; lia]|]. intros u [Lu Hu]. cbn. split; [lia|]. intros [|k] Hk; [reflexivity|]. apply Hu. lia.
Qed.
Lemma addmul_run r v b c : length v = r -> length b = r -> gives (vec_addmul fits v b c) (eq (away r v (- c) b)) E.
Proof.
  intros Lv Lb. unfold vec_addmul. destruct (Z.eqb_spec c 0) as [->|N].
  - cbn. apply vec_ext; [rewrite away_length; lia|]. intros k _. rewrite co_away by assumption. lia.
  - eapply gives_mono; [apply (vmap2_run _ (fun x y => x + y * c) r); [|assumption|assumption]|].
    + intros x y. eapply gives_bind; [apply chk_run|]. intros z <-. apply chk_run.
    + intros u [Lu Hu]. apply vec_ext; [rewrite away_length; lia|]. intros k Hk. rewrite away_length in Hk. rewrite co_away by assumption. rewrite Hu by exact Hk. lia.
Qed.
Lemma submul_run r v b c : length v = r -> length b = r -> gives (vec_submul fits v b c) (eq (away r v c b)) E.
Proof.
  intros Lv Lb. unfold vec_submul. eapply gives_bind; [apply chk_run|]. intros z <-. pose proof (addmul_run r v b (- c) Lv Lb) as H. rewrite Z.opp_involutive in H. exact H.
Qed.
Lemma apply_run M r n A e : is_mx M r n A -> length e = n -> gives (mat_apply R M e) (eq (comb r n (fcol r A) e)) E.
Proof.
  intros H L. destruct (C58_products R _ _ _ _ (C58_integers fits) M (mat_fill n 0 0) r n 0 A (fun _ _ => 0) H) as (_ & Q & _).
  { split; [reflexivity|]. split; [reflexivity|]. split; [cbn; rewrite repeat_length; reflexivity|]. intros i j _ Hj. lia. }
  eapply gives_mono; [apply (Q e (co e)); apply vec_self; exact L|]. intros u Hu. symmetry. apply (vec_is _ _ _ _ Hu (comb_length r n _ e)). intros k Hk. rewrite co_comb by exact Hk.
  apply zsum_ext. intros i Hi. rewrite co_fcol by exact Hk. lia.
Qed.
Lemma column_run M r n A j : is_mx M r n A -> (j < n)%nat -> mat_column 0 M j = Ok (fcol r A j).
Proof.
  intros H Hj. assert (Q : gives (mat_column 0 M j) (fun v => is_vec v r (fun i => A i j)) never) by (eapply column_ok; eassumption). destruct (mat_column 0 M j) as [v|e]; [|destruct Q]. cbn in Q. f_equal. apply (vec_is _ _ _ _ Q (fcol_length r A j)). intros k Hk. apply co_fcol; exact Hk.
Qed.

(** ** the Cartan matrix and the constructor *)
Section Datum.
Variables (r n : nat) (A B : nat -> nat -> Z) (p : predatum).
Hypothesis HA : is_mx (p_roots p) r n A.
Hypothesis HB : is_mx (p_coroots p) r n B.
Notation al := (fcol r A).
Notation be := (fcol r B).
Notation C := (fun i j => dot r (al i) (be j)).
Lemma p_Cartan_ok : gives (p_Cartan fits p) (fun M => is_mx M n n C) E.
Proof.
  unfold p_Cartan, p_ssrank. rewrite (proj1 (proj2 HA)).
  apply (gives_upto0 (fun i M => exists g, is_mx M n n g /\ forall a b, (a < i)%nat -> (b < n)%nat -> g a b = C a b)).
  - exists (fun _ _ => 0). split; [apply fill_ok|]. intros; lia.
  - intros i M Hi (g & HM & Hg). apply (gives_upto0 (fun j M => exists g, is_mx M n n g /\ forall a b, (a < n)%nat -> (b < n)%nat -> (a < i \/ (a = i /\ b < j))%nat -> g a b = C a b)).
    + exists g. split; [exact HM|]. intros a b Ha Hb [Q|Q]; [apply Hg; assumption|lia].
    + intros j M1 Hj (g1 & HM1 & Hg1). unfold p_root, p_coroot. rewrite (column_run _ _ _ _ i HA Hi), (column_run _ _ _ _ j HB Hj). cbn [bind].
      eapply gives_bind; [apply (dot_run r); apply fcol_length|]. intros x <-. apply (gives_mput _ _ _ _ _ _ _ _ HM1 Hi Hj). intros M2 H2. exists (upd g1 i j (C i j)). split; [exact H2|].
      intros a b Ha Hb Q. unfold upd. destruct (Nat.eqb_spec a i) as [->|Na]; cbn [andb]; [destruct (Nat.eqb_spec b j) as [->|Nb]; [reflexivity|]|]; apply Hg1; auto; lia.
    + intros M1 (g1 & HM1 & Hg1). exists g1. split; [exact HM1|]. intros a b Ha Hb. apply Hg1; [lia|exact Hb|lia].
  - intros M (g & HM & Hg). eapply is_mx_ext; [exact HM|]. intros a b Ha Hb. apply Hg; assumption.
Qed.

Hypothesis n32 : (n <= 32)%nat.
Hypothesis ft : finite_type n C.
(** what the constructor makes: a root system for the Cartan matrix, and the images of its roots and coroots *)
Record datum_ok (d : datum) : Prop := {
  k_sys : exists c, built n C c (p_prefer p) (d_sys d);
  k_rank : d_rank d = r;
  k_lens : length (d_roots d) = num_roots (d_sys d) /\ length (d_coroots d) = num_roots (d_sys d);
  k_root : forall a, (a < num_roots (d_sys d))%nat -> get (d_roots d) a = Some (comb r n al (root_at (d_sys d) a));
  k_coroot : forall a, (a < num_roots (d_sys d))%nat -> get (d_coroots d) a = Some (comb r n be (coroot_at (d_sys d) a));
  k_2rho : d_2rho d = vsum r (map (fun a => comb r n al (root_at (d_sys d) a)) (seq (num_pos (d_sys d)) (num_pos (d_sys d))));
  k_dual_2rho : d_dual_2rho d = vsum r (map (fun a => comb r n be (coroot_at (d_sys d) a)) (seq (num_pos (d_sys d)) (num_pos (d_sys d)))) }.
Lemma vsum_snoc m l x : Forall (fun v => length v = m) l -> length x = m -> vsum m (l ++ [x]) = plus m (vsum m l) x.
Proof.
  intros F L. rewrite vsum_app by exact F. f_equal. cbn. apply vec_ext; [rewrite plus_length; lia|]. intros k _. rewrite co_plus by (rewrite ?repeat_length; auto). unfold co at 2. rewrite nth_repeat. lia.
Qed.
Lemma expr_pos s a : (num_pos s <= a)%nat -> root_expr s a = root_any s a /\ coroot_expr s a = coroot_any s a.
Proof. intros H. unfold root_expr, coroot_expr, root_any, coroot_any, expr_vec, any_vec, abs_nr, is_pos. rewrite (proj2 (Nat.leb_le _ _) H). split; destruct (vget _ _); reflexivity. Qed.
Theorem root_datum_ok : gives (root_datum fits p) datum_ok E.
Proof.
  unfold root_datum. eapply gives_bind; [apply p_Cartan_ok|]. intros c Hc. destruct (C94_succeeds n C c (p_prefer p) n32 ft Hc) as [s Es]. rewrite Es. cbn [bind].
  assert (Bt : built n C c (p_prefer p) s) by (split; [exact n32|]; split; [exact ft|]; split; [exact Hc|exact Es]).
  set (np := num_pos s). unfold p_rank. rewrite (proj1 HA).
  assert (NR : num_roots s = (2 * np)%nat) by reflexivity.
  eapply gives_bind.
  - apply (gives_upto (fun a '(rts, crts, tr, dtr) => length rts = (2 * np)%nat /\ length crts = (2 * np)%nat /\
      (forall b, (np <= b < a)%nat -> get rts b = Some (comb r n al (root_at s b)) /\ get rts (minus_nr np b) = Some (opp (comb r n al (root_at s b)))) /\
      (forall b, (np <= b < a)%nat -> get crts b = Some (comb r n be (coroot_at s b)) /\ get crts (minus_nr np b) = Some (opp (comb r n be (coroot_at s b)))) /\
      tr = vsum r (map (fun a => comb r n al (root_at s a)) (seq np (a - np))) /\ dtr = vsum r (map (fun a => comb r n be (coroot_at s a)) (seq np (a - np))))).
    + rewrite !repeat_length, Nat.sub_diag. split; [lia|]. split; [lia|]. split; [intros; lia|]. split; [intros; lia|]. split; reflexivity.
    + intros a [[[rts crts] tr] dtr] Ha (L1 & L2 & K1 & K2 & -> & ->). destruct (C94_sound n C c (p_prefer p) s a Bt ltac:(lia)) as (u & w & Eu & Ew & Rc).
      destruct (root_coroot_length n C u w Rc) as [Lu Lw].
      assert (Au : root_at s a = u) by (unfold root_at; rewrite Eu; reflexivity). assert (Aw : coroot_at s a = w) by (unfold coroot_at; rewrite Ew; reflexivity).
      destruct (expr_pos s a ltac:(lia)) as [X1 X2]. rewrite X1, X2, Eu, Ew. cbn [bind].
      eapply gives_bind; [apply (apply_run _ r n A u HA Lu)|]. intros x <-.
      destruct (vput_ok rts a (comb r n al u) ltac:(lia)) as (rts1 & P1 & LP1 & G1). rewrite P1. cbn [bind].
      eapply gives_bind; [apply (apply_run _ r n B w HB Lw)|]. intros y <-.
      destruct (vput_ok crts a (comb r n be w) ltac:(lia)) as (crts1 & P2 & LP2 & G2). rewrite P2. cbn [bind].
      eapply gives_bind; [apply (add_run r); [apply vsum_length|apply comb_length]|]. intros tr1 <-.
      eapply gives_bind; [apply (add_run r); [apply vsum_length|apply comb_length]|]. intros dtr1 <-.
      eapply gives_bind; [apply neg_run|]. intros nx <-.
      assert (Hm : (minus_nr np a < 2 * np)%nat) by (unfold minus_nr; lia).
      destruct (vput_ok rts1 (minus_nr np a) (opp (comb r n al u)) ltac:(lia)) as (rts2 & P3 & LP3 & G3). rewrite P3. cbn [bind].
      eapply gives_bind; [apply neg_run|]. intros ny <-.
      destruct (vput_ok crts1 (minus_nr np a) (opp (comb r n be w)) ltac:(lia)) as (crts2 & P4 & LP4 & G4). rewrite P4. cbn [bind gives].
      split; [lia|]. split; [lia|].
      split; [|split].
      * intros b Hb. rewrite !G3, !G1. destruct (Nat.eqb_spec b (minus_nr np a)) as [Q|_]; [unfold minus_nr in Q; lia|].
        destruct (Nat.eqb_spec b a) as [->|N]; [rewrite Nat.eqb_refl, Au; auto|]. destruct (Nat.eqb_spec (minus_nr np b) (minus_nr np a)) as [Q|_]; [unfold minus_nr in Q; lia|].
        destruct (Nat.eqb_spec (minus_nr np b) a) as [Q|_]; [unfold minus_nr in Q; lia|]. apply K1. lia.
      * intros b Hb. rewrite !G4, !G2. destruct (Nat.eqb_spec b (minus_nr np a)) as [Q|_]; [unfold minus_nr in Q; lia|].
        destruct (Nat.eqb_spec b a) as [->|N]; [rewrite Nat.eqb_refl, Aw; auto|]. destruct (Nat.eqb_spec (minus_nr np b) (minus_nr np a)) as [Q|_]; [unfold minus_nr in Q; lia|].
        destruct (Nat.eqb_spec (minus_nr np b) a) as [Q|_]; [unfold minus_nr in Q; lia|]. apply K2. lia.
      * replace (S a - np)%nat with (S (a - np)) by lia. rewrite seq_S, !map_app. cbn [map]. replace (np + (a - np))%nat with a by lia. rewrite Au, Aw.
        rewrite !vsum_snoc; [split; reflexivity| | | |]; try apply comb_length; apply Forall_forall; intros v I; apply in_map_iff in I; destruct I as (q & <- & _); apply comb_length.
  - intros [[[rts crts] tr] dtr] (L1 & L2 & K1 & K2 & -> & ->). cbn [gives].
    replace (np + np - np)%nat with np by lia.
    assert (MM : forall a, (a < np)%nat -> minus_nr np (minus_nr np a) = a /\ (np <= minus_nr np a < np + np)%nat) by (intros a Ha; unfold minus_nr; lia).
    constructor; cbn [d_sys d_rank d_roots d_coroots d_2rho d_dual_2rho]; try reflexivity.
    + exists c. exact Bt.
    + rewrite NR. split; assumption.
    + rewrite NR. intros a Ha. destruct (Nat.le_gt_cases np a) as [G|G]; [apply K1; lia|]. destruct (MM a G) as [M1 M2]. destruct (K1 _ M2) as [_ Q]. rewrite M1 in Q. rewrite Q. f_equal.
      rewrite <- comb_opp. f_equal. pose proof (top_minus n C c (p_prefer p) s n32 ft Hc Es (minus_nr np a)) as TM. fold np in TM. rewrite M1, NR in TM. symmetry. apply TM. lia.
    + rewrite NR. intros a Ha. destruct (Nat.le_gt_cases np a) as [G|G]; [apply K2; lia|]. destruct (MM a G) as [M1 M2]. destruct (K2 _ M2) as [_ Q]. rewrite M1 in Q. rewrite Q. f_equal.
      rewrite <- comb_opp. f_equal. pose proof (top_minus n C c (p_prefer p) s n32 ft Hc Es (minus_nr np a)) as TM. fold np in TM. rewrite M1, NR in TM. symmetry. apply TM. lia.
Qed.
End Datum.
End Fits.
