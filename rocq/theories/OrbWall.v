(** Vectors on all walls but one; the positive coroots of a subsystem. *)

From Coq Require Import List Arith ZArith Bool Lia Permutation.
From Verif Require Import VecModel VecProofs RunModel RunProofs MatModel MatSpec MatLin MatDet MatProofs MatOps MatProps LatModel LatSpec LatProps LieTypeSpec RootModel RootSpec RootBase RootMath RootForm RootFin RootCo RootUniq
  RootTop DatModel DatSpec DatMath DatProofs DatOps DatSub DatGens DatPre RsfBase OrbModel.
From Verif Require RsfSteps.
Import ListNotations.
Local Open Scope Z_scope.

Lemma first_such_gen (E : err -> Prop) (test : nat -> res bool) (q : nat -> bool) m : (forall j, (j < m)%nat -> gives (test j) (eq (q j)) E) ->
  forall k i, (i + k = m)%nat -> (forall j, (j < i)%nat -> q j = false) ->
  gives (first_such test k i) (fun o => match o with Some s => (s < m)%nat /\ q s = true | None => forall j, (j < m)%nat -> q j = false end) E.
Proof.
  intros H k. induction k as [|k IH]; intros i Hi Hj; cbn [first_such].
  - cbn. intros j Q. apply Hj. lia.
  - eapply gives_bind; [apply H; lia|]. intros t <-. destruct (q i) eqn:Q.
    + cbn. split; [lia|exact Q].
    + apply IH; [lia|]. intros j Q'. destruct (Nat.eq_dec j i) as [->|N]; [exact Q|apply Hj; lia].
Qed.
Lemma dot_opp_l r v w : dot r (opp v) w = - dot r v w.
Proof. unfold dot. replace (- zsum r (fun k => co v k * co w k)) with (-1 * zsum r (fun k => co v k * co w k)) by ring. rewrite <- zsum_mul_l. apply zsum_ext. intros k _. rewrite co_opp. ring. Qed.

Lemma up_ext1 m C D : (forall i j, (i < m)%nat -> (j < m)%nat -> C i j = D i j) -> forall u, up m C u -> up m D u.
Proof.
  intros H u U. induction U as [i Hi|i v Hi U IH P]; [apply up_simple; exact Hi|].
  assert (Q : pairing m C v i = pairing m D v i) by (unfold pairing; apply zsum_ext; intros k Hk; rewrite (H k i Hk Hi); reflexivity).
  replace (sreflect m C i v) with (sreflect m D i v) by (unfold sreflect; rewrite Q; reflexivity). apply up_reflect; [exact Hi|exact IH|]. rewrite <- Q. exact P.
Qed.
Lemma up_ext m C D u : (forall i j, (i < m)%nat -> (j < m)%nat -> C i j = D i j) -> (up m C u <-> up m D u).
Proof. intros H. split; apply up_ext1; intros i j Hi Hj; [|symmetry]; apply H; assumption. Qed.

Section Wall.
Variable fits : Z -> bool.
Variable as_int : Z -> Z.
Hypothesis int_id : forall z, as_int z = z.
Notation E := (overflows fits).
Variables (r n : nat) (al be : nat -> list Z) (C : nat -> nat -> Z).
Hypothesis La : forall i, (i < n)%nat -> length (al i) = r.
Hypothesis Lb : forall i, (i < n)%nat -> length (be i) = r.
Hypothesis HC : forall i j, (i < n)%nat -> (j < n)%nat -> dot r (al i) (be j) = C i j.
Hypothesis gd : good n C.
(** some combination of the roots is on all walls but that of [i] *)
Lemma off_wall i : (i < n)%nat -> exists x, length x = r /\ dot r x (be i) <> 0 /\ forall j, (j < n)%nat -> j <> i -> dot r x (be j) = 0.
Proof.
  intros Hi. destruct (adjugate n C) as (g & _ & G). exists (comb r n al (fcol n (fun k i => g i k) i)). split; [apply comb_length|].
  assert (X : forall j, (j < n)%nat -> dot r (comb r n al (fcol n (fun k i => g i k) i)) (be j) = det n C * delta i j).
  { intros j Hj. rewrite dot_comb. rewrite <- (G i j Hi Hj). unfold fmul. apply zsum_ext. intros k Hk. rewrite co_fcol by exact Hk. rewrite (HC k j Hk Hj). reflexivity. }
  split.
  - rewrite (X i Hi). unfold delta. rewrite Nat.eqb_refl, Z.mul_1_r. apply Cartan_det. exact gd.
  - intros j Hj N. rewrite (X j Hj). unfold delta. destruct (Nat.eqb_spec i j); [congruence|lia].
Qed.
Variable pos : nat -> nat.
Variable lab : list nat.
Hypothesis lab_n : forall x, In x lab -> (pos x < n)%nat.
Variable cb : nat -> res (list Z).
Hypothesis cb_ok : forall x, In x lab -> cb x = Ok (be (pos x)).
Lemma wall_run stab i : (forall x, In x stab -> In x lab) -> In i lab -> (forall x, In x stab -> pos x <> pos i) ->
  gives (wall_vector fits as_int cb r stab i) (fun e => length e = r /\ 0 < dot r e (be (pos i)) /\ forall x, In x stab -> dot r e (be (pos x)) = 0) E.
Proof.
  intros Sl Il Np. unfold wall_vector. set (m := length stab). set (f := fun a b => co (be (pos (nth a stab 0%nat))) b).
  assert (Nth : forall a, (a < m)%nat -> vget stab a = Ok (nth a stab 0%nat) /\ In (nth a stab 0%nat) stab). { intros a Ha. split; [apply vget_ok; unfold get; apply nth_error_nth'; exact Ha|apply nth_In; exact Ha]. }
  eapply gives_bind.
  { apply (gives_upto0 (fun k M => exists h, is_mx M m r h /\ forall a b, (a < k)%nat -> (b < r)%nat -> h a b = f a b) _ _ _ (fun M => is_mx M m r f)).
    - exists (fun _ _ => 0). split; [apply fill_ok|intros; lia].
    - intros k M Hk (h & HM & Eh). destruct (Nth k Hk) as [-> Ik]. cbn [bind]. rewrite (cb_ok _ (Sl _ Ik)). cbn [bind].
      eapply gives_mono; [apply (set_row_ok M m r h k _ _ HM Hk (vec_self _ r (Lb _ (lab_n _ (Sl _ Ik)))))|]. intros M1 H1. eexists. split; [exact H1|].
      intros a b Ha Hb. cbn beta. destruct (Nat.eqb_spec a k) as [->|Q]; [reflexivity|]. apply Eh; lia.
    - intros M (h & HM & Eh). destruct HM as (A1 & A2 & A3 & A4). split; [exact A1|]. split; [exact A2|]. split; [exact A3|]. intros a b Ha Hb. rewrite A4 by assumption. rewrite Eh by assumption. reflexivity. }
  intros M HM. eapply gives_bind; [apply (C86_kernel fits as_int int_id M m r f HM)|]. intros Kr (k & g & HK & (Bas & _)). rewrite (cb_ok i Il). cbn [bind].
  pose proof (lab_n i Il) as Hi. rewrite (is_mx_cols _ _ _ _ HK).
  assert (Cz : forall j x, (j < k)%nat -> In x stab -> dot r (fcol r g j) (be (pos x)) = 0).
  { intros j x Hj Ix. destruct (In_nth stab x 0%nat Ix) as (a & Ha & Ea).
    assert (An : annihilated m r f (fun b => g b j)). { apply Bas. exists (fun t => delta t j). intros b Hb. symmetry. apply (fmul_id_r k g b j Hj). }
    specialize (An a Ha). unfold fapply, f in An. rewrite Ea in An. unfold dot. rewrite <- An. apply zsum_ext. intros b Hb. rewrite co_fcol by exact Hb. ring. }
  eapply gives_bind.
  { apply (first_such_gen E _ (fun j => negb (dot r (fcol r g j) (be (pos i)) =? 0)) k); [|reflexivity|intros; lia]. intros j Hj. rewrite (column_run Kr r k g j HK Hj). cbn [bind]. eapply gives_bind; [apply (dot_into_run fits r); [apply Lb, Hi|apply fcol_length]|]. intros c <-. apply gives_ok. rewrite dot_comm. reflexivity. }
  intros [j|] Hj.
  - destruct Hj as [Hj Q]. apply negb_true_iff, Z.eqb_neq in Q. rewrite (column_run Kr r k g j HK Hj). cbn [bind]. eapply gives_bind; [apply (dot_into_run fits r); [apply Lb, Hi|apply fcol_length]|]. intros c <-. rewrite dot_comm. destruct (Z.ltb_spec (dot r (fcol r g j) (be (pos i))) 0) as [L|L].
    + eapply gives_mono; [apply neg_run|]. intros e <-. split; [unfold opp; rewrite map_length; apply fcol_length|]. split; [rewrite dot_opp_l; lia|]. intros x Ix. rewrite dot_opp_l, (Cz j x Hj Ix). reflexivity.
    + apply gives_ok. split; [apply fcol_length|]. split; [lia|]. intros x Ix. apply Cz; assumption.
  - exfalso. destruct (off_wall (pos i) Hi) as (x & Lx & Nz & Zx). apply Nz.
    destruct (proj1 (Bas (co x))) as (c & Ec).
    { intros a Ha. destruct (Nth a Ha) as [_ Ia]. unfold fapply, f. rewrite <- (Zx (pos (nth a stab 0%nat)) (lab_n _ (Sl _ Ia)) (Np _ Ia)). unfold dot. apply zsum_ext. intros; ring. }
    unfold dot. rewrite (zsum_ext r _ (fun b => zsum k (fun j => c j * (g b j * co (be (pos i)) b)))).
    + rewrite RootForm.zsum_swap. apply zsum_zero. intros j0 Hj0. rewrite zsum_mul_l. specialize (Hj j0 Hj0). apply negb_false_iff, Z.eqb_eq in Hj. unfold dot in Hj. rewrite (zsum_ext r _ (fun b => co (fcol r g j0) b * co (be (pos i)) b)) by (intros b Hb; rewrite co_fcol by exact Hb; reflexivity). rewrite Hj. ring.
    + intros b Hb. rewrite (Ec b Hb). unfold fapply. rewrite <- zsum_mul_r. apply zsum_ext. intros; ring.
Qed.
End Wall.

(** ** the roots listed are the simple roots of a root datum *)
Section Listed.
Variables (r n : nat) (A B : nat -> nat -> Z) (p : predatum) (d : datum).
Hypothesis K : datum_ok r n A B p d.
Notation s := (d_sys d).
Notation rt a := (comb r n (fcol r A) (root_at s a)).
Notation crt a := (comb r n (fcol r B) (coroot_at s a)).
Variable g : list nat.
Hypothesis Fg : Forall (fun a => (a < num_roots s)%nat) g.
Notation m := (length g).
Definition ral (i : nat) : list Z := rt (nth i g 0%nat).
Definition rbe (i : nat) : list Z := crt (nth i g 0%nat).
Notation Cg := (fun i j => dot r (ral i) (rbe j)).
Hypothesis ft : finite_type m Cg.
Lemma g_at i : (i < m)%nat -> (nth i g 0 < num_roots s)%nat.
Proof. intros H. rewrite Forall_forall in Fg. apply Fg, nth_In, H. Qed.
Lemma listed_width : (m <= n)%nat.
Proof.
  destruct (top_good m _ ft) as [gd _].
  apply (independent_wide n m (fun k i => co (root_at s (nth i g 0%nat)) k)).
  apply (independent_roots n m _ (fun k i => co (RsfSteps.form_of n (fun i j => dot r (fcol r A i) (fcol r B j)) (coroot_at s (nth i g 0%nat))) k) Cg); [|exact gd].
  intros i j Hi Hj. unfold ral, rbe. rewrite (dot_emb_coemb r n (fcol r A) (fcol r B) (fun i j => dot r (fcol r A i) (fcol r B j))) by (intros; reflexivity). rewrite <- RsfSteps.form_dot. unfold dot. apply zsum_ext. intros k Hk. rewrite !co_fcol by exact Hk. reflexivity.
Qed.
Lemma listed_roots_at u w : root_coroot m Cg u w -> exists b, (b < num_roots s)%nat /\ rt b = comb r m ral u.
Proof.
  assert (Ll : forall i, (i < m)%nat -> length (ral i) = r) by (intros; apply comb_length).
  intros R. induction R as [i Hi|i u w Hi R IH].
  - exists (nth i g 0%nat). split; [apply g_at; exact Hi|]. symmetry. apply (comb_basis r m ral i Hi). apply Ll, Hi.
  - destruct IH as (b & Hb & Eb). destruct (moved_at r n A B p d K (nth i g 0%nat) b (g_at i Hi) Hb) as (Hm & _ & Em & _). exists (moved d (nth i g 0%nat) b). split; [exact Hm|]. rewrite Em, Eb. symmetry.
    apply (emb_sr r m ral rbe Cg Ll); [intros; reflexivity|exact Hi|apply (root_coroot_length m Cg u w R)].
Qed.
(** lists of its positive roots and coroots, not more than there are roots *)
Lemma listed_positive : exists P P', NoDup P /\ NoDup P' /\ (forall u, In u P <-> up m Cg u) /\ (forall w, In w P' <-> up m (flip Cg) w) /\ (length P <= num_roots s)%nat /\ (length P' <= num_roots s)%nat.
Proof.
  destruct (top_good m _ ft) as [gd gd']. set (A' := fun i j => co (ral j) i). set (B' := fun i j => co (rbe j) i).
  assert (QA : forall i, (i < m)%nat -> fcol r A' i = ral i) by (intros i Hi; apply vec_ext; [rewrite fcol_length; unfold ral; rewrite comb_length; reflexivity|]; intros k Hk; rewrite fcol_length in Hk; rewrite co_fcol by exact Hk; reflexivity).
  assert (QB : forall i, (i < m)%nat -> fcol r B' i = rbe i) by (intros i Hi; apply vec_ext; [rewrite fcol_length; unfold rbe; rewrite comb_length; reflexivity|]; intros k Hk; rewrite fcol_length in Hk; rewrite co_fcol by exact Hk; reflexivity).
  destruct (mx_any r m A') as [MA HA]. destruct (mx_any r m B') as [MB HB]. pose proof listed_width as W. pose proof (k_n32 r n A B p d K) as L32.
  assert (ft' : finite_type m (fun i j => dot r (fcol r A' i) (fcol r B' j))) by (apply (finite_ext m Cg); [intros i j Hi Hj; rewrite QA, QB by assumption; reflexivity|exact ft]).
  pose proof (root_datum_ok (fun _ => true) r m A' B' (mk_pre MA MB false) HA HB ltac:(lia) ft') as G. destruct (root_datum (fun _ => true) (mk_pre MA MB false)) as [d'|e] eqn:Ed; cbn [gives] in G; [|destruct G as (_ & z & Q); discriminate].
  destruct (pos_ok r m A' B' _ d' G) as (N1 & N2 & U1 & U2).
  assert (Ext : forall u, up m (fun i j => dot r (fcol r A' i) (fcol r B' j)) u <-> up m Cg u) by (intros u; apply up_ext; intros i j Hi Hj; rewrite QA, QB by assumption; reflexivity).
  assert (Ext' : forall u, up m (flip (fun i j => dot r (fcol r A' i) (fcol r B' j))) u <-> up m (flip Cg) u) by (intros u; apply up_ext; intros i j Hi Hj; unfold flip; rewrite QA, QB by assumption; reflexivity).
  assert (Ln : (length (pos_roots d') <= num_roots s)%nat).
  { rewrite <- (map_length (comb r m ral)). replace (num_roots s) with (length (map (fun b => rt b) (seq 0 (num_roots s)))) by (rewrite map_length; apply seq_length). apply NoDup_incl_length.
    - assert (I : forall u u', In u (pos_roots d') -> In u' (pos_roots d') -> comb r m ral u = comb r m ral u' -> u = u') by (intros u u' Iu Iu'; apply (emb_inj r m ral rbe Cg); [intros; reflexivity|exact gd|apply (up_length m Cg), Ext, U1, Iu|apply (up_length m Cg), Ext, U1, Iu']).
      clear - N1 I. induction N1 as [|x l NI N IH]; [constructor|]. cbn. constructor; [|apply IH; intros a b Ia Ib; apply I; right; assumption]. intros Q. apply in_map_iff in Q. destruct Q as (y & Ey & Iy). rewrite (I y x) in Iy; [contradiction|right; exact Iy|left; reflexivity|exact Ey].
    - intros x Ix. apply in_map_iff in Ix. destruct Ix as (u & <- & Iu). apply U1, Ext in Iu. destruct (up_root m Cg u Iu) as [w R]. destruct (listed_roots_at u w R) as (b & Hb & Eb). apply in_map_iff. exists b. split; [exact Eb|apply in_seq; lia]. }
  exists (pos_roots d'), (pos_coroots d'). split; [exact N1|]. split; [exact N2|]. split; [intros u; rewrite U1; apply Ext|]. split; [intros u; rewrite U2; apply Ext'|]. split; [exact Ln|]. unfold pos_coroots. unfold pos_roots in Ln. rewrite map_length in *. exact Ln.
Qed.
End Listed.
